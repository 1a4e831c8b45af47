-Q theories Verif
theories/RealsMC.v
theories/RealTac.v
theories/Star.v
theories/StarInst.v
theories/FunCalc.v
theories/Model_featurearray.v
theories/Spec_featurearray.v
theories/Proofs_featurearray.v
theories/Proofs_fa2.v
theories/Props_featurearray.v
theories/Model_utils.v
theories/Props_utils.v
theories/Model_linalg.v
theories/Proofs_linalg.v
theories/Props_linalg.v
theories/Model_covariance.v
theories/Spec_covariance.v
theories/Model_estimators.v
theories/Proofs_mest.v
theories/Proofs_loop.v
theories/Proofs_covariance.v
theories/Proofs_estimators.v
theories/Props_covariance.v
theories/Proofs_cost.v
theories/RealRep.v
theories/Props_cost.v
theories/NpArray.v
theories/Model_mappings.v
theories/Proofs_numpy.v
theories/Proofs_mappings.v
theories/Props_mappings.v
theories/Model_float.v
theories/Props_float.v
theories/Model_scipy.v
theories/Model_probability.v
theories/Proofs_probability.v
theories/Props_probability.v
theories/RealTac2.v
theories/Model_scores.v
theories/RobustNum.v
theories/Props_robust.v
theories/Props_robust2.v
theories/Model_vecnum.v
theories/VecNum.v
theories/Model_vec.v
theories/Proofs_vec.v
theories/Props_vec.v
theories/Model_manifolds.v
theories/Props_spv.v
theories/Proofs_hpd.v
theories/Props_hpd.v
theories/Props_shpd.v
theories/Props_product.v
theories/Props_dim.v
theories/GeoNum.v
theories/Props_geodesic.v
theories/Model_sklearn.v
theories/Model_objects.v
theories/Proofs_objects.v
theories/Props_objects.v
theories/Props_covest.v
theories/Model_featest.v
theories/Props_featest.v
theories/Props_featest2.v
theories/Model_online.v
theories/Props_online.v
theories/Model_structured.v
theories/Proofs_structured.v
theories/Props_structured.v
theories/Props_structured2.v
theories/KronNum.v
theories/Props_kstudent.v
theories/Props_kstudent2.v
theories/Props_kstudent3.v
theories/Spec_generation.v
theories/Model_generation.v
theories/Proofs_generation.v
theories/Props_generation.v
theories/Spec_fixedpoint.v
theories/Proofs_unique.v
theories/Proofs_unique2.v
theories/Props_unique.v
theories/Props_helpers.v
theories/Spec_chi2.v
theories/HuberNum.v
theories/Props_huber.v
theories/Model_natgrad.v
theories/Props_natgrad.v
theories/Compact.v
theories/Proofs_converge.v
theories/Props_converge.v
theories/Proofs_exist.v
theories/Spec_exist.v
theories/Proofs_exist2.v
theories/Props_exist.v
theories/Props_more.v
theories/Proofs_major.v
theories/Props_metric.v
theories/Spec_hubiter.v
theories/HuberNum2.v
theories/Proofs_hubiter.v
theories/Proofs_hubiter2.v
theories/Props_hubiter.v
theories/Spec_kron.v
theories/Proofs_kron.v
theories/Proofs_kron1.v
theories/Proofs_kron2.v
theories/Proofs_kron3.v
theories/Proofs_kron4.v
theories/Proofs_kron5.v
theories/Proofs_kron6.v
theories/Proofs_kron7.v
theories/Proofs_kron8.v
theories/Proofs_kron9.v
theories/Props_kron.v
theories/Model_cdf.v
theories/Props_cdf.v
theories/Model_verbose.v
theories/Props_verbose.v
theories/Model_scale.v
theories/Props_scale.v
theories/Proofs_kst.v
theories/Props_kst.v
theories/Spec_breakdown.v
theories/Proofs_breakdown.v
theories/Proofs_breakdown2.v
theories/Props_breakdown.v
theories/Proofs_breakdown3.v
theories/Proofs_breakdown4.v
theories/Props_breakdown2.v
theories/Proofs_stable.v
theories/Proofs_stable2.v
theories/Props_stable.v
theories/TylNum.v
theories/Model_egrad.v
theories/Proofs_egrad.v
theories/Props_egrad.v
theories/Spec_convex.v
theories/GConvNum.v
theories/Proofs_gconvex.v
theories/Props_gconvex.v
theories/Proofs_tycont.v
theories/Props_tycont.v
theories/TranspNum.v
theories/Props_transport.v
theories/RetrNum.v
theories/Props_retr.v
theories/Proofs_tyrate.v
theories/Props_tyrate.v
theories/Proofs_tylip.v
theories/Props_tylip.v
theories/Model_float2.v
theories/Props_float2.v
theories/Props_float3.v
theories/Model_fastr.v
theories/Props_fastr.v
theories/Props_kroninv.v
theories/Props_symm.v
theories/AscNum.v
theories/Props_ascent.v
theories/Props_stream.v
theories/Props_oequiv.v
theories/Spec_df.v
theories/Proofs_df.v
theories/Props_df.v
theories/Props_isom.v
theories/Spec_tv.v
theories/Proofs_tv.v
theories/Proofs_tv2.v
theories/Props_tv.v
theories/Spec_hubrob.v
theories/Proofs_hubrob.v
theories/Props_hubrob.v
theories/Proofs_hubcont.v
theories/Props_hubcont.v
theories/Spec_deriv.v
theories/Proofs_deriv.v
theories/Proofs_deriv2.v
theories/Props_deriv.v
theories/Spec_freq.v
theories/Props_freq.v
theories/Proofs_kcont.v
theories/Proofs_kcont2.v
theories/Props_kcont.v
theories/Proofs_kcont3.v
theories/Proofs_kcont4.v
theories/Props_kcont2.v
theories/Props_ksymm.v
theories/Props_kty.v
theories/Props_dfc.v
theories/HuberNum3.v
theories/Props_hubq.v
theories/HuberNum4.v
theories/Props_hubtop.v
theories/HuberNum5.v
theories/Props_hubbeta.v
