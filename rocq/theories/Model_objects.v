(* Model of the estimator objects: the classes of robuststats/estimation/base.py:177-406 and of
   estimation/covariance.py (449-705, 1022-1290).  Definitions only.

   Objects live in a heap and are designated by their address, since Tyler's estimators hold a
   function that captures an object.  A method returns the new heap with the value or the
   exception.  Numbers are exact.  Not modelled: logging, progress bars, extra keyword
   arguments of fit other than init, n_features_names_in_. *)
From Coq Require Import Reals String.
From mathcomp Require Import all_ssreflect all_algebra.
From mathcomp Require Import complex.
From Verif Require Import RealsMC Star StarInst FunCalc Model_featurearray Model_linalg NpArray Model_mappings Model_covariance
  Spec_covariance Model_estimators Model_scipy Model_probability Model_scores Model_sklearn.
Set Implicit Arguments.
Unset Strict Implicit.
Unset Printing Implicit Defensive.
Local Open Scope ring_scope.
Import GRing.Theory Num.Theory Order.TTheory.

(* HuberMEstimator, CenteredStudentMLE, TylerShapeMatrix (covariance.py:449, 531, 608), their complex
   versions (1022, 1105, 1186) and ComplexEmpiricalCovariance (base.py:344) *)
Inductive cls := RHuber (q : R) | RStudent (df : R) | RTyler
               | CHuber (q : R) | CStudent (df : R) | CTyler | CEmp (assume_centered : bool).
Definition is_cplx (c : cls) : bool := match c with CHuber _ | CStudent _ | CTyler | CEmp _ => true | _ => false end.
Definition is_tyler (c : cls) : bool := match c with RTyler | CTyler => true | _ => false end.

(* attributes; None in the first option: the attribute does not exist (yet) *)
Record obj := Obj {
  o_cls : cls;
  o_tol : flt; o_iter_max : nat; o_norm : string; o_method : string;
  o_store_precision : bool;
  o_fun : option (string * nat);        (* _estimation_function: which one, address of the captured self *)
  o_covariance : option arr;            (* covariance_ *)
  o_precision : option (option arr);    (* precision_, an array or None *)
  o_location : option arr;              (* location_ *)
  o_nfeat : option nat;                 (* n_features_in_ *)
  o_err : flt;                          (* err_ *)
  o_iteration : option nat }.           (* iteration_: an integer or None *)
Definition with_cov (o : obj) c := Obj (o_cls o) (o_tol o) (o_iter_max o) (o_norm o) (o_method o) (o_store_precision o) (o_fun o)
  c (o_precision o) (o_location o) (o_nfeat o) (o_err o) (o_iteration o).
Definition with_prec (o : obj) p := Obj (o_cls o) (o_tol o) (o_iter_max o) (o_norm o) (o_method o) (o_store_precision o) (o_fun o)
  (o_covariance o) p (o_location o) (o_nfeat o) (o_err o) (o_iteration o).
Definition with_loc (o : obj) l := Obj (o_cls o) (o_tol o) (o_iter_max o) (o_norm o) (o_method o) (o_store_precision o) (o_fun o)
  (o_covariance o) (o_precision o) l (o_nfeat o) (o_err o) (o_iteration o).
Definition with_nfeat (o : obj) n := Obj (o_cls o) (o_tol o) (o_iter_max o) (o_norm o) (o_method o) (o_store_precision o) (o_fun o)
  (o_covariance o) (o_precision o) (o_location o) n (o_err o) (o_iteration o).
Definition with_run (o : obj) e k := Obj (o_cls o) (o_tol o) (o_iter_max o) (o_norm o) (o_method o) (o_store_precision o) (o_fun o)
  (o_covariance o) (o_precision o) (o_location o) (o_nfeat o) e k.
Definition with_fun (o : obj) f := Obj (o_cls o) (o_tol o) (o_iter_max o) (o_norm o) (o_method o) (o_store_precision o) f
  (o_covariance o) (o_precision o) (o_location o) (o_nfeat o) (o_err o) (o_iteration o).
Definition with_opts (o : obj) t m n me := Obj (o_cls o) t m n me (o_store_precision o) (o_fun o)
  (o_covariance o) (o_precision o) (o_location o) (o_nfeat o) (o_err o) (o_iteration o).

Definition oheap := seq obj.
Definition obj0 : obj := Obj RTyler PInf 0 "None" "fixed-point" true None None None None None PInf (Some 0%N).
Definition get (h : oheap) (a : nat) : obj := nth obj0 h a.
Definition put (h : oheap) (a : nat) (o : obj) : oheap := set_nth obj0 h a o.

Section Oracles.
Variables (eigR : eigsolver real_sf) (eigC : eigsolver complex_sf).
Variables (ppf cdf : R -> R -> R).
Variable pinvh : arr -> res arr.                        (* scipy.linalg.pinvh *)
(* the pymanopt optimisation of tyler_shape_matrix_naturalgradient and its complex version *)
Variable natgrad : bool -> string -> arr -> option arr -> res (arr * flt).
(* the fixed-point functions on an initial point that is not a p x p matrix (or is complex for the
   real-valued ones) *)
Variable other : bool -> algo -> arr -> option arr -> flt -> nat -> res (arr * flt * nat).
Variables (psd_other : psd_oracle) (gammaln : R -> R) (clog : C -> C).
(* what EmpiricalCovariance.score computes from the test data, location_ and the object, once it gets
   there *)
Variable gaussian_score : obj -> arr -> arr -> res C.

(* ---------- the fixed-point functions on arrays ---------- *)
Definition rmx m n (A : 'M[R]_(m, n)) : 'M[C]_(m, n) := map_mx R2C A.
(* dtype of the matrix returned: that of the initial point when no iteration is made (sigma/S(sigma) is
   never of integers) *)
Definition out_kind (a : algo) (k0 : kind) (k : nat) (kstep : kind) : kind :=
  if k == 0%N then (if a is TylerFP _ then kmax KReal k0 else k0) else kstep.
Definition done (A : Type) (r : option (res A)) : res A := if r is Some r' then r' else Err AssertionErr. (* always Some: C29 *)
(* covariance.py:121, 200, 374 *)
Definition real_run (a : algo) (X : arr) (init : option arr) (tol : flt) (m : nat) : res (arr * flt * nat) :=
  match sh X with
  | [:: N; p.+1] =>
      let go (s : option 'M[R]_p.+1) k0 :=
        fmapr (fun r => let '(sg, d, k) := r in (of_mx (out_kind a k0 k KReal) (rmx sg), d, k))
              (done (real_fixed_point eigR ppf cdf a (to_rmx N p.+1 X : 'M[real_sf]_(N, p.+1)) s tol m)) in
      match init with
      | None => go None KReal
      | Some s => if (sh s == [:: p.+1; p.+1]) && ~~ iscomplexobj s then go (Some (to_rmx p.+1 p.+1 s)) (kd s)
                  else other false a X init tol m
      end
  | _ => other false a X init tol m
  end.
(* covariance.py:713, 805, 946 *)
Definition complex_run (a : algo) (X : arr) (init : option arr) (tol : flt) (m : nat) : res (arr * flt * nat) :=
  match sh X with
  | [:: N; p.+1] =>
      let go (s : option 'M[C]_p.+1) k0 :=
        fmapr (fun r => let '(sg, d, k) := r in (of_mx (out_kind a k0 k KCplx) sg, d, k))
              (done (complex_fixed_point eigC ppf cdf a (to_mx N p.+1 X : 'M[complex_sf]_(N, p.+1)) s tol m)) in
      match init with
      | None => go None KCplx
      | Some s => if sh s == [:: p.+1; p.+1] then go (Some (to_mx p.+1 p.+1 s)) (kd s)
                  else other true a X init tol m
      end
  | _ => other true a X init tol m
  end.
Definition fp_run (cplx : bool) := if cplx then complex_run else real_run.

(* ---------- base.py:367-371 and sklearn BaseEstimator._validate_data ----------
   n_features_in_ is set to the number of columns that check_array saw *)
Definition validate (c : cls) (X : arr) : res (arr * nat) :=
  if is_cplx c then
    bindr (arraytoreal X) (fun Xr => bindr (check_array Xr) (fun Xr =>
    bindr (arraytocomplex Xr) (fun Xc => Ok (Xc, nth 0%N (sh Xr) 1))))
  else bindr (check_array X) (fun Xr => Ok (Xr, nth 0%N (sh Xr) 1)).
(* the number of columns seen by check_array, when it accepts: n_features_in_ is set even if the
   conversion back to complex numbers raises *)
Definition validate_nfeat (c : cls) (X : arr) : option nat :=
  match bindr (if is_cplx c then arraytoreal X else Ok X) check_array with
  | Ok Xr => Some (nth 0%N (sh Xr) 1)
  | Err _ => None end.
Definition note_nfeat (o : obj) (X : arr) : obj :=
  if validate_nfeat (o_cls o) X is Some n then with_nfeat o (Some n) else o.

(* ---------- base.py:346-365 _set_covariance (complex) and sklearn's (real) ---------- *)
Definition checked_cov (c : cls) (cov : arr) : res arr :=
  if is_cplx c then bindr (covariancetoreal cov) (fun r => bindr (check_array r) covariancetocomplex)
  else check_array cov.
Definition set_covariance (o : obj) (cov : arr) : obj * res unit :=
  match checked_cov (o_cls o) cov with
  | Err e => (o, Err e)
  | Ok c =>
      let o := with_cov o (Some c) in
      if o_store_precision o then
        match pinvh c with
        | Ok P => (with_prec o (Some (Some P)), Ok tt)
        | Err e => (o, Err e) end
      else (with_prec o (Some None), Ok tt)
  end.
(* base.py:340-341 transform *)
Definition transform (o : obj) : res arr := if o_covariance o is Some c then Ok c else Err AttributeErr.

(* ---------- covariance.py:654-672, 1232-1251 set_method ---------- *)
Definition set_method (h : oheap) (a : nat) : oheap * res unit :=
  let o := get h a in
  if (o_method o =? "fixed-point")%string || (o_method o =? "natural gradient")%string
  then (put h a (with_fun o (Some (o_method o, a))), Ok tt)
  else (h, Err NotImplementedErr).
(* the constructors: covariance.py:486-496, 560-570, 640-652, 1059-1069, 1138-1148, 1218-1230;
   ComplexEmpiricalCovariance inherits that of sklearn.  The new object gets the next address. *)
Definition blank (c : cls) tol method iter_max nrm : obj :=
  Obj c tol iter_max nrm method true None None None None None PInf (Some 0%N).
Definition new (h : oheap) (c : cls) tol method iter_max nrm : oheap * res unit :=
  let h' := rcons h (blank c tol method iter_max nrm) in
  if is_tyler c then set_method h' (size h) else (h', Ok tt).
(* copy.deepcopy: every attribute is copied, functions are not (the copy holds the same function) *)
Definition deepcopy (h : oheap) (a : nat) : oheap := rcons h (get h a).

(* the call of the estimation function made by fit: covariance.py:516-519, 590-592, 693-694, 1090-1093,
   1168-1170, 1272-1273.  Options are read in the object when the function is called; Tyler's function
   reads them in the object that it captured. *)
Definition run (h : oheap) (a : nat) (X : arr) (init : option arr) : res (arr * flt * option nat) :=
  let o := get h a in
  let fp cplx alg := fmapr (fun r => let '(c, e, k) := r in (c, e, Some k)) (fp_run cplx alg X init (o_tol o) (o_iter_max o)) in
  match o_cls o with
  | RHuber q => fp false (HuberM q)
  | RStudent df => fp false (StudentMLE df)
  | CHuber q => fp true (HuberM q)
  | CStudent df => fp true (StudentMLE df)
  | RTyler | CTyler =>
      match o_fun o with
      | None => Err AttributeErr
      | Some (meth, self) =>
          let s := get h self in
          if (meth =? "fixed-point")%string
          then fmapr (fun r => let '(c, e, k) := r in (c, e, Some k))
                     (fp_run (is_cplx (o_cls o)) (TylerFP (o_norm s)) X init (o_tol s) (o_iter_max s))
          else fmapr (fun r => let '(c, e) := r in (c, e, None))
                     (natgrad (is_cplx (o_cls o)) (o_norm s) X init)
      end
  | CEmp _ => Err AttributeErr (* not used *)
  end.
(* base.py:373-398 ComplexEmpiricalCovariance.fit, after validation of the data *)
Definition cemp_cov (b : bool) (X : arr) : arr :=
  let N := nth 0%N (sh X) 0 in let p := nth 0%N (sh X) 1 in
  of_mx KCplx (complex_empirical_covariance (to_mx N p X : 'M[complex_sf]_(N, p)) b).
Definition cemp_loc (b : bool) (X : arr) : arr :=
  let N := nth 0%N (sh X) 0 in let p := nth 0%N (sh X) 1 in
  if b then np_zeros KCplx [:: p]
  else of_cv KCplx (\col_j (N%:R^-1 * \sum_(i < N) at_ X [:: nat_of_ord i; nat_of_ord j]) : 'cV[C]_p).
(* fit: covariance.py:498-523, 572-597, 674-698, 1072-1097, 1150-1175, 1253-1277; base.py:373-398 *)
Definition fit (h : oheap) (a : nat) (X : arr) (init : option arr) : oheap * res unit :=
  let o := get h a in
  match o_cls o with
  | CEmp b =>
      let o := note_nfeat o X in
      match validate (o_cls o) X with
      | Err e => (put h a o, Err e)
      | Ok (Xv, _) =>
          let o := with_loc o (Some (cemp_loc b Xv)) in
          let: (o, r) := set_covariance o (cemp_cov b Xv) in (put h a o, r)
      end
  | _ =>
      match o_iteration o with
      | None => (h, Err TypeErr)        (* None > 0 *)
      | Some _ =>
          let o := note_nfeat o X in
          match validate (o_cls o) X with
          | Err e => (put h a o, Err e)
          | Ok (Xv, _) =>
              match run h a Xv init with
              | Err e => (put h a o, Err e)
              | Ok (cov, err, iteration) =>
                  match set_covariance o cov with
                  | (o, Err e) => (put h a o, Err e)
                  | (o, Ok _) => (put h a (with_run o err iteration), Ok tt)
                  end
              end
          end
      end
  end.
(* score: covariance.py:526-528, 599-605, 700-706, 1100-1102, 1177-1183, 1279-1285.
   sklearn's score calls self._validate_data(X_test, reset=False), which the complex classes do not
   accept, then reads self.location_. *)
Definition score (h : oheap) (a : nat) (X_test : arr) (model : string) : res (option C) :=
  let o := get h a in
  let cov (k : arr -> res (option C)) := if o_covariance o is Some c then k c else Err AttributeErr in
  match o_cls o with
  | RHuber _ | CHuber _ => Err NotImplementedErr
  | RStudent df => if o_iteration o == Some 0%N then Ok None
                   else cov (fun c => student_score psd_other gammaln clog 1 c df X_test)
  | CStudent df => if o_iteration o == Some 0%N then Ok None
                   else cov (fun c => complex_student_score psd_other gammaln clog 1 c df X_test)
  | RTyler | CTyler | CEmp _ =>
      if is_tyler (o_cls o) && ~~ (model =? "Gaussian")%string then Err NotImplementedErr
      else if is_cplx (o_cls o) then Err TypeErr
      else bindr (check_array X_test) (fun Xv =>
           if (if o_nfeat o is Some n then nth 0%N (sh Xv) 1 != n else false) then Err ValueErr
           else if o_location o is Some l then fmapr Some (gaussian_score o l Xv) else Err AttributeErr)
  end.

(* ---------- histories ---------- *)
Inductive option_change := SetTol (t : flt) | SetIterMax (m : nat) | SetNorm (s : string) | SetMethodName (s : string).
Definition set_option (o : obj) (c : option_change) : obj := match c with
  | SetTol t => with_opts o t (o_iter_max o) (o_norm o) (o_method o)
  | SetIterMax m => with_opts o (o_tol o) m (o_norm o) (o_method o)
  | SetNorm s => with_opts o (o_tol o) (o_iter_max o) s (o_method o)
  | SetMethodName s => with_opts o (o_tol o) (o_iter_max o) (o_norm o) s end.
Inductive op :=
  | New (c : cls) (tol : flt) (method : string) (iter_max : nat) (nrm : string)
  | Change (a : nat) (c : option_change)      (* obj.tol = ..., etc. *)
  | SetMethod (a : nat)                       (* obj.set_method() *)
  | Copy (a : nat)                            (* copy.deepcopy(obj) *)
  | Fit (a : nat) (X : arr) (init : option arr).
(* an operation on an object that does not exist is not possible *)
Definition exec (h : oheap) (q : op) : oheap * res unit := match q with
  | New c t me m n => new h c t me m n
  | Change a c => if (a < size h)%N then (put h a (set_option (get h a) c), Ok tt) else (h, Err AttributeErr)
  | SetMethod a => if (a < size h)%N && is_tyler (o_cls (get h a)) then set_method h a else (h, Err AttributeErr)
  | Copy a => if (a < size h)%N then (deepcopy h a, Ok tt) else (h, Err AttributeErr)
  | Fit a X init => if (a < size h)%N then fit h a X init else (h, Err AttributeErr) end.
Definition execs (h : oheap) (l : seq op) : oheap := foldl (fun h q => (exec h q).1) h l.

(* ---------- base.py:400-406 error_norm ---------- *)
Definition error_norm (csqrt : C -> C) n (k : kind) (comp_cov covariance_ : 'M[C]_n) norm scaling squared : res R :=
  fmapr (fun kz => cabs kz.2) (sk_error_norm eigC csqrt k comp_cov covariance_ norm scaling squared).

(* ---------- base.py:249-273 CovariancesEstimation.transform ---------- *)
(* for i in range(n_trials): self.estimator.fit(X[i,:,:]); covmats[i,:,:] = self.estimator.covariance_ *)
Fixpoint cov_seq (h : oheap) (a : nat) (X : arr) (init : option arr) (l : seq nat) (covmats : arr) : oheap * res arr :=
  match l with
  | [::] => (h, Ok covmats)
  | i :: l' =>
      match fit h a (sub X i) init with
      | (h', Err e) => (h', Err e)
      | (h', Ok _) =>
          match bindr (transform (get h' a)) (set_sub covmats i) with
          | Err e => (h', Err e)
          | Ok covmats' => cov_seq h' a X init l' covmats'
          end
      end
  end.
(* base.py:276-295: each worker deep-copies the estimator it received and fits the copy *)
Definition fit_copy (h : oheap) (a : nat) (x : arr) (init : option arr) : res arr :=
  let h' := deepcopy h a in
  let: (h'', r) := fit h' (size h) x init in bindr r (fun _ => transform (get h'' (size h))).
(* for i, cov in enumerate(cov_list): covmats[i,:,:] = cov *)
Fixpoint write_all (l : seq (nat * arr)) (covmats : arr) : res arr := match l with
  | [::] => Ok covmats
  | (i, c) :: l' => bindr (set_sub covmats i c) (write_all l') end.
Definition cov_transform (n_jobs : Z) (h : oheap) (a : nat) (X : arr) (init : option arr) : oheap * res arr :=
  match sh X with
  | [:: n; _; p] =>
      let covmats := np_zeros (kd X) [:: n; p; p] in
      if Z.eqb n_jobs 1 then cov_seq h a X init (iota 0 n) covmats
      else (h, bindr (mapr (fun i => fmapr (pair i) (fit_copy h a (sub X i) init)) (iota 0 n)) (fun l => write_all l covmats))
  | _ => (h, Err ValueErr)
  end.
End Oracles.
