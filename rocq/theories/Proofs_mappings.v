(* Lemmas on the mappings between complex and real arrays. *)
From Coq Require Import Reals.
From mathcomp Require Import all_ssreflect all_algebra.
From mathcomp Require Import complex zify.
From Verif Require Import RealsMC RealTac Star StarInst RealRep Model_featurearray NpArray Proofs_numpy Model_mappings.
Set Implicit Arguments.
Unset Strict Implicit.
Unset Printing Implicit Defensive.
Local Open Scope ring_scope.
Import GRing.Theory Num.Theory Order.TTheory.
Local Notation Re := (@complex.Re R).
Local Notation Im := (@complex.Im R).

Lemma half_dbl n : ((n + n)./2)%N = n. Proof. by rewrite addnn doubleK. Qed.
Lemma re_im (z : C) : R2C (Re z) + ii * R2C (Im z) = z.
Proof. case: z => a b; rewrite /R2C /ii /GRing.mul /= /GRing.add /=; congr Complex; rring. Qed.
Lemma Re_R2C x : Re (R2C x) = x. Proof. by []. Qed.
Lemma re_real (z : C) : Im z = 0 -> R2C (Re z) = z. Proof. by case: z => a b /= e; rewrite /R2C e. Qed.
Lemma Re_ri (x y : C) : Im x = 0 -> Im y = 0 -> Re (x + ii * y) = Re x.
Proof. by case: x => a b; case: y => c d /= eb ed; rewrite ?eb ?ed; rring. Qed.
Lemma Im_ri (x y : C) : Im x = 0 -> Im y = 0 -> Im (x + ii * y) = Re y.
Proof. by case: x => a b; case: y => c d /= eb ed; rewrite ?eb ?ed; rring. Qed.

(* arraytoreal *)
Lemma toreal_1 a n : kd a = KCplx -> sh a = [:: n] -> exists b, arraytoreal a = Ok b /\
  [/\ kd b = KReal, sh b = [:: (n + n)%N] &
      forall j, at_ b [:: j] = if (j < n)%N then R2C (Re (at_ a [:: j])) else R2C (Im (at_ a [:: (j - n)%N]))].
Proof.
move=> k s; rewrite /arraytoreal /iscomplexobj k /ndim s /= (@concat2_1 _ _ n n) //.
by eexists; split; [reflexivity | split=> //=; rewrite k].
Qed.
Lemma toreal_2 a m n : kd a = KCplx -> sh a = [:: m; n] -> exists b, arraytoreal a = Ok b /\
  [/\ kd b = KReal, sh b = [:: m; (n + n)%N] &
      forall i j, at_ b [:: i; j] = if (j < n)%N then R2C (Re (at_ a [:: i; j])) else R2C (Im (at_ a [:: i; (j - n)%N]))].
Proof.
move=> k s; rewrite /arraytoreal /iscomplexobj k /ndim s /= /hstack2 /ndim /= s /= (@concat2_h _ _ m n n) //.
by eexists; split; [reflexivity | split=> //=; rewrite k].
Qed.
(* arraytocomplex, even number of features *)
Lemma tocomplex_1 a n : kd a <> KCplx -> sh a = [:: (n + n)%N] -> exists b, arraytocomplex a = Ok b /\
  [/\ kd b = KCplx, sh b = [:: n] & forall j, (j < n)%N -> at_ b [:: j] = at_ a [:: j] + ii * at_ a [:: (n + j)%N]].
Proof.
move=> k s; rewrite /arraytocomplex /iscomplexobj /ndim s /len s [head _ _]/= half_dbl.
have -> : kind_eqb (kd a) KCplx = false by case: (kd a) k.
rewrite [~~ _]/= [size _]/= eqxx.
have [|c [-> [kc sc hc]]] := @add_same (slice 0 0 n a) (smul KCplx ii (slice 0 n (n + n) a)).
  by rewrite /slice /= s /=; congr [:: _]; lia.
exists c; split=> //; split.
- by rewrite kc /=; case: (kd a).
- by rewrite sc /slice /= s /=; congr [:: _]; lia.
- move=> j jn; rewrite hc /slice /= s /=; last by rewrite inb_cons inb_nil eqxx; lia.
  rewrite !minnE /=; congr (_ + _ * _); congr (at_ a [:: _]); lia.
Qed.
Lemma tocomplex_2 a m n : kd a <> KCplx -> sh a = [:: m.+1; (n + n)%N] -> exists b, arraytocomplex a = Ok b /\
  [/\ kd b = KCplx, sh b = [:: m.+1; n] &
      forall i j, (i <= m)%N -> (j < n)%N -> at_ b [:: i; j] = at_ a [:: i; j] + ii * at_ a [:: i; (n + j)%N]].
Proof.
move=> k s; rewrite /arraytocomplex /iscomplexobj /ndim s [nth _ _ _]/= half_dbl.
have -> : kind_eqb (kd a) KCplx = false by case: (kd a) k.
rewrite [~~ _]/= [size _]/=.
have [|c [-> [kc sc hc]]] := @add_same (slice 1 0 n a) (smul KCplx ii (slice 1 n (n + n) a)).
  by rewrite /slice /= s /=; congr [:: _; _]; lia.
have sc' : sh c = [:: m.+1; n] by rewrite sc /slice /= s /=; congr [:: _; _]; lia.
have [b [eb [kb sb hb]]] := vstackS sc'.
exists b; split=> //; split.
- by rewrite kb kc /=; case: (kd a).
- by rewrite sb.
- move=> i j im jn; have ib : inb [:: m.+1; n] [:: i; j] by rewrite !inb_cons inb_nil eqxx ltnS im jn.
  rewrite hb ?sb ?sc' // hc -?sc ?sc' // /slice /= s /=.
  rewrite !minnE /=; congr (_ + _ * _); congr (at_ a [:: _; _]); lia.
Qed.

(* covariances *)
Lemma covtoreal a p : kd a = KCplx -> sh a = [:: p; p] -> exists b, covariancetoreal a = Ok b /\
  [/\ kd b = KReal, sh b = [:: (p + p)%N; (p + p)%N] &
      forall i j, (i < p + p)%N -> (j < p + p)%N -> at_ b [:: i; j] =
        R2C 2%:R^-1 * (if (i < p)%N then (if (j < p)%N then R2C (Re (at_ a [:: i; j])) else - R2C (Im (at_ a [:: i; (j - p)%N])))
                       else (if (j < p)%N then R2C (Im (at_ a [:: (i - p)%N; j])) else R2C (Re (at_ a [:: (i - p)%N; (j - p)%N]))))].
Proof.
move=> k s; rewrite /covariancetoreal /iscomplexobj k /= /iscovariance /ndim s /= eqxx /block2.
rewrite (@concat2_h (np_re a) (neg (np_im a)) p p p) // (@concat2_h (np_im a) (np_re a) p p p) // [bindr _ _]/=.
rewrite (@concat2_v _ _ p p (p + p)) //.
eexists; split; first reflexivity; split=> /=; rewrite ?k //.
Qed.
Lemma covtocomplex a p : kd a <> KCplx -> sh a = [:: (p + p)%N; (p + p)%N] -> exists b, covariancetocomplex a = Ok b /\
  [/\ kd b = KCplx, sh b = [:: p; p] & forall i j, (i < p)%N -> (j < p)%N ->
        at_ b [:: i; j] = R2C 2%:R * at_ a [:: i; j] + Complex 0 2%:R * at_ a [:: (p + i)%N; j]].
Proof.
move=> k s; rewrite /covariancetocomplex /iscomplexobj.
have -> : kind_eqb (kd a) KCplx = false by case: (kd a) k.
rewrite /iscovariance /ndim /len s /= eqxx /= half_dbl addnn -mul2n modnMr eqxx.
have [|c [-> [kc sc hc]]] := @add_same (smul KInt (R2C 2%:R) (slice 1 0 p (slice 0 0 p a)))
    (smul KCplx (Complex 0 2%:R) (slice 1 0 p (slice 0 p (2 * p) a))).
  by rewrite /slice /= s /=; congr [:: _; _]; lia.
exists c; split=> //; split.
- by rewrite kc /=; case: (kd a).
- by rewrite sc /slice /= s /=; congr [:: _; _]; lia.
- move=> i j im jn; rewrite hc; last by rewrite /= s /= !inb_cons inb_nil eqxx; lia.
  by rewrite /= s /=; congr (_ * _ + _ * _); congr (at_ a [:: _; _]); lia.
Qed.
