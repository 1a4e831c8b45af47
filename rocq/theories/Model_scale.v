(* Model of RealCovarianceScale, robuststats/estimation/base.py:412-430.  Definitions only.  Arrays have finite values. *)
From Coq Require Import Reals.
From mathcomp Require Import all_ssreflect all_algebra.
From Verif Require Import RealsMC Model_featurearray NpArray Model_sklearn.
Set Implicit Arguments.
Unset Strict Implicit.
Unset Printing Implicit Defensive.

Section Scale.
(* scipy.linalg.pinvh *)
Variable pinvh : arr -> res arr.
(* attributes; None: the attribute does not exist (for precision_, Some None is the value None) *)
Record scale_obj := ScaleObj { so_store : bool; so_cov : option arr; so_prec : option (option arr); so_scale : option arr }.
(* base.py:415-417 *)
Definition scale_new (store_precision : bool) : scale_obj := ScaleObj store_precision None None None.
(* the operations on an object *)
Inductive scale_op := SetCovariance (a : arr) | SetScale (s : arr) | FitScale.
Definition scale_exec (o : scale_obj) (q : scale_op) : scale_obj * res unit := match q with
  (* _set_covariance, inherited from scikit-learn: covariance_ is stored before the precision is computed *)
  | SetCovariance a => match check_array a with
      | Err e => (o, Err e)
      | Ok a => if so_store o then
          match pinvh a with
          | Ok p => (ScaleObj (so_store o) (Some a) (Some (Some p)) (so_scale o), Ok tt)
          | Err e => (ScaleObj (so_store o) (Some a) (so_prec o) (so_scale o), Err e) end
        else (ScaleObj (so_store o) (Some a) (Some None) (so_scale o), Ok tt) end
  (* base.py:419-421 *)
  | SetScale s => match check_array s with
      | Ok s => (ScaleObj (so_store o) (so_cov o) (so_prec o) (Some s), Ok tt)
      | Err e => (o, Err e) end
  (* base.py:429-430 *)
  | FitScale => (o, Err NotImplementedErr) end.
Definition scale_execs (o : scale_obj) (l : seq scale_op) : scale_obj := foldl (fun o q => (scale_exec o q).1) o l.
(* base.py:423-424 *)
Definition get_scale (o : scale_obj) : res arr := if so_scale o is Some s then Ok s else Err AttributeErr.
(* base.py:426-427 *)
Definition scale_transform (o : scale_obj) : res (arr * arr) := match so_cov o, so_scale o with
  | Some c, Some s => Ok (c, s)
  | _, _ => Err AttributeErr end.
(* sklearn's TransformerMixin.fit_transform(X), without y: fit(X) then transform *)
Definition scale_fit_transform (o : scale_obj) : scale_obj * res (arr * arr) :=
  let: (o', r) := scale_exec o FitScale in (o', bindr r (fun _ => scale_transform o')).
End Scale.
