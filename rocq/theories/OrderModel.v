(* OrderModel.v: Model.predict, Model.loo, the likelihoods and the Fisher
   information of gpmp/core, taken at arrays of points (gpmp/core/model.py:227-307,
   gpmp/core/loo.py:19-162, gpmp/core/likelihood.py:43-130).  Definitions only. *)
From mathcomp Require Import all_ssreflect all_algebra.
From Verif Require Import LinAlg KrigModel.
Set Implicit Arguments.
Unset Strict Implicit.
Unset Printing Implicit Defensive.
Import Order.TTheory GRing.Theory Num.Theory.
Local Open Scope ring_scope.

Section Points.
Variables (R : rcfType) (X : Type) (q : nat).

(* The mean of the model: none, a row of q basis functions at each point
   (mean_type "linear_predictor"), or a mean function with its parameter
   ("parameterized"; None when meanparam is None).
   gpmp/core/kriging.py:119-164. *)
Inductive mean_kind :=
  | KZero
  | KLinear of (X -> 'I_q -> R)
  | KParam of option (X -> R).

(* model.mean(x, meanparam) for a linear predictor: the (n, q) design matrix *)
Definition design (p : X -> 'I_q -> R) n (x : 'I_n -> X) : 'M[R]_(n, q) :=
  \matrix_(i, k) p (x i) k.
(* model.mean(x, meanparam) for a parameterized mean, as a column and as a row *)
Definition mean_col (f : X -> R) n (x : 'I_n -> X) : 'cV[R]_n := \col_i f (x i).
Definition mean_row (f : X -> R) n (x : 'I_n -> X) : 'rV[R]_n := \row_j f (x j).

(* gpmp/core/kriging.py:133-162: the arrays used by select_predictor *)
Definition mean_at r m (k : mean_kind) (x : 'I_(q + r) -> X) (xt : 'I_m -> X) : meanspec R q r m :=
  match k with
  | KZero => MZero R q r m
  | KLinear p => MLinear (design p x) (design p xt)
  | KParam None => MParam (None : option ('cV[R]_(q + r) * 'rV[R]_m))
  | KParam (Some f) => MParam (Some (mean_col f x, mean_row f xt))
  end.

(* gpmp/core/model.py:227-307 Model.predict(xi, zi, xt): the observation array and
   the target array are different objects. *)
Definition predict_at r m (qr : qr_fun R q r)
  (symsolve : 'M[R]_q -> 'M[R]_(q, m) -> res 'M[R]_(q, m))
  (k : mean_kind) (c : kernel R X) (x : 'I_(q + r) -> X) (z : 'cV[R]_(q + r))
  (xt : 'I_m -> X) (zero_neg_variances : bool) :=
  predict qr symsolve (mean_at k x xt) (cov_same c x) (cov_cross c x xt) (cov_tt c xt) z
    zero_neg_variances.

(* gpmp/core/loo.py:48-61: Model.loo(xi, zi) selects the formula from the mean
   type; returns (zloo, sigma2loo, eloo).  With meanparam None the result is
   whatever the mean function does with None; it is represented by an exception
   and excluded from the theorems. *)
Definition loo_at r (qr : qr_fun R q r) (k : mean_kind) (c : kernel R X) (x : 'I_(q + r) -> X)
  (z : 'cV[R]_(q + r)) : res ('cV[R]_(q + r) * 'cV[R]_(q + r) * 'cV[R]_(q + r)) :=
  match k with
  | KZero => loo_zero_mean (cov_same c x) z
  | KParam (Some f) => loo_parameterized_mean (cov_same c x) (mean_col f x) z
  | KParam None => Err ValueErr
  | KLinear p => loo_linear_cpd qr (cov_same c x) (design p x) z
  end.
End Points.
Arguments KZero {R X q}.
Arguments KParam {R X q}.
