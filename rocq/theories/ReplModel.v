(* ReplModel.v: Model.predict, Model.loo and the likelihood criteria with the
   noisy covariance of the regression examples (examples/gpmp_example06_1d_regression.py,
   docs/source/examples/regression_noisy.rst).  Definitions only. *)
From Coq Require Import Reals.
From mathcomp Require Import all_ssreflect all_algebra.
From Verif Require Import LinAlg KrigModel Rinst LikModel OrderModel.
Set Implicit Arguments.
Unset Strict Implicit.
Unset Printing Implicit Defensive.
Import Order.TTheory GRing.Theory Num.Theory.
Local Open Scope ring_scope.

Section Noisy.
Variables (R : rcfType) (C : Type) (q : nat).

(* examples/gpmp_example06_1d_regression.py:49-60: a row of x is a coordinate and a
   flag column, 0 for a latent target and 1 for a noisy observation; the code multiplies
   the noise variance by the flag, so any non-negative value has a meaning. *)
Definition flagged := (C * R)%type.

(* The latent covariance function and the noise variance. *)
Record noisy := Noisy { lat : C -> C -> R; tau : R }.

(* examples/gpmp_example06_1d_regression.py:68-84 kernel_ii_or_tt, pairwise=False *)
Definition ncov_same (c : noisy) n (x : 'I_n -> flagged) : 'M[R]_n :=
  \matrix_(i, j) lat c (x i).1 (x j).1 + diag_mx (\row_i (tau c * (x i).2)).
(* ... pairwise=True; the code writes sigma2 for the latent part, which is the value of
   its Matern covariance at distance 0 *)
Definition ncov_pairwise (c : noisy) n (x : 'I_n -> flagged) : 'rV[R]_n :=
  \row_j (lat c (x j).1 (x j).1 + tau c * (x j).2).
(* examples/gpmp_example06_1d_regression.py:87-100 kernel_it *)
Definition ncov_cross (c : noisy) n m (x : 'I_n -> flagged) (y : 'I_m -> flagged) : 'M[R]_(n, m) :=
  \matrix_(i, j) lat c (x i).1 (y j).1.
Definition ncov_tt (c : noisy) m (xt : 'I_m -> flagged) : prior_tt R m :=
  PriorTT (ncov_pairwise c xt) (ncov_same c xt).

(* the mean depends on the coordinates only (constant_mean, lines 63-65) *)
Definition nmean (mk : mean_kind R C q) : mean_kind R flagged q :=
  match mk with
  | KZero => KZero
  | KLinear p => KLinear (fun x => p x.1)
  | KParam None => KParam None
  | KParam (Some h) => KParam (Some (fun x => h x.1))
  end.

(* gpmp/core/model.py:227-307 Model.predict(xi, zi, xt) *)
Definition npredict_at r m (qr : qr_fun R q r)
  (symsolve : 'M[R]_q -> 'M[R]_(q, m) -> res 'M[R]_(q, m))
  (mk : mean_kind R C q) (c : noisy) (x : 'I_(q + r) -> flagged) (z : 'cV[R]_(q + r))
  (xt : 'I_m -> flagged) (zero_neg_variances : bool) :=
  predict qr symsolve (mean_at (nmean mk) x xt) (ncov_same c x) (ncov_cross c x xt) (ncov_tt c xt) z
    zero_neg_variances.

(* gpmp/core/loo.py:48-61 Model.loo(xi, zi) *)
Definition nloo_at r (qr : qr_fun R q r) (mk : mean_kind R C q) (c : noisy) (x : 'I_(q + r) -> flagged)
  (z : 'cV[R]_(q + r)) : res ('cV[R]_(q + r) * 'cV[R]_(q + r) * 'cV[R]_(q + r)) :=
  match nmean mk with
  | KZero => loo_zero_mean (ncov_same c x) z
  | KParam (Some f) => loo_parameterized_mean (ncov_same c x) (mean_col f x) z
  | KParam None => Err ValueErr
  | KLinear p => loo_linear_cpd qr (ncov_same c x) (design p x) z
  end.
End Noisy.

Section Criterion.
Variables (C : Type) (q : nat).
Local Notation RR := R_rcfType.
(* gpmp/core/likelihood.py:43-130: the restricted likelihood for a linear predictor,
   the likelihood for the two other kinds of mean *)
Definition ncrit_at b r (qr : qr_fun RR q r) (mk : mean_kind RR C q) (c : noisy RR C)
  (x : 'I_(q + r) -> flagged RR C) (z : 'cV[R]_(q + r)) : res ereal :=
  match nmean mk with
  | KZero => nll_zero_mean b (ncov_same c x) z
  | KLinear p => nrl b qr (ncov_same c x) (design p x) z
  | KParam (Some h) => nll b (ncov_same c x) (mean_col h x) z
  | KParam None => Err ValueErr
  end.
End Criterion.
