(* InitModel.v: gpmp/kernel/init.py, initial covariance parameters from arrays
   (xi, zi), for a model whose covariance is maternp_covariance.  Definitions
   only.  The dataloader branches are in InitLoaderModel.v.

   glog is the value gammaln(d/2 + 1), a positive-argument constant whose value
   plays no role in the theorems. *)
From Coq Require Import Reals.
From mathcomp Require Import all_ssreflect all_algebra.
From Verif Require Import LinAlg KrigModel Rinst LikModel MaternModel MaternCov.
Set Implicit Arguments.
Unset Strict Implicit.
Unset Printing Implicit Defensive.
Import Order.TTheory GRing.Theory Num.Theory.
Local Open Scope ring_scope.
Local Arguments exp : clear scopes.
Local Arguments ln : clear scopes.
Local Arguments sqrt : clear scopes.
Bind Scope ring_scope with R.

Section Init.
Variables (b : backend) (p d : nat) (glog : R).

(* gnp.max(xi_, axis=0) - gnp.min(xi_, axis=0); i0 is any row index (the array
   is not empty), used as the starting value of the two reductions *)
Definition delta_col n (i0 : 'I_n) (x : 'M[R]_(n, d)) (k : 'I_d) : R :=
  \big[Num.max/x i0 k]_i x i k - \big[Num.min/x i0 k]_i x i k.

(* gpmp/kernel/init.py:29,40,59: rho = exp(gammaln(d/2+1)/d) / pi**0.5 * delta *)
Definition init_rho n (i0 : 'I_n) (x : 'M[R]_(n, d)) (k : 'I_d) : R :=
  exp (glog / d%:R) / sqrt PI * delta_col i0 x k.

(* gpmp/kernel/init.py:20-21 _covparam_from_sigma2_and_rho, and the same
   concatenation at unit variance *)
Definition covparam_of n (s2 : R) (i0 : 'I_n) (x : 'M[R]_(n, d)) : 'rV[R]_(1 + d) :=
  row_mx (ln s2)%:M (\row_k - ln (init_rho i0 x k)).

(* gpmp/kernel/init.py:24-33 anisotropic_parameters_initial_guess_zero_mean *)
Definition init_zero_mean n (i0 : 'I_n) (x : 'M[R]_(n, d)) (z : 'cV[R]_n) : res 'rV[R]_(1 + d) :=
  let covparam := covparam_of 1 i0 x in
  rbind (norm_k_sqrd_with_zero_mean (maternp_covariance_ii b p covparam x) z) (fun nrm =>
    let sigma2_GLS := n%:R^-1 * nrm in
    Ok (covparam_of sigma2_GLS i0 x)).

(* gpmp/kernel/init.py:35-52 anisotropic_parameters_initial_guess_constant_mean *)
Definition init_constant_mean n (i0 : 'I_n) (x : 'M[R]_(n, d)) (z : 'cV[R]_n)
  : res (R * 'rV[R]_(1 + d)) :=
  let covparam := covparam_of 1 i0 x in
  rbind (k_inverses (maternp_covariance_ii b p covparam x) z) (fun t =>
    let '(zTKinvz, Kinv1, Kinvz) := t in
    let mean_GLS := (\sum_i Kinvz i 0) / (\sum_i Kinv1 i 0) in
    let sigma2_GLS := n%:R^-1 * zTKinvz in
    Ok (mean_GLS, covparam_of sigma2_GLS i0 x)).

(* gpmp/kernel/init.py:54-66 anisotropic_parameters_initial_guess:
   model.norm_k_sqrd with the trend matrix P = model.mean(xi) *)
Definition init_linear_mean q r (qr : qr_fun R_rcfType q r) (i0 : 'I_(q + r)) (x : 'M[R]_(q + r, d))
  (P : 'M[R]_(q + r, q)) (z : 'cV[R]_(q + r)) : res 'rV[R]_(1 + d) :=
  let covparam := covparam_of 1 i0 x in
  rbind (norm_k_sqrd qr (maternp_covariance_ii b p covparam x) P z) (fun nrm =>
    let sigma2_GLS := (q + r)%:R^-1 * nrm in
    Ok (covparam_of sigma2_GLS i0 x)).
End Init.
