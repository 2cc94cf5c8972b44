(* LikModel.v: gpmp/core/likelihood.py and fisher_information_torch, over the
   real numbers.  Definitions only. *)
From Coq Require Import Reals.
From mathcomp Require Import all_ssreflect all_algebra.
From Verif Require Import LinAlg KrigModel Rinst.
Set Implicit Arguments.
Unset Strict Implicit.
Unset Printing Implicit Defensive.
Import Order.TTheory GRing.Theory Num.Theory.
Local Open Scope ring_scope.
Local Arguments ln : clear scopes.
Bind Scope ring_scope with R.

(* returned scalar: a real, or the value of gnp.safe_inf() *)
Inductive ereal := Fin of R | PInf.

(* The exception class of a failed factorisation: numpy.linalg.LinAlgError is
   not a RuntimeError, torch.linalg.LinAlgError is. *)
Inductive backend := NumPy | Torch.
Definition is_runtime_error (b : backend) : bool :=
  match b with NumPy => false | Torch => true end.

(* gpmp/core/likelihood.py:43-52 negative_log_likelihood_zero_mean *)
Definition nll_zero_mean (b : backend) n (K : 'M[R]_n) (zi : 'cV[R]_n) : res ereal :=
  match cholesky_solve K zi with
  | Err e => if is_runtime_error b then Ok PInf else Err e
  | Ok (Kinv_zi, C) =>
      let norm2 := einsum_ii zi Kinv_zi 0 0 in
      let ldetK := 2%:R * \sum_i ln (C i i) in
      Ok (Fin (2%:R^-1 * (n%:R * ln (2%:R * PI) + ldetK + norm2)))
  end.

(* gpmp/core/likelihood.py:86-88 negative_log_likelihood; mi = mean(xi, meanparam) *)
Definition nll (b : backend) n (K : 'M[R]_n) (mi zi : 'cV[R]_n) : res ereal :=
  let centered_zi := zi - mi in
  nll_zero_mean b K centered_zi.

(* gpmp/core/likelihood.py:115-130 negative_log_restricted_likelihood *)
Definition nrl (b : backend) q r (qr : qr_fun R_rcfType q r) (K : 'M[R]_(q + r))
  (P : 'M[R]_(q + r, q)) (zi : 'cV[R]_(q + r)) : res ereal :=
  let W := compute_contrast_matrix qr P in
  let Wzi := W^T *m zi in
  let G := compute_contrast_covariance W K in
  match cholesky_solve G Wzi with
  | Err e => if is_runtime_error b then Ok PInf else Err e
  | Ok (WKWinv_Wzi, C) =>
      let norm2 := einsum_ii Wzi WKWinv_Wzi 0 0 in
      let ldetWKW := 2%:R * \sum_i ln (C i i) in
      Ok (Fin (2%:R^-1 * (r%:R * ln (2%:R * PI) + ldetWKW + norm2)))
  end.

(* gpmp/core/fisher.py:182-185: log_det_cov of fisher_information_torch (None
   when the factorisation fails). *)
Definition log_det_cov n (K : 'M[R]_n) : option R :=
  match chol K with
  | None => None
  | Some L => Some (2%:R * \sum_i ln (L i i))
  end.
(* gpmp/core/fisher.py:187-191, one parameter: half the second derivative of
   theta |-> log_det_cov (cov theta).  hess is the value returned by autodiff. *)
Definition fisher_information_torch (hess : R) : R := 2%:R^-1 * hess.
