(* KrigModel.v
   Transcription of gpmp/core/kriging.py, Model.predict (gpmp/core/model.py),
   gpmp/core/loo.py, the algebraic helpers of gpmp/core/linalg.py,
   gpmp/core/sample_paths.py and the matrix part of gpmp/core/fisher.py.
   Definitions only.

   Simplifications, all listed in DESIGN.md:
   - exact arithmetic over an arbitrary real closed field R (square roots are
     needed by the Cholesky factorisation), instead of floating point;
   - the values returned by the user supplied callables model.covariance and
     model.mean are arguments (matrices), except in the last section where the
     covariance callable itself is modelled as a kernel function;
   - gnp.solve / gnp.inv / gnp.solve_triangular are the exact solution when the
     matrix is nonsingular and an exception otherwise;
   - gnp.qr and gnp.svd are arguments, constrained by their documented contract
     in the theorems (and shown to exist in LinQR.v);
   - array shapes are enforced by the dimensions of the matrix types, so shape
     errors are not represented. *)
From mathcomp Require Import all_ssreflect all_algebra.
From Verif Require Import LinAlg.
Set Implicit Arguments.
Unset Strict Implicit.
Unset Printing Implicit Defensive.
Import Order.TTheory GRing.Theory Num.Theory.
Local Open Scope ring_scope.

(* Exceptions as values. *)
Inductive exn := LinAlgError | ValueErr | RuntimeErr | AssertionErr.
Inductive res (A : Type) := Ok of A | Err of exn.
Arguments Err {A}.

Definition rbind A B (x : res A) (f : A -> res B) : res B :=
  match x with Ok a => f a | Err e => Err e end.

Section Linalg.
Variable R : rcfType.
Implicit Types (m n p q : nat).

(* numpy.linalg.cholesky (gpmp/num/numpy_backend.py:136; LAPACK potrf): lower
   factor, computed from the lower triangle column by column; raises LinAlgError
   at the first non-positive pivot. *)
Fixpoint chol n : 'M[R]_n -> option 'M[R]_n :=
  match n with
  | 0 => fun A => Some A
  | n'.+1 => fun A0 =>
      let A : 'M[R]_(1 + n') := A0 in
      let a := ulsubmx A 0 0 in
      if 0 < a then
        let l := Num.sqrt a in
        let v := l^-1 *: dlsubmx A in
        match chol (drsubmx A - v *m v^T) with
        | Some L => Some (block_mx l%:M 0 v L : 'M[R]_(1 + n'))
        | None => None
        end
      else None
  end.

(* gpmp/num/numpy_backend.py:465-469: L = cholesky(A); y = L^-1 b; x = L^-T y;
   returns (x, L). *)
Definition cholesky_solve n p (A : 'M[R]_n) (b : 'M[R]_(n, p))
  : res ('M[R]_(n, p) * 'M[R]_n) :=
  match chol A with
  | None => Err LinAlgError
  | Some L =>
      let y := invmx L *m b in
      let x := invmx L^T *m y in
      Ok (x, L)
  end.

(* scipy.linalg.solve / torch.linalg.solve (general path). *)
Definition solve n p (A : 'M[R]_n) (B : 'M[R]_(n, p)) : res 'M[R]_(n, p) :=
  if A \in unitmx then Ok (invmx A *m B) else Err LinAlgError.

(* numpy.linalg.inv *)
Definition inv n (A : 'M[R]_n) : res 'M[R]_n :=
  if A \in unitmx then Ok (invmx A) else Err LinAlgError.

(* gnp.einsum("i..., i...", A, B): column-wise inner products *)
Definition einsum_ii n m (A B : 'M[R]_(n, m)) : 'rV[R]_m :=
  \row_j \sum_i A i j * B i j.

(* gnp.einsum("i..., i...", A, z) with z of shape (n,) *)
Definition einsum_iz n m (A : 'M[R]_(n, m)) (z : 'cV[R]_n) : 'rV[R]_m :=
  \row_j \sum_i A i j * z i 0.

(* gpmp/core/linalg.py:17-46 diag_Kinv_from_chol (lower=True):
   T = C^{-1}; column-wise sum of squares. *)
Definition diag_Kinv_from_chol n (C : 'M[R]_n) : 'rV[R]_n :=
  let T := invmx C *m 1%:M in
  \row_j \sum_i T i j * T i j.

(* same, lower=False: solve_triangular(C, I, lower=False), row-wise sums. *)
Definition diag_Kinv_from_chol_upper n (C : 'M[R]_n) : 'rV[R]_n :=
  let T := invmx C *m 1%:M in
  \row_i \sum_j T i j * T i j.

(* A QR routine in mode="complete": P of shape (q+r, q) |-> (Q, R). *)
Definition qr_fun q r := 'M[R]_(q + r, q) -> 'M[R]_(q + r) * 'M[R]_(q + r, q).

(* gpmp/core/linalg.py:49-70 compute_contrast_matrix: Q[:, q:n]. *)
Definition compute_contrast_matrix q r (qr : qr_fun q r) (P : 'M[R]_(q + r, q))
  : 'M[R]_(q + r, r) :=
  let '(Q, _) := qr P in rsubmx Q.

(* gpmp/core/linalg.py:73-88 compute_contrast_covariance: W' (K W). *)
Definition compute_contrast_covariance n r (W : 'M[R]_(n, r)) (K : 'M[R]_n) : 'M[R]_r :=
  W^T *m (K *m W).

(* gpmp/core/linalg.py:113-118 norm_k_sqrd_with_zero_mean *)
Definition norm_k_sqrd_with_zero_mean n (K : 'M[R]_n) (zi : 'cV[R]_n) : res R :=
  rbind (cholesky_solve K zi) (fun xL => Ok (einsum_ii zi xL.1 0 0)).

(* gpmp/core/linalg.py:121-129 k_inverses (cholesky_inv is inv(A),
   gpmp/num/numpy_backend.py:458-463). *)
Definition k_inverses n (K : 'M[R]_n) (zi : 'cV[R]_n)
  : res (R * 'cV[R]_n * 'cV[R]_n) :=
  rbind (inv K) (fun Kinv =>
    let Kinv_zi := Kinv *m zi in
    let Kinv_1 := Kinv *m const_mx 1 in
    Ok (einsum_ii zi Kinv_zi 0 0, Kinv_1, Kinv_zi)).

(* gpmp/core/linalg.py:132-141 norm_k_sqrd *)
Definition norm_k_sqrd q r (qr : qr_fun q r) (K : 'M[R]_(q + r)) P
  (zi : 'cV[R]_(q + r)) : res R :=
  let W := compute_contrast_matrix qr P in
  let Wzi := W^T *m zi in
  let G := compute_contrast_covariance W K in
  rbind (cholesky_solve G Wzi) (fun xL => Ok (einsum_ii Wzi xL.1 0 0)).

End Linalg.

Section Kriging.
Variable R : rcfType.
Implicit Types (m n p q : nat).

(* The posterior variance as returned: None, a vector, or a matrix. *)
Inductive pvar m := PVNone | PVVar of 'rV[R]_m | PVCov of 'M[R]_m.
Arguments PVNone {m}.

(* The two values of model.covariance(xt, None, covparam, pairwise): the vector
   (pairwise=True) and the matrix (pairwise=False). *)
Record prior_tt m := PriorTT { tt_pairwise : 'rV[R]_m; tt_full : 'M[R]_m }.

(* gpmp/core/kriging.py:170-199 _compute_posterior_variance.
   lm = lambda (zero mean) or [lambda; mu] (universal). *)
Definition compute_posterior_variance p m (tt : prior_tt m)
  (lm RHS : 'M[R]_(p, m)) (return_type : int) : res (pvar m) :=
  if return_type == (-1) then Ok PVNone
  else if return_type == 0 then Ok (PVVar (tt_pairwise tt - einsum_ii lm RHS))
  else if return_type == 1 then Ok (PVCov (tt_full tt - lm^T *m RHS))
  else Err ValueErr.

(* gpmp/core/kriging.py:35-67 kriging_predictor_with_zero_mean *)
Definition kriging_predictor_with_zero_mean n m (Kii : 'M[R]_n)
  (Kit : 'M[R]_(n, m)) (tt : prior_tt m) (return_type : int)
  : res ('M[R]_(n, m) * pvar m) :=
  rbind (cholesky_solve Kii Kit) (fun xL =>
    let lambda_t := xL.1 in
    rbind (compute_posterior_variance tt lambda_t Kit return_type) (fun v =>
      Ok (lambda_t, v))).

(* gpmp/core/kriging.py:202-257 _kriging_predictor_nullspace.
   solve(Rq.T, Pt.T, assume_a="sym") is modelled by the argument symsolve: the
   general solution for the Torch backend (which ignores assume_a), and for
   SciPy a solver that only reads one triangle of the matrix. *)
Definition kriging_predictor_nullspace q r m
  (qr : qr_fun R q r)
  (symsolve : 'M[R]_q -> 'M[R]_(q, m) -> res 'M[R]_(q, m))
  (K : 'M[R]_(q + r)) (P : 'M[R]_(q + r, q))
  (Kit : 'M[R]_(q + r, m)) (Pt : 'M[R]_(m, q)) (tt : prior_tt m)
  (return_type : int) : res ('M[R]_(q + r, m) * pvar m) :=
  let '(Q, Rm) := qr P in
  let Q1 := lsubmx Q in
  let W := rsubmx Q in
  let Rq := usubmx Rm in
  let G := W^T *m (K *m W) in
  rbind (cholesky_solve G (W^T *m Kit)) (fun aL =>
    let alpha := aL.1 in
    rbind (symsolve Rq^T Pt^T) (fun beta =>
      let lambda_t := W *m alpha + Q1 *m beta in
      let RHS := col_mx Kit Pt^T in
      let LM := col_mx lambda_t beta in
      rbind (compute_posterior_variance tt LM RHS return_type) (fun v =>
        Ok (lambda_t, v)))).

(* scipy.linalg.solve(A, B, assume_a="sym") reads the upper triangle only *)
Definition sym_of_upper q (A : 'M[R]_q) : 'M[R]_q :=
  \matrix_(i, j) (if (i <= j)%N then A i j else A j i).
Definition scipy_symsolve q m (A : 'M[R]_q) (B : 'M[R]_(q, m)) :=
  solve (sym_of_upper A) B.

(* The block system of gpmp/core/kriging.py:94-103. *)
Definition uk_lhs n q (Kii : 'M[R]_n) (Pi : 'M[R]_(n, q)) : 'M[R]_(n + q) :=
  block_mx Kii Pi Pi^T 0.
Definition uk_rhs n q m (Kit : 'M[R]_(n, m)) (Pt : 'M[R]_(m, q)) : 'M[R]_(n + q, m) :=
  col_mx Kit Pt^T.

(* gpmp/core/kriging.py:106-114: the try branch. *)
Definition kriging_predictor_block n q m (Kii : 'M[R]_n) (Pi : 'M[R]_(n, q))
  (Kit : 'M[R]_(n, m)) (Pt : 'M[R]_(m, q)) (tt : prior_tt m)
  (return_type : int) : res ('M[R]_(n, m) * pvar m) :=
  let LHS := uk_lhs Kii Pi in
  let RHS := uk_rhs Kit Pt in
  rbind (solve LHS RHS) (fun lambdamu_t =>
    let lambda_t := usubmx lambdamu_t in
    rbind (compute_posterior_variance tt lambdamu_t RHS return_type) (fun v =>
      Ok (lambda_t, v))).

(* gpmp/core/kriging.py:70-116 kriging_predictor: any exception in the try
   branch (a bad return_type included) is caught and the null-space route is
   used instead. *)
Definition kriging_predictor q r m
  (qr : qr_fun R q r)
  (symsolve : 'M[R]_q -> 'M[R]_(q, m) -> res 'M[R]_(q, m))
  (Kii : 'M[R]_(q + r)) (Pi : 'M[R]_(q + r, q))
  (Kit : 'M[R]_(q + r, m)) (Pt : 'M[R]_(m, q)) (tt : prior_tt m)
  (return_type : int) : res ('M[R]_(q + r, m) * pvar m) :=
  match kriging_predictor_block Kii Pi Kit Pt tt return_type with
  | Ok lv => Ok lv
  | Err _ => kriging_predictor_nullspace qr symsolve Kii Pi Kit Pt tt return_type
  end.

(* Mean handling (gpmp/core/kriging.py:119-164 select_predictor).  For the
   parameterized mean the two vectors mean(xi, meanparam), mean(xt, meanparam)
   are given, or None when meanparam is None. *)
Inductive meanspec q r m :=
  | MZero
  | MLinear of 'M[R]_(q + r, q) & 'M[R]_(m, q)
  | MParam of option ('cV[R]_(q + r) * 'rV[R]_m).

Definition select_predictor q r m (qr : qr_fun R q r)
  (symsolve : 'M[R]_q -> 'M[R]_(q, m) -> res 'M[R]_(q, m))
  (mean : meanspec q r m) (Kii : 'M[R]_(q + r)) (Kit : 'M[R]_(q + r, m))
  (tt : prior_tt m) (zi : 'cV[R]_(q + r))
  : res ('cV[R]_(q + r) * 'rV[R]_m * 'M[R]_(q + r, m) * pvar m) :=
  match mean with
  | MZero =>
      rbind (kriging_predictor_with_zero_mean Kii Kit tt 0) (fun lv =>
        Ok (zi, 0, lv.1, lv.2))
  | MLinear Pi Pt =>
      rbind (kriging_predictor qr symsolve Kii Pi Kit Pt tt 0) (fun lv =>
        Ok (zi, 0, lv.1, lv.2))
  | MParam None => Err ValueErr
  | MParam (Some (mi, mt)) =>
      rbind (kriging_predictor_with_zero_mean Kii Kit tt 0) (fun lv =>
        Ok (zi - mi, mt, lv.1, lv.2))
  end.

(* gnp.maximum(v, 0.0) *)
Definition clip0 m (v : 'rV[R]_m) : 'rV[R]_m := \row_j Num.max (v 0 j) 0.

(* gpmp/core/model.py:285-307 Model.predict.  The variance here is always
   the vector form, since select_predictor uses return_type=0. *)
Definition predict q r m (qr : qr_fun R q r)
  (symsolve : 'M[R]_q -> 'M[R]_(q, m) -> res 'M[R]_(q, m))
  (mean : meanspec q r m) (Kii : 'M[R]_(q + r)) (Kit : 'M[R]_(q + r, m))
  (tt : prior_tt m) (zi : 'cV[R]_(q + r)) (zero_neg_variances : bool)
  : res ('rV[R]_m * 'rV[R]_m * 'M[R]_(q + r, m)) :=
  rbind (select_predictor qr symsolve mean Kii Kit tt zi) (fun s =>
    let '(zi_centered, zt_prior_mean, lambda_t, v) := s in
    match v with
    | PVVar var =>
        let var' := if zero_neg_variances then clip0 var else var in
        let mu := einsum_iz lambda_t zi_centered + zt_prior_mean in
        Ok (mu, var', lambda_t)
    | _ => Err ValueErr
    end).

End Kriging.
Arguments PVNone {R m}.

Section Loo.
Variable R : rcfType.
Implicit Types (n q r : nat).

(* gpmp/core/loo.py:65-83 _loo_with_zero_mean; returns (zloo, sigma2loo, eloo). *)
Definition loo_zero_mean n (K : 'M[R]_n) (zi : 'cV[R]_n)
  : res ('cV[R]_n * 'cV[R]_n * 'cV[R]_n) :=
  rbind (cholesky_solve K zi) (fun xC =>
    let Kinv_zi := xC.1 in
    let Kinvdiag := diag_Kinv_from_chol xC.2 in
    let eloo := \col_i (Kinv_zi i 0 / Kinvdiag 0 i) in
    let sigma2loo := \col_i (1 / Kinvdiag 0 i) in
    let zloo := zi - eloo in
    Ok (zloo, sigma2loo, eloo)).

(* gpmp/core/loo.py:89-97 _loo_with_parameterized_mean *)
Definition loo_parameterized_mean n (K : 'M[R]_n) (mi zi : 'cV[R]_n)
  : res ('cV[R]_n * 'cV[R]_n * 'cV[R]_n) :=
  let centered_zi := zi - mi in
  rbind (loo_zero_mean K centered_zi) (fun t =>
    let '(zloo_centered, sigma2loo, eloo_centered) := t in
    Ok (zloo_centered + mi, sigma2loo, eloo_centered)).

(* gpmp/core/loo.py:103-130 _loo_with_linear_predictor_mean_cpd *)
Definition loo_linear_cpd q r (qr : qr_fun R q r) (K : 'M[R]_(q + r))
  (P : 'M[R]_(q + r, q)) (zi : 'cV[R]_(q + r))
  : res ('cV[R]_(q + r) * 'cV[R]_(q + r) * 'cV[R]_(q + r)) :=
  let '(Q, _) := qr P in
  let W := rsubmx Q in
  let G := W^T *m (K *m W) in
  rbind (cholesky_solve G W^T) (fun SL =>
    let S := SL.1 in
    let Qinvzi := W *m (S *m zi) in
    let Qinvdiag := \col_i \sum_j W i j * (S^T) i j in
    let eloo := \col_i (Qinvzi i 0 / Qinvdiag i 0) in
    let sigma2loo := \col_i (1 / Qinvdiag i 0) in
    let zloo := zi - eloo in
    Ok (zloo, sigma2loo, eloo)).

(* gpmp/core/loo.py:136-162 _loo_with_linear_predictor_mean_spd *)
Definition loo_linear_spd n q (K : 'M[R]_n) (P : 'M[R]_(n, q)) (zi : 'cV[R]_n)
  : res ('cV[R]_n * 'cV[R]_n * 'cV[R]_n) :=
  rbind (inv K) (fun Kinv =>
    let KinvP := Kinv *m P in
    let PtKinvP := P^T *m KinvP in
    rbind (solve PtKinvP KinvP^T) (fun Rm =>
      let Qinv := Kinv - KinvP *m Rm in
      let Qinvzi := Qinv *m zi in
      let eloo := \col_i (Qinvzi i 0 / Qinv i i) in
      let sigma2loo := \col_i (1 / Qinv i i) in
      let zloo := zi - eloo in
      Ok (zloo, sigma2loo, eloo))).

End Loo.

Section Paths.
Variable R : rcfType.
Implicit Types (n m : nat).

(* gpmp/core/sample_paths.py:48-60: the factor C used to draw paths.  The
   backend's svd is an argument returning (U, s, Vt). *)
Inductive path_method := MChol | MSvd.
Definition path_factor n
  (svd : 'M[R]_n -> 'M[R]_n * 'rV[R]_n * 'M[R]_n) (method : path_method)
  (K : 'M[R]_n) : res 'M[R]_n :=
  match method with
  | MChol => match chol K with Some C => Ok C | None => Err LinAlgError end
  | MSvd =>
      let '(U, s, Vt) := svd K in
      Ok ((\matrix_(i, j) (U i j * Num.sqrt (s 0 j))) *m Vt)
  end.

(* gpmp/core/sample_paths.py:62-63: zsim = C @ randn(n, nb_paths); the normal
   draws are an argument. *)
Definition sample_paths n nb svd method (K : 'M[R]_n) (xi : 'M[R]_(n, nb)) : res 'M[R]_(n, nb) :=
  rbind (path_factor svd method K) (fun C => Ok (C *m xi)).

(* gpmp/core/sample_paths.py:66-119 conditional_sample_paths: index arrays are
   functions on ordinals (numpy fancy indexing with in-range indices). *)
Definition take_rows nt n nb (Z : 'M[R]_(nt, nb)) (ind : 'I_n -> 'I_nt) : 'M[R]_(n, nb) :=
  \matrix_(i, j) Z (ind i) j.

Definition conditional_sample_paths N ni nt nb (ztsim : 'M[R]_(N, nb))
  (xi_ind : 'I_ni -> 'I_N) (zi : 'cV[R]_ni) (xt_ind : 'I_nt -> 'I_N)
  (lambda_t : 'M[R]_(ni, nt)) : 'M[R]_(nt, nb) :=
  let delta := \matrix_(i, j) (zi i 0 - take_rows ztsim xi_ind i j) in
  take_rows ztsim xt_ind + lambda_t^T *m delta.

(* gpmp/core/sample_paths.py:122-182 conditional_sample_paths_parameterized_mean *)
Definition conditional_sample_paths_parameterized_mean N ni nt nb
  (ztsim : 'M[R]_(N, nb)) (xi_ind : 'I_ni -> 'I_N) (zi mi : 'cV[R]_ni)
  (xt_ind : 'I_nt -> 'I_N) (mt : 'cV[R]_nt) (lambda_t : 'M[R]_(ni, nt))
  : 'M[R]_(nt, nb) :=
  let zi_centered := zi - mi in
  let delta := \matrix_(i, j) (zi_centered i 0 - take_rows ztsim xi_ind i j) in
  take_rows ztsim xt_ind + lambda_t^T *m delta + (\matrix_(i, j) mt i 0).

End Paths.

Section Fisher.
Variable R : rcfType.
Implicit Types (n p q r : nat).

(* gpmp/core/fisher.py:53-78 fisher_information, after the finite differences:
   dK is the family of (approximate) derivative matrices.  The loop fills both
   I[i,j] and I[j,i] with the term computed for i <= j. *)
Definition fisher_information n p (K : 'M[R]_n) (dK : 'I_p -> 'M[R]_n)
  : res 'M[R]_p :=
  match inv K with
  | Err _ => Err RuntimeErr
  | Ok K_inv =>
      let term i j := 2%:R^-1 * \tr (K_inv *m dK i *m K_inv *m dK j) in
      Ok (\matrix_(i, j) (if (i <= j)%N then term i j else term j i))
  end.

(* gpmp/num/shared.py:44-55 derivative_finite_diff, for a matrix-valued f *)
Definition derivative_finite_diff n m (f : R -> 'M[R]_(n, m)) (x h : R) : 'M[R]_(n, m) :=
  (12%:R * h)^-1 *: (- f (x + 2%:R * h) + 8%:R *: f (x + h)
                     - 8%:R *: f (x - h) + f (x - 2%:R * h)).

(* gpmp/core/fisher.py:65-66: t = copy(theta); t[i] = tmp_val *)
Definition set_coord p (t : 'rV[R]_p) (i : 'I_p) (v : R) : 'rV[R]_p :=
  \row_k (if k == i then v else t 0 k).

(* gpmp/core/fisher.py:49-78: the whole function; cov theta stands for
   model.covariance(xi, xi, theta). *)
Definition fisher_information_fd n p (cov : 'rV[R]_p -> 'M[R]_n) (theta : 'rV[R]_p) (eps : R) :=
  fisher_information (cov theta)
    (fun i => derivative_finite_diff (fun v => cov (set_coord theta i v)) (theta 0 i) eps).

(* gpmp/core/fisher.py:108-148: the contrast-space version. *)
Definition fisher_information_cpd q r p (qr : qr_fun R q r)
  (K : 'M[R]_(q + r)) (P : 'M[R]_(q + r, q)) (dK : 'I_p -> 'M[R]_(q + r))
  : res 'M[R]_p :=
  let '(Q, _) := qr P in
  let W := rsubmx Q in
  let G := W^T *m (K *m W) in
  let dG i := W^T *m (dK i *m W) in
  match chol G with
  | None => Err LinAlgError
  | Some L =>
      let Gsolve (A : 'M[R]_r) := invmx L^T *m (invmx L *m A) in
      let term i j := 2%:R^-1 * \tr (Gsolve (dG i) *m Gsolve (dG j)) in
      Ok (\matrix_(i, j) (if (i <= j)%N then term i j else term j i))
  end.

End Fisher.

Section Points.
(* The covariance callable itself, for a kernel function k and a nugget nu:
   gpmp/kernel/matern.py:67-141 has this shape, with nu = 10*sigma2*eps.  A
   point array is a function from indices to points. *)
Variables (R : rcfType) (X : Type).
Implicit Types (n m : nat).

Record kernel := Kernel { kfun : X -> X -> R; knug : R }.

Definition kmx k n m (x : 'I_n -> X) (y : 'I_m -> X) : 'M[R]_(n, m) :=
  \matrix_(i, j) k (x i) (y j).

(* covariance(x, y, param) when "y is x" or y is None, pairwise=False *)
Definition cov_same (c : kernel) n (x : 'I_n -> X) : 'M[R]_n :=
  kmx (kfun c) x x + (knug c)%:M.
(* same, pairwise=True: no nugget *)
Definition cov_same_pairwise (c : kernel) n (x : 'I_n -> X) : 'rV[R]_n :=
  \row_j kfun c (x j) (x j).
(* covariance(x, y, param) with another array object *)
Definition cov_cross (c : kernel) n m (x : 'I_n -> X) (y : 'I_m -> X) : 'M[R]_(n, m) :=
  kmx (kfun c) x y.

Definition cov_tt (c : kernel) m (xt : 'I_m -> X) : prior_tt R m :=
  PriorTT (cov_same_pairwise c xt) (cov_same c xt).

(* remove observation i: xi[np.arange(n) != i] *)
Definition drop_pt (T : Type) n (i : 'I_n.+1) (x : 'I_n.+1 -> T) : 'I_n -> T :=
  fun j => x (lift i j).

End Points.
