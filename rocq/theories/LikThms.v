(* LikThms.v: property theorems C30 (likelihood), C31 (restricted likelihood),
   C33 (autodiff Fisher variant), over Coq's real numbers. *)
From Coq Require Import Reals.
From mathcomp Require Import all_ssreflect all_algebra.
From Verif Require Import LinAlg KrigModel RealAux Rinst LikModel CholProofs LinQR KrigProofs
  KrigProofs2 KrigProofs3 LooProofs PathProofs LikProofs.
Set Implicit Arguments.
Unset Strict Implicit.
Unset Printing Implicit Defensive.
Import Order.TTheory GRing.Theory Num.Theory.
Local Open Scope ring_scope.
Local Arguments ln : clear scopes.
Local Arguments exp : clear scopes.
Bind Scope ring_scope with R.

(* ---------- C30 ---------- *)
(* gauss_nll K z = (n ln 2pi + ln det K + z' K^-1 z) / 2 *)
Theorem C30_nll_value b n (K : 'M[R]_n) (z : 'cV[R]_n) : pos_def K ->
  nll_zero_mean b K z =
    Ok (Fin ((n%:R * ln (2%:R * PI) + ln (\det K) + (z^T *m invmx K *m z) 0 0) / 2%:R)).
Proof. exact: nll_zero_ok. Qed.
Print Assumptions C30_nll_value.
Theorem C30_nll_not_positive_definite n (K : 'M[R]_n) (z : 'cV[R]_n) : symmetric K -> ~ pos_def K ->
  nll_zero_mean Torch K z = Ok PInf /\ nll_zero_mean NumPy K z = Err LinAlgError.
Proof. exact: nll_zero_fail. Qed.
Print Assumptions C30_nll_not_positive_definite.
Theorem C30_nll_centred b n (K : 'M[R]_n) (m z : 'cV[R]_n) : pos_def K ->
  nll b K m z =
    Ok (Fin ((n%:R * ln (2%:R * PI) + ln (\det K) + ((z - m)^T *m invmx K *m (z - m)) 0 0) / 2%:R)).
Proof. exact: nll_zero_ok. Qed.
Print Assumptions C30_nll_centred.
(* adding one observation multiplies the likelihood by the univariate normal
   density whose mean and variance are those of the predictor *)
Theorem C30_nll_chain_rule b n (A : 'M[R]_n) (k : 'cV[R]_n) (d t : R) (z : 'cV[R]_n) tt :
  pos_def (block_mx A k k^T d%:M) -> tt_pairwise tt = d%:M ->
  exists lam v L1 L2, [/\ kriging_predictor_with_zero_mean A k tt 0 = Ok (lam, PVVar v),
    0 < v 0 0,
    nll_zero_mean b A z = Ok (Fin L1),
    nll_zero_mean b (block_mx A k k^T d%:M) (col_mx z t%:M) = Ok (Fin L2)
    & exp (- (L2 - L1)) =
      Rmult (Rinv (sqrt (Rmult (Rmult (IZR 2) PI) (v 0 0))))
        (exp (Ropp (Rdiv (Rsqr (Rminus t (lincomb lam z))) (Rmult (IZR 2) (v 0 0)))))].
Proof.
move=> pM ett; have [lam [v [e1 [v0 e2]]]] := gauss_chain1 t z pM ett.
exists lam, v, (gauss_nll A z), (gauss_nll (block_mx A k k^T d%:M) (col_mx z t%:M)); split=> //.
- by apply: nll_zero_ok; exact: pd_block_ul pM.
- exact: nll_zero_ok.
by rewrite e2 addrC addKr exp_gauss1.
Qed.
Print Assumptions C30_nll_chain_rule.
Example C30_case : pos_def (w_K R_rcfType) /\
  (symmetric (0 : 'M[R]_1) /\ ~ pos_def (0 : 'M[R]_1)) /\
  pos_def (block_mx 1%:M (0 : 'cV[R]_1) (0 : 'cV[R]_1)^T (4%:R)%:M).
Proof.
split; first exact: w_pd.
split; last by rewrite trmx0; exact: w_pd.
split; first exact: trmx0.
move=> [_ /(_ 1%:M)]; rewrite oner_eq0 => /(_ isT).
by rewrite /qform /bilin mulmx0 mul0mx mxE ltxx.
Qed.
Example C30_value_case b : nll_zero_mean b (1%:M : 'M[R]_1) 0 = Ok (Fin (ln (2%:R * PI) / 2%:R)).
Proof.
rewrite C30_nll_value; last exact: pos_def1.
by rewrite mulmx0 mxE det1 [ln 1]ln_1 mul1r !addr0.
Qed.

(* ---------- C31 ---------- *)
Theorem C31_trend_invariance b q r (qr : qr_fun R_rcfType q r) (K : 'M[R]_(q + r))
  (P : 'M[R]_(q + r, q)) (z : 'cV[R]_(q + r)) (beta : 'cV[R]_q) :
  is_qr P (qr P) -> nrl b qr K P (z + P *m beta) = nrl b qr K P z.
Proof.
move=> qrP; have [_ PW _] := qr_contrast qrP.
rewrite /nrl /compute_contrast_matrix; case E: (qr P) PW => [Q Rm] /= PW.
have WP : (rsubmx Q)^T *m P = 0 by rewrite -[P]trmxK -trmx_mul PW trmx0.
by rewrite mulmxDr (mulmxA _ P) WP mul0mx addr0.
Qed.
Print Assumptions C31_trend_invariance.
(* two QR routines, or two bases of the same trend space *)
Theorem C31_basis_invariance b q r (qr qr' : qr_fun R_rcfType q r) (K : 'M[R]_(q + r))
  (P : 'M[R]_(q + r, q)) (T : 'M[R]_q) (z : 'cV[R]_(q + r)) :
  full_col_rank P -> cond_pos_def K P -> T \in unitmx ->
  is_qr P (qr P) -> is_qr (P *m T) (qr' (P *m T)) ->
  nrl b qr' K (P *m T) z = nrl b qr K P z.
Proof.
move=> fP cK uT qrP qrP'; have cK' : cond_pos_def K (P *m T).
  case: cK => sK pK; split=> // x; rewrite trmx_mul -mulmxA => e; apply: pK.
  have uTt : T^T \in unitmx by rewrite unitmx_tr.
  by apply: (can_inj (mulKmx uTt)); rewrite mulmx0.
rewrite (nrl_ok b z qrP' cK') (nrl_ok b z qrP cK); congr (Ok (Fin _)).
apply: (nrl_of_basis z qrP fP cK); have [WW PW e] := qr_contrast qrP'; split=> //.
have uTt : T^T \in unitmx by rewrite unitmx_tr.
by apply: (can_inj (mulKmx uTt)); rewrite mulmx0 mulmxA -trmx_mul.
Qed.
Print Assumptions C31_basis_invariance.
(* covariances that differ by P H + H' P' are equivalent *)
Theorem C31_intrinsic_invariance b q r (qr : qr_fun R_rcfType q r) (K : 'M[R]_(q + r))
  (P : 'M[R]_(q + r, q)) (z : 'cV[R]_(q + r)) (H : 'M[R]_(q, q + r)) :
  is_qr P (qr P) -> nrl b qr (K + P *m H + H^T *m P^T) P z = nrl b qr K P z.
Proof.
move=> qrP; have [_ PW _] := qr_contrast qrP.
rewrite /nrl /compute_contrast_matrix /compute_contrast_covariance.
case E: (qr P) PW => [Q Rm] /= PW.
have WP : (rsubmx Q)^T *m P = 0 by rewrite -[P]trmxK -trmx_mul PW trmx0.
by rewrite !mulmxDl !mulmxDr -!mulmxA PW (mulmxA _ P) WP mul0mx !mulmx0 !addr0.
Qed.
Print Assumptions C31_intrinsic_invariance.
Theorem C31_closed_form b q r (qr : qr_fun R_rcfType q r) (K : 'M[R]_(q + r))
  (P : 'M[R]_(q + r, q)) (z : 'cV[R]_(q + r)) :
  is_qr P (qr P) -> full_col_rank P -> pos_def K ->
  let Ki := invmx K in
  let B := Ki - Ki *m P *m invmx (P^T *m Ki *m P) *m P^T *m Ki in
  nrl b qr K P z =
    Ok (Fin ((((q + r)%:R - q%:R) * ln (2%:R * PI) + ln (\det K) + ln (\det (P^T *m Ki *m P))
             - ln (\det (P^T *m P)) + (z^T *m B *m z) 0 0) / 2%:R)).
Proof.
move=> qrP fP pK; rewrite (nrl_ok b z qrP (pd_cpd P pK)); congr (Ok (Fin _)).
exact: nrl_closed.
Qed.
Print Assumptions C31_closed_form.
Theorem C31_failure q r (qr : qr_fun R_rcfType q r) (K : 'M[R]_(q + r)) (P : 'M[R]_(q + r, q)) z :
  is_qr P (qr P) -> full_col_rank P -> symmetric K ->
  (cond_pos_def K P -> forall b, exists L, nrl b qr K P z = Ok (Fin L)) /\
  (~ cond_pos_def K P -> nrl Torch qr K P z = Ok PInf /\ nrl NumPy qr K P z = Err LinAlgError).
Proof.
move=> qrP fP sK; split=> [cK b|]; last exact: nrl_fail.
by eexists; exact: nrl_ok.
Qed.
Print Assumptions C31_failure.
Example C31_case : is_qr (w_P R_rcfType) (hqr (w_P R_rcfType)) /\ full_col_rank (w_P R_rcfType) /\
  pos_def (w_K R_rcfType) /\ cond_pos_def (w_K R_rcfType) (w_P R_rcfType).
Proof.
split; first exact: hqr_ok.
split; first exact: w_full.
by split; [exact: w_pd | apply: pd_cpd; exact: w_pd].
Qed.

(* ---------- C33 ---------- *)
(* K(theta) = exp(theta) K0, one parameter.  Autodiff is represented by: H is the
   second derivative of the function the code differentiates.  The exact
   derivative of K is K itself, and the Fisher information n/2; the finite
   difference version returns n/2 times the square of the difference quotient of
   exp; the autodiff version returns 0. *)
Theorem C33_torch_variant_zero n (K0 : 'M[R]_n) (f : R -> R) (t H : R) : pos_def K0 ->
  (forall u, log_det_cov (cov_exp K0 (par1 u)) = Some (f u)) ->
  second_derivative f t H -> fisher_information_torch H = 0.
Proof. exact: torch_exp. Qed.
Print Assumptions C33_torch_variant_zero.
Theorem C33_finite_difference_variant n (K0 : 'M[R]_n.+1) (theta : 'rV[R]_1) (h : R) : pos_def K0 ->
  0 < h -> Rle h 1 ->
  exists I, [/\ fisher_information_fd (cov_exp K0) theta h = Ok I,
     I 0 0 = fd_exp h ^+ 2 * (n.+1%:R / 2%:R) & I 0 0 != 0].
Proof.
move=> pK h0 h1; exists (const_mx (fd_exp h ^+ 2 * (n.+1%:R / 2%:R))).
rewrite fisher_fd_exp // mxE; split=> //.
have /ltRP f0 := fd_exp_pos h (conj (elimT (ltRP _ _) h0) h1).
by rewrite mulf_neq0 ?expf_neq0 ?gt_eqF // divr_gt0 // ltr0n.
Qed.
Print Assumptions C33_finite_difference_variant.
Theorem C33_exact_information n (K0 : 'M[R]_n) (theta : 'rV[R]_1) : pos_def K0 ->
  fisher_information (cov_exp K0 theta) (fun _ : 'I_1 => cov_exp K0 theta)
    = Ok (const_mx (n%:R / 2%:R)).
Proof.
move=> pK; have := @fisher_self n 1 _ 1 (pd_scale (exp_gt0 (theta 0 0)) pK).
by rewrite scale1r expr1n mul1r.
Qed.
Print Assumptions C33_exact_information.
(* K(theta) = theta K0: exactly minus the Fisher information n / (2 theta^2) *)
Theorem C33_torch_variant_negative n (K0 : 'M[R]_n) (f : R -> R) (t H : R) : pos_def K0 -> 0 < t ->
  (forall u, 0 < u -> log_det_cov (cov_lin K0 (par1 u)) = Some (f u)) ->
  second_derivative f t H ->
  fisher_information_torch H = - (n%:R / 2%:R / t ^+ 2) /\
  fisher_information (cov_lin K0 (par1 t)) (fun _ : 'I_1 => K0) = Ok (const_mx (n%:R / 2%:R / t ^+ 2)).
Proof.
move=> pK t0 hf hH; split; first exact: torch_lin hf hH.
have tn : t != 0 by rewrite gt_eqF.
have := @fisher_self n 1 _ t^-1 (pd_scale t0 pK); rewrite scalerA mulVf // scale1r.
by rewrite /cov_lin par1E => ->; rewrite exprVn mulrC.
Qed.
Print Assumptions C33_torch_variant_negative.
Example C33_case (t : R) : exists (f : R -> R) H,
  (forall u, log_det_cov (cov_exp (w_K R_rcfType) (par1 u)) = Some (f u)) /\ second_derivative f t H.
Proof. by apply: torch_exp_ex; exact: w_pd. Qed.
