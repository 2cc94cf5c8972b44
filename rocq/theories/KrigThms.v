(* KrigThms.v: property theorems C19-C27 (kriging and Model.predict).
   Every theorem is followed by the axioms it uses and by a concrete case. *)
From mathcomp Require Import all_ssreflect all_algebra.
From Verif Require Import LinAlg KrigModel CholProofs LinQR KrigProofs KrigProofs2 KrigProofs3.
Set Implicit Arguments.
Unset Strict Implicit.
Unset Printing Implicit Defensive.
Import Order.TTheory GRing.Theory Num.Theory.
Local Open Scope ring_scope.

(* ---------- C19 ---------- *)
(* The weights are the unique minimiser of the mean squared error
   Var(Z_t(j) - w' Z_i), and the returned variance is the minimum. *)
Theorem C19_zero_mean_blup (R : rcfType) n m (Kii : 'M[R]_n) (Kit : 'M[R]_(n, m))
  (Ktt : 'M[R]_m) tt :
  pos_def Kii -> tt_pairwise tt = diag_of Ktt ->
  exists lam v,
    kriging_predictor_with_zero_mean Kii Kit tt 0 = Ok (lam, PVVar v) /\
    forall j, v 0 j = mse (joint Kii Kit Ktt) (col j lam) j /\
      forall w, w != col j lam -> v 0 j < mse (joint Kii Kit Ktt) w j.
Proof. exact: zero_mean_blup. Qed.
Print Assumptions C19_zero_mean_blup.
(* ... and a covariance that is not positive definite is reported *)
Theorem C19_zero_mean_not_pd_raises (R : rcfType) n m (Kii : 'M[R]_n) (Kit : 'M[R]_(n, m)) tt rt :
  symmetric Kii -> ~ pos_def Kii ->
  kriging_predictor_with_zero_mean Kii Kit tt rt = Err LinAlgError.
Proof. exact: krig_zero_fail. Qed.
Print Assumptions C19_zero_mean_not_pd_raises.
Example C19_case (R : rcfType) :
  [/\ pos_def (w_K R), tt_pairwise (e_tt R) = diag_of (e_Ktt R)
    & kriging_predictor_with_zero_mean (w_K R) (e_Kit R) (e_tt R) 0 =
        Ok (col_mx 1%:M (1 / 2%:R)%:M, PVVar 1%:M)].
Proof. split; [exact: w_pd | exact: e_diag | exact: e_zm]. Qed.

(* ---------- C20 ---------- *)
Theorem C20_zero_mean_interpolates (R : rcfType) q r m (qr : qr_fun R q r)
  (symsolve : 'M[R]_q -> 'M[R]_(q, m) -> res 'M[R]_(q, m))
  (Kii : 'M[R]_(q + r)) Kit tt zi i (j : 'I_m) :
  pos_def Kii -> col j Kit = col i Kii ->
  exists mu v lam,
    predict qr symsolve (MZero R q r m) Kii Kit tt zi false = Ok (mu, v, lam) /\
    mu 0 j = zi i 0 /\ v 0 j = tt_pairwise tt 0 j - Kii i i.
Proof. exact: predict_zero_interp. Qed.
Print Assumptions C20_zero_mean_interpolates.
Theorem C20_parameterized_mean_interpolates (R : rcfType) q r m (qr : qr_fun R q r)
  (symsolve : 'M[R]_q -> 'M[R]_(q, m) -> res 'M[R]_(q, m))
  (Kii : 'M[R]_(q + r)) Kit tt zi (mi : 'cV[R]_(q + r)) (mt : 'rV[R]_m) i (j : 'I_m) :
  pos_def Kii -> col j Kit = col i Kii -> mt 0 j = mi i 0 ->
  exists mu v lam,
    predict qr symsolve (MParam (Some (mi, mt))) Kii Kit tt zi false = Ok (mu, v, lam) /\
    mu 0 j = zi i 0 /\ v 0 j = tt_pairwise tt 0 j - Kii i i.
Proof. exact: predict_param_interp. Qed.
Print Assumptions C20_parameterized_mean_interpolates.
Theorem C20_linear_mean_interpolates (R : rcfType) q r m (qr : qr_fun R q r)
  (symsolve : 'M[R]_q -> 'M[R]_(q, m) -> res 'M[R]_(q, m))
  (K : 'M[R]_(q + r)) (P : 'M[R]_(q + r, q)) Kit (Pt : 'M[R]_(m, q)) tt zi i j :
  uk_lhs K P \in unitmx -> col j Kit = col i K -> row j Pt = row i P ->
  exists mu v lam,
    predict qr symsolve (MLinear P Pt) K Kit tt zi false = Ok (mu, v, lam) /\
    mu 0 j = zi i 0 /\ v 0 j = tt_pairwise tt 0 j - K i i.
Proof. exact: predict_linear_interp. Qed.
Print Assumptions C20_linear_mean_interpolates.
Theorem C20_zero_mean_covariance_zero (R : rcfType) n (Kii : 'M[R]_n) tt :
  pos_def Kii -> tt_full tt = Kii ->
  kriging_predictor_with_zero_mean Kii Kii tt 1 = Ok (1%:M, PVCov 0).
Proof. exact: krig_zero_cov_same. Qed.
Print Assumptions C20_zero_mean_covariance_zero.
Theorem C20_linear_covariance_zero (R : rcfType) n q (K : 'M[R]_n) (P : 'M[R]_(n, q)) tt :
  uk_lhs K P \in unitmx -> tt_full tt = K ->
  kriging_predictor_block K P K P tt 1 = Ok (1%:M, PVCov 0).
Proof. exact: uk_cov_same. Qed.
Print Assumptions C20_linear_covariance_zero.
(* the hypotheses hold when predicting at the data themselves *)
Example C20_case (R : rcfType) (j : 'I_(1 + 1)) :
  [/\ pos_def (w_K R), uk_lhs (w_K R) (w_P R) \in unitmx,
      col j (w_K R) = col j (w_K R) & row j (w_P R) = row j (w_P R)].
Proof. split=> //; [exact: w_pd | exact: w_unit]. Qed.

(* ---------- C21 ---------- *)
Theorem C21_zero_mean_posterior (R : rcfType) n m (Kii : 'M[R]_n) (Kit : 'M[R]_(n, m))
  (Ktt : 'M[R]_m) tt :
  pos_def Kii -> pos_semidef (joint Kii Kit Ktt) ->
  tt_pairwise tt = diag_of Ktt -> tt_full tt = Ktt ->
  exists lam v C,
   [/\ kriging_predictor_with_zero_mean Kii Kit tt 0 = Ok (lam, PVVar v),
       kriging_predictor_with_zero_mean Kii Kit tt 1 = Ok (lam, PVCov C),
       pos_semidef C, v = diag_of C
     & forall j, 0 <= v 0 j <= Ktt j j].
Proof. exact: zm_postcov. Qed.
Print Assumptions C21_zero_mean_posterior.
Theorem C21_more_observations (R : rcfType) n1 n2 m (A : 'M[R]_n1) (B : 'M[R]_(n1, n2))
  (D : 'M[R]_n2) (K1 : 'M[R]_(n1, m)) (K2 : 'M[R]_(n2, m)) tt :
  pos_def (block_mx A B B^T D) ->
  exists l1 v1 l2 v2,
  [/\ kriging_predictor_with_zero_mean A K1 tt 0 = Ok (l1, PVVar v1),
      kriging_predictor_with_zero_mean (block_mx A B B^T D) (col_mx K1 K2) tt 0 = Ok (l2, PVVar v2)
    & forall j, v2 0 j <= v1 0 j].
Proof. exact: zm_more_obs. Qed.
Print Assumptions C21_more_observations.
Theorem C21_linear_posterior (R : rcfType) n q m (K : 'M[R]_n) (P : 'M[R]_(n, q))
  (Kit : 'M[R]_(n, m)) Pt Ktt tt :
  cond_pos_def K P -> full_col_rank P -> pos_semidef (joint K Kit Ktt) ->
  tt_pairwise tt = diag_of Ktt -> tt_full tt = Ktt ->
  exists lam v C,
   [/\ kriging_predictor_block K P Kit Pt tt 0 = Ok (lam, PVVar v),
       kriging_predictor_block K P Kit Pt tt 1 = Ok (lam, PVCov C),
       pos_semidef C, v = diag_of C
     & forall j, 0 <= v 0 j].
Proof. exact: uk_postcov_psd. Qed.
Print Assumptions C21_linear_posterior.
(* not knowing the trend never decreases the variance *)
Theorem C21_linear_at_least_zero_mean (R : rcfType) n q m (K : 'M[R]_n) (P : 'M[R]_(n, q))
  (Kit : 'M[R]_(n, m)) Pt tt :
  pos_def K -> full_col_rank P ->
  exists l0 v0 l1 v1,
   [/\ kriging_predictor_with_zero_mean K Kit tt 0 = Ok (l0, PVVar v0),
       kriging_predictor_block K P Kit Pt tt 0 = Ok (l1, PVVar v1)
     & forall j, v0 0 j <= v1 0 j].
Proof. exact: uk_var_ge_zm. Qed.
Print Assumptions C21_linear_at_least_zero_mean.
Example C21_case (R : rcfType) :
  [/\ pos_def (w_K R), pos_semidef (joint (w_K R) (e_Kit R) (e_Ktt R)),
      tt_pairwise (e_tt R) = diag_of (e_Ktt R), tt_full (e_tt R) = e_Ktt R
    & cond_pos_def (w_K R) (w_P R) /\ full_col_rank (w_P R)].
Proof.
split=> //; [exact: w_pd | exact: e_joint_psd | exact: e_diag |].
split; [exact/pd_cpd/w_pd | exact: w_full].
Qed.

(* ---------- C22 ---------- *)
Theorem C22_universal_kriging_blup (R : rcfType) n q m (K : 'M[R]_n) (P : 'M[R]_(n, q))
  (Kit : 'M[R]_(n, m)) Pt Ktt tt :
  cond_pos_def K P -> full_col_rank P -> tt_pairwise tt = diag_of Ktt ->
  exists lam v,
    kriging_predictor_block K P Kit Pt tt 0 = Ok (lam, PVVar v) /\
    forall j,
      [/\ unbiased P Pt (col j lam) j,
          v 0 j = mse (joint K Kit Ktt) (col j lam) j
        & forall w, unbiased P Pt w j -> w != col j lam ->
            v 0 j < mse (joint K Kit Ktt) w j].
Proof. exact: uk_blup. Qed.
Print Assumptions C22_universal_kriging_blup.
(* the public predictor uses that branch whenever the system is nonsingular *)
Theorem C22_main_branch_used (R : rcfType) q r m (qr : qr_fun R q r)
  (symsolve : 'M[R]_q -> 'M[R]_(q, m) -> res 'M[R]_(q, m))
  (K : 'M[R]_(q + r)) (P : 'M[R]_(q + r, q)) Kit (Pt : 'M[R]_(m, q)) tt rt :
  uk_lhs K P \in unitmx -> rt \in [:: -1; 0; 1] ->
  kriging_predictor qr symsolve K P Kit Pt tt rt = kriging_predictor_block K P Kit Pt tt rt.
Proof. exact: kriging_predictor_main. Qed.
Print Assumptions C22_main_branch_used.
Theorem C22_nonsingular_when_cpd (R : rcfType) n q (K : 'M[R]_n) (P : 'M[R]_(n, q)) :
  cond_pos_def K P -> full_col_rank P -> uk_lhs K P \in unitmx.
Proof. exact: uk_lhs_unit. Qed.
Print Assumptions C22_nonsingular_when_cpd.
Example C22_case (R : rcfType) tt :
  kriging_predictor_block (w_K R) (w_P R) (0 : 'M[R]_(1 + 1, 1)) 1%:M tt 0 =
    Ok (col_mx (4%:R / 5%:R)%:M (1 / 5%:R)%:M, PVVar (tt_pairwise tt + (4%:R / 5%:R)%:M)).
Proof. exact: w_main. Qed.

(* ---------- C23 ---------- *)
Theorem C23_trend_equivariance (R : rcfType) q r m (qr : qr_fun R q r)
  (symsolve : 'M[R]_q -> 'M[R]_(q, m) -> res 'M[R]_(q, m))
  (K : 'M[R]_(q + r)) (P : 'M[R]_(q + r, q)) (Kit : 'M[R]_(q + r, m)) (Pt : 'M[R]_(m, q)) tt
  zi b clip :
  uk_lhs K P \in unitmx ->
  exists mu mu' v lam,
    [/\ predict qr symsolve (MLinear P Pt) K Kit tt zi clip = Ok (mu, v, lam),
        predict qr symsolve (MLinear P Pt) K Kit tt (zi + P *m b) clip = Ok (mu', v, lam)
      & mu' = mu + (Pt *m b)^T].
Proof. exact: predict_linear_trend. Qed.
Print Assumptions C23_trend_equivariance.
Theorem C23_gls_plus_residual_kriging (R : rcfType) q r m (qr : qr_fun R q r)
  (symsolve : 'M[R]_q -> 'M[R]_(q, m) -> res 'M[R]_(q, m))
  (K : 'M[R]_(q + r)) (P : 'M[R]_(q + r, q)) (Kit : 'M[R]_(q + r, m)) (Pt : 'M[R]_(m, q)) tt
  zi b clip :
  pos_def K -> full_col_rank P -> gls_minimiser K P zi b ->
  exists mu v lam mu0 v0 lam0,
    [/\ predict qr symsolve (MLinear P Pt) K Kit tt zi clip = Ok (mu, v, lam),
        predict qr symsolve (MZero R q r m) K Kit tt (zi - P *m b) clip = Ok (mu0, v0, lam0)
      & mu = (Pt *m b)^T + mu0].
Proof. exact: predict_gls. Qed.
Print Assumptions C23_gls_plus_residual_kriging.
Theorem C23_gls_exists (R : rcfType) n q (K : 'M[R]_n) (P : 'M[R]_(n, q)) z :
  pos_def K -> full_col_rank P ->
  gls_minimiser K P z (invmx (P^T *m invmx K *m P) *m (P^T *m invmx K *m z)).
Proof. exact: gls_exists. Qed.
Print Assumptions C23_gls_exists.
Example C23_case (R : rcfType) :
  [/\ uk_lhs (w_K R) (w_P R) \in unitmx, pos_def (w_K R) & full_col_rank (w_P R)].
Proof. split=> //; [exact: w_unit | exact: w_pd | exact: w_full]. Qed.

(* ---------- C24 ---------- *)
Theorem C24_intrinsic_invariance (R : rcfType) n q m (K : 'M[R]_n) (P : 'M[R]_(n, q))
  (Kit : 'M[R]_(n, m)) Pt (G : 'M[R]_(n, q)) (Gt : 'M[R]_(m, q)) tt tt' rt :
  uk_lhs K P \in unitmx ->
  tt_pairwise tt' = tt_pairwise tt + diag_of (Pt *m Gt^T + Gt *m Pt^T) ->
  tt_full tt' = tt_full tt + (Pt *m Gt^T + Gt *m Pt^T) ->
  kriging_predictor_block (K + P *m G^T + G *m P^T) P (Kit + P *m Gt^T + G *m Pt^T) Pt tt' rt
  = kriging_predictor_block K P Kit Pt tt rt.
Proof. exact: krig_block_shift. Qed.
Print Assumptions C24_intrinsic_invariance.
Theorem C24_basis_change_invariance (R : rcfType) n q m (K : 'M[R]_n) (P : 'M[R]_(n, q))
  (Kit : 'M[R]_(n, m)) Pt T tt rt :
  uk_lhs K P \in unitmx -> T \in unitmx ->
  kriging_predictor_block K (P *m T) Kit (Pt *m T) tt rt
  = kriging_predictor_block K P Kit Pt tt rt.
Proof. exact: krig_block_basis. Qed.
Print Assumptions C24_basis_change_invariance.
Example C24_case (R : rcfType) :
  uk_lhs (w_K R) (w_P R) \in unitmx /\ (2%:R)%:M \in (@unitmx R 1).
Proof.
split; first exact: w_unit.
by rewrite unitmxE det_scalar expr1 unitfE pnatr_eq0.
Qed.

(* ---------- C25 ---------- *)
(* with either way of solving R' beta = Pt' the fall-back never turns a failure
   of the main solve into a result *)
Theorem C25_fallback_never_rescues (R : rcfType) q r m (qr : qr_fun R q r)
  (K : 'M[R]_(q + r)) (P : 'M[R]_(q + r, q)) (Kit : 'M[R]_(q + r, m)) (Pt : 'M[R]_(m, q)) tt s rt :
  is_qr P (qr P) -> symmetric K ->
  s = @solve R q m \/ s = @scipy_symsolve R q m ->
  rt \in [:: -1; 0; 1] ->
  forall e, kriging_predictor_block K P Kit Pt tt rt = Err e ->
  exists e', kriging_predictor qr s K P Kit Pt tt rt = Err e'.
Proof. by move=> qrP sK; exact: fallback_never_rescues. Qed.
Print Assumptions C25_fallback_never_rescues.
(* exact defect of the weights with a faithful solver *)
Theorem C25_fallback_defect (R : rcfType) q r m (qr : qr_fun R q r)
  (K : 'M[R]_(q + r)) (P : 'M[R]_(q + r, q)) (Kit : 'M[R]_(q + r, m)) (Pt : 'M[R]_(m, q)) tt
  rt lam v :
  is_qr P (qr P) -> symmetric K ->
  kriging_predictor_nullspace qr (@solve R q m) K P Kit Pt tt rt = Ok (lam, v) ->
  let W := rsubmx (qr P).1 in
  let G := W^T *m (K *m W) in
  [/\ P^T *m lam = Pt^T,
      lam = uk_lambda K P Kit Pt + W *m (invmx G *m (W^T *m (K *m ols_weights P Pt)))
    & (lam == uk_lambda K P Kit Pt) = (W^T *m (K *m ols_weights P Pt) == 0)].
Proof. by move=> qrP sK; exact: fallback_defect. Qed.
Print Assumptions C25_fallback_defect.
(* witness: on the same well-posed problem the main branch returns (4/5, 1/5)
   and variance prior + 4/5; the fall-back, with any QR factorisation, returns
   (1/2, 1/2) and a variance that is neither the optimum nor its own error *)
Theorem C25_fallback_wrong_refuted (R : rcfType) (qr : qr_fun R 1 1) tt :
  is_qr (w_P R) (qr (w_P R)) ->
  kriging_predictor_block (w_K R) (w_P R) (0 : 'M[R]_(1 + 1, 1)) 1%:M tt 0 =
    Ok (col_mx (4%:R / 5%:R)%:M (1 / 5%:R)%:M, PVVar (tt_pairwise tt + (4%:R / 5%:R)%:M)) /\
  exists lam v,
  [/\ kriging_predictor_nullspace qr (@solve R 1 1) (w_K R) (w_P R) 0 1%:M tt 0 = Ok (lam, PVVar v),
      lam = col_mx (1 / 2%:R)%:M (1 / 2%:R)%:M,
      v 0 0 <> tt_pairwise tt 0 0 + 4%:R / 5%:R
    & v 0 0 <> mse (joint (w_K R) 0 (diag_mx (tt_pairwise tt))) (col 0 lam) 0].
Proof. exact: w_both. Qed.
Print Assumptions C25_fallback_wrong_refuted.
(* SciPy's assume_a="sym" reads one triangle of the triangular factor: the
   weights are not even unbiased (second basis function reproduced as 1, not 0) *)
Theorem C25_scipy_fallback_biased_refuted (R : rcfType) (qr : qr_fun R 2 0)
  (K : 'M[R]_(2 + 0)) Kit tt rt lam v :
  is_qr (w2_P R) (qr (w2_P R)) -> symmetric K ->
  kriging_predictor_nullspace qr (@scipy_symsolve R 2 1) K (w2_P R) Kit (w2_Pt R) tt rt = Ok (lam, v) ->
  ((w2_P R)^T *m lam) 1 0 = 1 /\ (w2_Pt R) 0 1 = 0.
Proof. exact: w2_bias. Qed.
Print Assumptions C25_scipy_fallback_biased_refuted.
Example C25_case (R : rcfType) :
  exists qr : qr_fun R 1 1, is_qr (w_P R) (qr (w_P R)) /\ symmetric (w_K R).
Proof. by exists (@hqr R 1 1); split; [exact: hqr_ok | exact: (pd_sym (w_pd R))]. Qed.
(* the SciPy witness does return a result *)
Example C25_scipy_case (R : rcfType) :
  exists (qr : qr_fun R 2 0) lam v, is_qr (w2_P R) (qr (w2_P R)) /\
  kriging_predictor_nullspace qr (@scipy_symsolve R 2 1) (1%:M : 'M[R]_(2 + 0)) (w2_P R)
     (0 : 'M[R]_(2 + 0, 1)) (w2_Pt R) (PriorTT 1%:M 1%:M) 0 = Ok (lam, v).
Proof. exact: w2_ok. Qed.

(* ---------- C26 ---------- *)
Theorem C26_predict_outputs (R : rcfType) q r m (qr : qr_fun R q r)
  (symsolve : 'M[R]_q -> 'M[R]_(q, m) -> res 'M[R]_(q, m))
  (K : 'M[R]_(q + r)) (Kit : 'M[R]_(q + r, m)) tt mean zi (clip : bool) :
  match predict qr symsolve mean K Kit tt zi clip with
  | Err e => mean = MParam None /\ e = ValueErr \/ kriged qr symsolve K Kit tt mean = Err e
  | Ok (mu, v, lam) => mean <> MParam None /\
      exists v0, kriged qr symsolve K Kit tt mean = Ok (lam, PVVar v0) /\
      forall j,
        [/\ mu 0 j = lincomb (col j lam) (zi - mean_i mean) + mean_t mean 0 j,
            clip -> 0 <= v 0 j,
            0 <= v0 0 j -> v 0 j = v0 0 j,
            clip -> v0 0 j < 0 -> v 0 j = 0
          & ~~ clip -> v 0 j = v0 0 j]
  end.
Proof. exact: predict_spec. Qed.
Print Assumptions C26_predict_outputs.
Example C26_case (R : rcfType) (qr : qr_fun R 1 1) s (z : 'cV[R]_(1 + 1)) :
  exists mu v lam,
    predict qr s (MZero R 1 1 1) (w_K R) (e_Kit R) (e_tt R) z true = Ok (mu, v, lam).
Proof. by rewrite predict_zero_ok; [do 3 eexists | exact: w_pd]. Qed.

(* ---------- C27 ---------- *)
Theorem C27_same_object_reproduces_data (R : rcfType) (X : Type) q r (qr : qr_fun R q r)
  (symsolve : 'M[R]_q -> 'M[R]_(q, q + r) -> res 'M[R]_(q, q + r)) (c : kernel R X)
  (x : 'I_(q + r) -> X) zi :
  pos_def (cov_same c x) ->
  exists mu v lam,
   predict qr symsolve (MZero R q r _) (cov_same c x) (cov_same c x) (cov_tt c x) zi false
     = Ok (mu, v, lam)
   /\ forall j, mu 0 j = zi j 0 /\ v 0 j = - knug c.
Proof. by move=> h; exact: same_object_predict. Qed.
Print Assumptions C27_same_object_reproduces_data.
Theorem C27_copy_smooths (R : rcfType) (X : Type) q r (qr : qr_fun R q r)
  (symsolve : 'M[R]_q -> 'M[R]_(q, q + r) -> res 'M[R]_(q, q + r)) (c : kernel R X)
  (x : 'I_(q + r) -> X) zi :
  pos_def (cov_same c x) ->
  exists mu v lam,
   predict qr symsolve (MZero R q r _) (cov_same c x) (cov_cross c x x) (cov_tt c x) zi false
     = Ok (mu, v, lam)
   /\ forall j, mu 0 j = zi j 0 - knug c * (invmx (cov_same c x) *m zi) j 0
             /\ v 0 j = knug c - knug c ^+ 2 * invmx (cov_same c x) j j.
Proof. by move=> h; exact: copy_predict. Qed.
Print Assumptions C27_copy_smooths.
Theorem C27_copy_really_differs (R : rcfType) (X : Type) q r (c : kernel R X)
  (x : 'I_(q + r) -> X) (zi : 'cV[R]_(q + r)) :
  pos_def (cov_same c x) -> knug c != 0 -> zi != 0 ->
  exists j, zi j 0 - knug c * (invmx (cov_same c x) *m zi) j 0 != zi j 0.
Proof. by move=> h; exact: copy_differs. Qed.
Print Assumptions C27_copy_really_differs.
Theorem C27_copy_variance_in_range (R : rcfType) (X : Type) q r (c : kernel R X)
  (x : 'I_(q + r) -> X) j :
  pos_def (cov_same c x) -> 0 < knug c -> pos_semidef (kmx (kfun c) x x) ->
  0 <= knug c - knug c ^+ 2 * invmx (cov_same c x) j j < knug c.
Proof. by move=> h; exact: copy_var_bounds. Qed.
Print Assumptions C27_copy_variance_in_range.
Example C27_case (R : rcfType) :
  [/\ pos_def (cov_same (e_ker R) e_pts), knug (e_ker R) != 0, 0 < knug (e_ker R)
    & pos_semidef (kmx (kfun (e_ker R)) e_pts e_pts)].
Proof.
split; [exact: e_ker_pd | exact: oner_neq0 | exact: ltr01 |].
rewrite e_kmx; exact/pd_psd/pos_def1.
Qed.
