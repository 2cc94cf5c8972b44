(* LooThms.v: property theorems C28, C29 (leave-one-out), C32, C34 (Fisher
   information, finite differences), C35, C36 (sample paths). *)
From mathcomp Require Import all_ssreflect all_algebra ring.
From Verif Require Import LinAlg KrigModel CholProofs LinQR KrigProofs KrigProofs2 KrigProofs3
  LooProofs PathProofs FdProofs.
Set Implicit Arguments.
Unset Strict Implicit.
Unset Printing Implicit Defensive.
Import Order.TTheory GRing.Theory Num.Theory.
Local Open Scope ring_scope.

(* ---------- C28 ---------- *)
(* K_wo, Kx_wo, z_wo delete row/column i; tt_of i K is the prior variance K i i *)
Theorem C28_loo_zero_mean (R : rcfType) n (K : 'M[R]_n) zi : pos_def K ->
  exists zl s2 e, loo_zero_mean K zi = Ok (zl, s2, e) /\
  forall i : 'I_n, exists lam v,
  [/\ kriging_predictor_with_zero_mean (K_wo i K) (Kx_wo i K) (tt_of i K) 0 = Ok (lam, PVVar v),
      zl i 0 = lincomb lam (z_wo i zi), s2 i 0 = v 0 0 & e i 0 = zi i 0 - zl i 0].
Proof. exact: loo_zero. Qed.
Print Assumptions C28_loo_zero_mean.
Theorem C28_loo_parameterized_mean (R : rcfType) n (K : 'M[R]_n) mi zi : pos_def K ->
  exists zl s2 e, loo_parameterized_mean K mi zi = Ok (zl, s2, e) /\
  forall i : 'I_n, exists lam v,
  [/\ kriging_predictor_with_zero_mean (K_wo i K) (Kx_wo i K) (tt_of i K) 0 = Ok (lam, PVVar v),
      zl i 0 = mi i 0 + lincomb lam (z_wo i zi - z_wo i mi), s2 i 0 = v 0 0
    & e i 0 = zi i 0 - zl i 0].
Proof. exact: loo_param. Qed.
Print Assumptions C28_loo_parameterized_mean.
(* against Model.predict itself on the reduced data: same mean, and a variance
   that differs by the nugget (predict's pairwise prior variance carries none) *)
Theorem C28_loo_vs_refit (R : rcfType) (X : Type) (c : kernel R X) n (x : 'I_n -> X) zi
  (qr : qr_fun R 0 n.-1) ss :
  pos_def (cov_same c x) ->
  exists zl s2 e, loo_zero_mean (cov_same c x) zi = Ok (zl, s2, e) /\
  forall i : 'I_n, exists mu v lam,
  [/\ predict qr ss (MZero R 0 n.-1 1) (cov_same c (x_wo i x)) (cov_cross c (x_wo i x) (x_at i x))
        (cov_tt c (x_at i x)) (z_wo i zi) false = Ok (mu, v, lam),
      zl i 0 = mu 0 0, s2 i 0 = v 0 0 + knug c & e i 0 = zi i 0 - mu 0 0].
Proof. exact: loo_zero_refit. Qed.
Print Assumptions C28_loo_vs_refit.
Example C28_case (R : rcfType) :
  pos_def (w_K R) /\ pos_def (cov_same (e_ker R) e_pts).
Proof. split; [exact: w_pd | exact: e_ker_pd]. Qed.

(* ---------- C29 ---------- *)
Theorem C29_loo_linear_spd (R : rcfType) n q (K : 'M[R]_n) (P : 'M[R]_(n, q)) zi :
  pos_def K -> full_col_rank P ->
  exists zl s2 e, loo_linear_spd K P zi = Ok (zl, s2, e) /\
  forall i : 'I_n, full_col_rank (P_wo i P) -> exists lam v,
  [/\ kriging_predictor_block (K_wo i K) (P_wo i P) (Kx_wo i K) (row i P) (tt_of i K) 0
        = Ok (lam, PVVar v),
      zl i 0 = lincomb lam (z_wo i zi), s2 i 0 = v 0 0 & e i 0 = zi i 0 - zl i 0].
Proof. exact: loo_spd. Qed.
Print Assumptions C29_loo_linear_spd.
Theorem C29_loo_linear_cpd (R : rcfType) q r (qr : qr_fun R q r) (K : 'M[R]_(q + r))
  (P : 'M[R]_(q + r, q)) zi :
  is_qr P (qr P) -> cond_pos_def K P -> full_col_rank P ->
  exists zl s2 e, loo_linear_cpd qr K P zi = Ok (zl, s2, e) /\
  forall i : 'I_(q + r), full_col_rank (P_wo i P) -> exists lam v,
  [/\ kriging_predictor_block (K_wo i K) (P_wo i P) (Kx_wo i K) (row i P) (tt_of i K) 0
        = Ok (lam, PVVar v),
      zl i 0 = lincomb lam (z_wo i zi), s2 i 0 = v 0 0 & e i 0 = zi i 0 - zl i 0].
Proof. by move=> h1 h2 h3; exact: loo_cpd. Qed.
Print Assumptions C29_loo_linear_cpd.
Theorem C29_cpd_spd_agree (R : rcfType) q r (qr : qr_fun R q r) (K : 'M[R]_(q + r))
  (P : 'M[R]_(q + r, q)) zi :
  is_qr P (qr P) -> full_col_rank P -> pos_def K ->
  loo_linear_cpd qr K P zi = loo_linear_spd K P zi.
Proof. by move=> h1 h2 h3; apply: (cpd_spd_agree h1 _ h2) => //; exact: pd_cpd. Qed.
Print Assumptions C29_cpd_spd_agree.
Example C29_case (R : rcfType) (i : 'I_(1 + 1)) :
  [/\ is_qr (w_P R) (hqr (w_P R)), pos_def (w_K R), cond_pos_def (w_K R) (w_P R),
      full_col_rank (w_P R) & full_col_rank (P_wo i (w_P R))].
Proof.
split; [exact: hqr_ok | exact: w_pd | exact/pd_cpd/w_pd | exact: w_full | ].
move=> b /colP /(_ 0); rewrite !mxE big_ord1 !mxE => h; apply/colP => k; rewrite ord1 mxE -h.
by case: splitP => u _; rewrite ord1 mxE mul1r.
Qed.

(* ---------- C32 ---------- *)
Theorem C32_fisher_psd (R : rcfType) n p (K : 'M[R]_n) (dK : 'I_p -> 'M[R]_n) : pos_def K ->
  (forall i, symmetric (dK i)) ->
  exists I, [/\ fisher_information K dK = Ok I,
    forall i j, I i j = \tr (invmx K *m dK i *m invmx K *m dK j) / 2%:R,
    pos_semidef I
    & forall c : 'cV[R]_p, qform I c = 0 <-> \sum_i c i 0 *: dK i = 0].
Proof. exact: fisher_psd. Qed.
Print Assumptions C32_fisher_psd.
(* with the finite differences the code actually takes, whatever the step *)
Theorem C32_fisher_finite_differences (R : rcfType) n p (cov : 'rV[R]_p -> 'M[R]_n) theta eps :
  (forall t, symmetric (cov t)) -> pos_def (cov theta) ->
  exists I, fisher_information_fd cov theta eps = Ok I /\ pos_semidef I.
Proof. exact: fisher_fd. Qed.
Print Assumptions C32_fisher_finite_differences.
Theorem C32_fisher_singular_raises (R : rcfType) n p (K : 'M[R]_n) (dK : 'I_p -> 'M[R]_n) :
  K \notin unitmx -> fisher_information K dK = Err RuntimeErr.
Proof. exact: fisher_singular. Qed.
Print Assumptions C32_fisher_singular_raises.
(* contrast-space variant: positive semidefinite, singular exactly in the
   directions invisible to contrasts, and basis-independent *)
Theorem C32_fisher_cpd_psd (R : rcfType) q r p (qr : qr_fun R q r) (K : 'M[R]_(q + r))
  (P : 'M[R]_(q + r, q)) (dK : 'I_p -> 'M[R]_(q + r)) :
  is_qr P (qr P) -> cond_pos_def K P -> full_col_rank P -> (forall i, symmetric (dK i)) ->
  exists I, [/\ fisher_information_cpd qr K P dK = Ok I, pos_semidef I
   & forall c : 'cV[R]_p, qform I c = 0 <->
       (forall u v : 'cV[R]_(q + r), P^T *m u = 0 -> P^T *m v = 0 ->
          bilin (\sum_i c i 0 *: dK i) u v = 0)].
Proof. exact: fisher_cpd_psd. Qed.
Print Assumptions C32_fisher_cpd_psd.
Theorem C32_fisher_cpd_basis_free (R : rcfType) q r p (qr : qr_fun R q r) (K : 'M[R]_(q + r))
  (P : 'M[R]_(q + r, q)) (dK : 'I_p -> 'M[R]_(q + r)) (B : 'M[R]_(q + r)) (C : 'M[R]_(q, q + r)) :
  is_qr P (qr P) -> cond_pos_def K P -> full_col_rank P ->
  P^T *m B = 0 -> K *m B + P *m C = 1%:M ->
  exists I, fisher_information_cpd qr K P dK = Ok I /\
    forall i j, I i j = \tr (B *m dK i *m B *m dK j) / 2%:R.
Proof. by move=> h1 h2 h3 h4 h5; exact: fisher_cpd_B h3 h4 h5. Qed.
Print Assumptions C32_fisher_cpd_basis_free.
Example C32_case (R : rcfType) :
  fisher_information (w_K R) (fun _ : 'I_1 => w_K R) = Ok 1%:M.
Proof.
have u := pd_unit (w_pd R).
rewrite fisher_entries //; congr (Ok _); apply/matrixP => i j.
rewrite mxE !ord1 /fisher_trace mulVmx // mul1mx mulVmx //.
by rewrite mxtrace1 !mxE mulVf // pnatr_eq0.
Qed.
Example C32_case_B (R : rcfType) : exists B C,
  (w_P R)^T *m B = 0 /\ w_K R *m B + w_P R *m C = 1%:M.
Proof.
have [C [_ h1 h2]] := cpd_B (qr := @hqr R 1 1) (hqr_ok _) (pd_cpd (w_P R) (w_pd R)) (@w_full R).
by do 2 eexists; split; [exact: h1 | exact: h2].
Qed.

(* ---------- C34 ---------- *)
(* entrywise polynomial of degree at most five: the derivative minus four times
   the leading coefficient times h^4 (so exact up to degree four) *)
Theorem C34_finite_difference_order (R : rcfType) n m (f : 'I_n -> 'I_m -> {poly R}) x h i j :
  h != 0 -> (size (f i j) <= 6)%N ->
  derivative_finite_diff (fun t => \matrix_(i, j) (f i j).[t]) x h i j =
    (f i j)^`().[x] - 4%:R * (f i j)`_5 * h ^+ 4.
Proof. exact: fd_order. Qed.
Print Assumptions C34_finite_difference_order.
Theorem C34_exact_to_degree_four (R : rcfType) n m (f : 'I_n -> 'I_m -> {poly R}) x h :
  h != 0 -> (forall i j, (size (f i j) <= 5)%N) ->
  derivative_finite_diff (fun t => \matrix_(i, j) (f i j).[t]) x h =
    \matrix_(i, j) (f i j)^`().[x].
Proof. exact: fd_exact. Qed.
Print Assumptions C34_exact_to_degree_four.
(* along each coordinate axis the covariance entries are polynomials of degree at most four: the result is the
   Fisher information of the exact partial derivatives *)
Theorem C32_fisher_exact_to_degree_four (R : rcfType) n p (cov : 'rV[R]_p -> 'M[R]_n) theta eps
  (f : 'I_p -> 'I_n -> 'I_n -> {poly R}) : eps != 0 -> (forall t, symmetric (cov t)) -> pos_def (cov theta) ->
  (forall k i j, (size (f k i j) <= 5)%N) ->
  (forall k t i j, cov (theta + t *: delta_mx 0 k) i j = (f k i j).[theta 0 k + t]) ->
  exists I, fisher_information_fd cov theta eps = Ok I /\ forall k l, I k l =
    \tr (invmx (cov theta) *m (\matrix_(i, j) (f k i j)^`().[theta 0 k]) *m
         invmx (cov theta) *m (\matrix_(i, j) (f l i j)^`().[theta 0 l])) / 2%:R.
Proof.
move=> e0 sc pd sz hf.
have shift k v : set_coord theta k v = theta + (v - theta 0 k) *: delta_mx 0 k.
  by apply/rowP => a; rewrite !mxE eqxx /=; case: eqP => [->|_]; rewrite ?mulr1 ?mulr0 ?addr0 // addrC subrK.
have covE k v : cov (set_coord theta k v) = \matrix_(i, j) (f k i j).[v].
  by apply/matrixP => i j; rewrite shift hf mxE [_ + (_ - _)]addrC subrK.
pose D k := \matrix_(i, j) (f k i j)^`().[theta 0 k].
have DE k : derivative_finite_diff (fun v => cov (set_coord theta k v)) (theta 0 k) eps = D k.
  by rewrite /D -(@C34_exact_to_degree_four _ _ _ (f k) (theta 0 k) eps) // /derivative_finite_diff !covE.
have FE : fisher_information_fd cov theta eps = fisher_information (cov theta) D.
  rewrite /fisher_information_fd /fisher_information; case: inv => // Kinv; congr Ok.
  by apply/matrixP => k l; rewrite !mxE !DE.
have Ds k : symmetric (D k) by rewrite -DE; apply: fd_sym => v; exact: sc.
by have [I [e h _ _]] := C32_fisher_psd pd Ds; exists I; rewrite FE; split=> // k l; exact: h.
Qed.
Print Assumptions C32_fisher_exact_to_degree_four.
(* covariance theta_0 times the identity plus theta_1: derivatives 1 and the matrix of ones *)
Example C32_exact_ex (R : rcfType) : exists I, fisher_information_fd (fun t : 'rV[R]_2 => (t 0 0)%:M + const_mx (t 0 1) : 'M[R]_1) (\row_k 1) 1 = Ok I /\
  forall k l, I k l = 8%:R^-1.
Proof.
pose f (k : 'I_2) (i j : 'I_1) : {poly R} := 'X + 1.
have E1 : ((\row_k 1 : 'rV[R]_2) 0 0)%:M + const_mx ((\row_k 1 : 'rV[R]_2) 0 1) = 2%:R%:M :> 'M[R]_1.
  by apply/matrixP => i j; rewrite !mxE !ord1 eqxx mulr1n mulr2n.
have [|t||k i j|k t i j|I [e h]] := @C32_fisher_exact_to_degree_four R 1 2 (fun t : 'rV[R]_2 => (t 0 0)%:M + const_mx (t 0 1)) (\row_k 1) 1 f.
- exact: oner_neq0.
- by apply/matrixP => i j; rewrite !mxE !ord1.
- by rewrite E1; apply/pd_mx11; rewrite ltr0n.
- by rewrite /f size_addl ?size_polyX // size_polyC oner_eq0.
- rewrite /f !mxE !ord1 eqxx mulr1n hornerD hornerX hornerC.
  by case: k => [[|[|//]] ?]; rewrite /= ?mulr1 ?mulr0 ?addr0 // [1 + (1 + t)]addrC addrAC.
exists I; split=> // k l; rewrite h E1.
have D1 (k' : 'I_2) : \matrix_(i, j) (f k' i j)^`().[(\row_k 1 : 'rV[R]_2) 0 k'] = 1%:M.
  by apply/matrixP => i j; rewrite !mxE !ord1 /f derivD derivX derivC addr0 hornerC.
rewrite !D1 !mulmx1 invmx_scalar -scalar_mxM mxtrace_scalar mulr1n -!invfM -!natrM //.
Qed.
Example C34_case (R : rcfType) (x : R) :
  derivative_finite_diff (fun t => \matrix_(i < 1, j < 1) ('X^5 : {poly R}).[t]) x 1 0 0 =
    5%:R * x ^+ 4 - 4%:R.
Proof.
rewrite (@fd_order _ 1 1 (fun _ _ => 'X^5)) ?oner_neq0 ?size_polyXn //.
by rewrite derivXn hornerMn hornerXn coefXn eqxx mulr1 expr1n mulr1 mulr_natl.
Qed.

(* ---------- C35 ---------- *)
(* p is any finite law on the simulated paths with mean 0 and covariance S *)
Theorem C35_conditioned_law_zero_mean (R : rcfType) N ni nt nb (xi : 'I_ni -> 'I_N)
  (xt : 'I_nt -> 'I_N) (p : 'cV[R]_nb) (Z : 'M[R]_(N, nb)) (S : 'M[R]_N) (zi : 'cV[R]_ni) tt :
  is_law p -> (forall i, mean_of p Z i = 0) -> (forall i j, cov_of p Z i j = S i j) ->
  pos_def (sub_cov S xi xi) -> tt_full tt = sub_cov S xt xt ->
  exists lam C,
  [/\ kriging_predictor_with_zero_mean (sub_cov S xi xi) (sub_cov S xi xt) tt 1 = Ok (lam, PVCov C),
      forall j, mean_of p (conditional_sample_paths Z xi zi xt lam) j = lincomb (col j lam) zi
    & forall i j, cov_of p (conditional_sample_paths Z xi zi xt lam) i j = C i j].
Proof. exact: cond_law_zero. Qed.
Print Assumptions C35_conditioned_law_zero_mean.
Theorem C35_conditioned_law_linear_mean (R : rcfType) N ni nt nb (xi : 'I_ni -> 'I_N)
  (xt : 'I_nt -> 'I_N) q (p : 'cV[R]_nb) (Z : 'M[R]_(N, nb)) (S : 'M[R]_N) (zi : 'cV[R]_ni)
  (P : 'M[R]_(ni, q)) (Pt : 'M[R]_(nt, q)) tt :
  is_law p -> (forall i, mean_of p Z i = 0) -> (forall i j, cov_of p Z i j = S i j) ->
  cond_pos_def (sub_cov S xi xi) P -> full_col_rank P -> tt_full tt = sub_cov S xt xt ->
  exists lam C,
  [/\ kriging_predictor_block (sub_cov S xi xi) P (sub_cov S xi xt) Pt tt 1 = Ok (lam, PVCov C),
      forall j, mean_of p (conditional_sample_paths Z xi zi xt lam) j = lincomb (col j lam) zi
    & forall i j, cov_of p (conditional_sample_paths Z xi zi xt lam) i j = C i j].
Proof. exact: cond_law_linear. Qed.
Print Assumptions C35_conditioned_law_linear_mean.
(* at an observed point (whose kriging weights are the indicator of that
   observation, C20) every conditioned path takes the observed value *)
Theorem C35_interpolates (R : rcfType) N ni nt nb (xi : 'I_ni -> 'I_N) (xt : 'I_nt -> 'I_N)
  (Z : 'M[R]_(N, nb)) (zi : 'cV[R]_ni) (K : 'M[R]_ni) Kit tt lam v i j k :
  pos_def K -> col j Kit = col i K -> xt j = xi i ->
  kriging_predictor_with_zero_mean K Kit tt 0 = Ok (lam, PVVar v) ->
  conditional_sample_paths Z xi zi xt lam j k = zi i 0.
Proof. exact: cond_interp_zero. Qed.
Print Assumptions C35_interpolates.
Theorem C35_interpolates_linear (R : rcfType) N ni nt nb (xi : 'I_ni -> 'I_N) (xt : 'I_nt -> 'I_N)
  q (Z : 'M[R]_(N, nb)) (zi : 'cV[R]_ni) (K : 'M[R]_ni) (P : 'M[R]_(ni, q)) Kit Pt tt lam v i j k :
  uk_lhs K P \in unitmx -> col j Kit = col i K -> row j Pt = row i P -> xt j = xi i ->
  kriging_predictor_block K P Kit Pt tt 0 = Ok (lam, PVVar v) ->
  conditional_sample_paths Z xi zi xt lam j k = zi i 0.
Proof. exact: cond_interp_linear. Qed.
Print Assumptions C35_interpolates_linear.
Theorem C35_interpolates_parameterized (R : rcfType) N ni nt nb (xi : 'I_ni -> 'I_N)
  (xt : 'I_nt -> 'I_N) (Z : 'M[R]_(N, nb)) (zi mi : 'cV[R]_ni) (mt : 'cV[R]_nt)
  (K : 'M[R]_ni) Kit tt lam v i j k :
  pos_def K -> col j Kit = col i K -> xt j = xi i -> mt j 0 = mi i 0 ->
  kriging_predictor_with_zero_mean K Kit tt 0 = Ok (lam, PVVar v) ->
  conditional_sample_paths_parameterized_mean Z xi zi mi xt mt lam j k = zi i 0.
Proof. exact: cond_interp_param. Qed.
Print Assumptions C35_interpolates_parameterized.
Theorem C35_agreeing_path_unchanged (R : rcfType) N ni nt nb (xi : 'I_ni -> 'I_N)
  (xt : 'I_nt -> 'I_N) (Z : 'M[R]_(N, nb)) (zi : 'cV[R]_ni) (lam : 'M[R]_(ni, nt)) j k :
  (forall i k, Z (xi i) k = zi i 0) ->
  conditional_sample_paths Z xi zi xt lam j k = Z (xt j) k.
Proof. by move=> h; rewrite cond_fixed // mxE. Qed.
Print Assumptions C35_agreeing_path_unchanged.
Theorem C35_parameterized_mean (R : rcfType) N ni nt nb (xi : 'I_ni -> 'I_N)
  (xt : 'I_nt -> 'I_N) (Z : 'M[R]_(N, nb)) (zi mi : 'cV[R]_ni) (mt : 'cV[R]_nt) lam j k :
  conditional_sample_paths_parameterized_mean Z xi zi mi xt mt lam j k =
  conditional_sample_paths Z xi (zi - mi) xt lam j k + mt j 0.
Proof. exact: cond_param. Qed.
Print Assumptions C35_parameterized_mean.
(* such laws exist for every covariance with a square root, e.g. w_K *)
Example C35_case (R : rcfType) :
  exists (p : 'cV[R]_(2 + 2)) (Z : 'M[R]_(2, 2 + 2)),
  [/\ is_law p, forall i, mean_of p Z i = 0, forall i j, cov_of p Z i j = w_K R i j
    & pos_def (sub_cov (w_K R) id id)].
Proof.
have [L /(chol_sound (pd_sym (w_pd R))) [_ _ e]] := chol_complete (w_pd R).
have [p [Z [h1 h2 h3]]] := @law_exists R 2 L isT.
exists p, Z; split=> //; first by move=> i j; rewrite h3 e.
have -> : sub_cov (w_K R) id id = w_K R by apply/matrixP => i j; rewrite mxE.
exact: w_pd.
Qed.

(* ---------- C36 ---------- *)
Theorem C36_cholesky_factor (R : rcfType) n svd (K C : 'M[R]_n) : symmetric K ->
  path_factor svd MChol K = Ok C -> C *m C^T = K.
Proof. exact: chol_factor. Qed.
Print Assumptions C36_cholesky_factor.
Theorem C36_cholesky_succeeds_iff (R : rcfType) n svd (K : 'M[R]_n) : symmetric K ->
  (exists C, path_factor svd MChol K = Ok C) <-> pos_def K.
Proof. exact: chol_factor_ok. Qed.
Print Assumptions C36_cholesky_succeeds_iff.
(* the SVD method never fails; it has the requested covariance exactly when K is
   positive semidefinite, and otherwise silently that of the square root of K^2 *)
Theorem C36_svd_factor (R : rcfType) n svd (K : 'M[R]_n) : symmetric K -> is_svd K (svd K) ->
  exists C, [/\ path_factor svd MSvd K = Ok C,
    pos_semidef (C *m C^T), (C *m C^T) *m (C *m C^T) = K *m K
    & C *m C^T = K <-> pos_semidef K].
Proof. exact: svd_factor. Qed.
Print Assumptions C36_svd_factor.
(* the drawn paths: linear image of the normal draws by that factor, so a law of
   draws with identity covariance gives paths with covariance C C' *)
Theorem C36_paths_covariance (R : rcfType) n nb svd meth (K C : 'M[R]_n) (p : 'cV[R]_nb) xi :
  path_factor svd meth K = Ok C ->
  is_law p -> (forall i, mean_of p xi i = 0) -> (forall i j, cov_of p xi i j = (i == j)%:R) ->
  exists Z, [/\ sample_paths svd meth K xi = Ok Z, forall i, mean_of p Z i = 0
    & forall i j, cov_of p Z i j = (C *m C^T) i j].
Proof. exact: paths_cov. Qed.
Print Assumptions C36_paths_covariance.
Example C36_case (R : rcfType) :
  pos_def (w_K R) /\ is_svd (w_K R) (1%:M, row_mx 1%:M (4%:R)%:M, 1%:M).
Proof.
split; first exact: w_pd.
split; rewrite ?trmx1 ?mulmx1 ?mul1mx //.
  move=> j; rewrite mxE; case: splitP => k _; rewrite ord1 mxE eqxx ?mulr1n ?ler01 //.
  by rewrite ler0n.
apply/matrixP => i j; rewrite /w_K !mxE.
case: (splitP j) => b; rewrite ord1 {b} => eb; case: (splitP i) => a; rewrite ord1 {a} => ea;
  rewrite !mxE; case: splitP => d; rewrite ord1 {d} => ed; rewrite !mxE -?val_eqE /= ?ea ?eb //;
  by move: ed; rewrite eb.
Qed.
