(* MaternThms.v: property theorems C37-C40 (Matern covariance) and C74 (initial
   covariance parameters). *)
From Coq Require Import Reals Lra.
From Verif Require Import MaternModel MaternProofs.

(* ---------- C37 ---------- *)
Section C37.
Local Open Scope R_scope.
Local Notation R2 := (IZR 2).
(* the closed form printed in the documentation *)
Theorem C37_closed_form (p : nat) (h : R) :
  maternp_kernel p h =
    Rmult (Rmult (exp (Ropp (Rmult (Rmult R2 (sqrt (Rplus (INR p) (Rdiv 1 R2)))) h)))
                 (Rdiv (INR (fact p)) (INR (fact (2 * p)%nat))))
      (sum_f_R0 (fun i => Rmult (Rdiv (INR (fact (p + i)%nat)) (Rmult (INR (fact i)) (INR (fact (p - i)%nat))))
          (pow (Rmult (Rmult (IZR 4) (sqrt (Rplus (INR p) (Rdiv 1 R2)))) h) (p - i)%nat)) p).
Proof. apply kernel_closed_form. Qed.
Print Assumptions C37_closed_form.
Theorem C37_one_at_zero (p : nat) : maternp_kernel p (IZR 0) = IZR 1.
Proof. apply kernel_at_0. Qed.
Print Assumptions C37_one_at_zero.
Theorem C37_bounds (p : nat) (h : R) : Rle (IZR 0) h ->
  Rlt (IZR 0) (maternp_kernel p h) /\ Rle (maternp_kernel p h) (IZR 1).
Proof. intros h0; split; [apply kernel_pos | apply kernel_le_1]; exact h0. Qed.
Print Assumptions C37_bounds.
Theorem C37_strictly_decreasing (p : nat) (a b : R) : Rle (IZR 0) a -> Rlt a b ->
  Rlt (maternp_kernel p b) (maternp_kernel p a).
Proof. intros h0 h1; apply kernel_decreasing; split; assumption. Qed.
Print Assumptions C37_strictly_decreasing.
Theorem C37_matern32 (h : R) : maternp_kernel 1 h = matern32_kernel h.
Proof. apply kernel_p1. Qed.
Print Assumptions C37_matern32.
Theorem C37_exponential (h : R) : maternp_kernel 0 h = exponential_kernel (Rmult (sqrt (IZR 2)) h).
Proof. apply kernel_p0. Qed.
Print Assumptions C37_exponential.
Example C37_case_p2 (h : R) :
  let t := 2 * sqrt (5 / 2) * h in
  maternp_kernel 2 h = (1 + t + t * t / 3) * exp (- t).
Proof.
intros t; rewrite kernel_closed_form; unfold matern_closed; simpl.
replace (1 + 1 + 1 / 2) with (5 / 2) by lra.
replace (4 * sqrt (5 / 2) * h) with (2 * t) by (unfold t; ring).
fold t; field.
Qed.
End C37.
From mathcomp Require Import all_ssreflect all_algebra perm.
From Verif Require Import LinAlg KrigModel RealAux2 Rinst LikModel MaternModel MaternProofs MaternPsd
  MaternPsd2 MaternCov InitModel CholProofs LinQR KrigProofs KrigProofs2 KrigProofs3 LikProofs MaternCovProofs
  InitProofs.
Set Implicit Arguments.
Unset Strict Implicit.
Unset Printing Implicit Defensive.
Import Order.TTheory GRing.Theory Num.Theory.

Local Open Scope ring_scope.
Local Arguments exp : clear scopes.
Local Arguments ln : clear scopes.
Local Arguments sqrt : clear scopes.
Bind Scope ring_scope with R.

(* ---------- C38 ---------- *)
Theorem C38_symmetric b p d (param : 'rV[R]_(1 + d)) n (x : 'M[R]_(n, d)) :
  (maternp_covariance_ii b p param x)^T = maternp_covariance_ii b p param x.
Proof. exact: cov_ii_sym. Qed.
Print Assumptions C38_symmetric.
Theorem C38_diagonal b p d (param : 'rV[R]_(1 + d)) n (x : 'M[R]_(n, d)) i :
  let sigma2 := exp (param 0 (lshift d 0)) in
  maternp_covariance_ii b p param x i i = sigma2 + 10%:R * sigma2 / 2%:R ^+ 52 /\
  maternp_covariance_ii_pw param x 0 i = sigma2.
Proof. by move=> sigma2; split; [exact: cov_ii_diag | exact: cov_pw]. Qed.
Print Assumptions C38_diagonal.
(* the same points passed as two arrays: no nugget anywhere *)
Theorem C38_nugget_only_on_diagonal b p d (param : 'rV[R]_(1 + d)) n (x : 'M[R]_(n, d)) i j :
  maternp_covariance_ii b p param x i j - maternp_covariance_it b p param x x i j =
  if i == j then 10%:R * exp (param 0 (lshift d 0)) / 2%:R ^+ 52 else 0.
Proof.
rewrite cov_ii_it mxE addrC addrA addNr add0r mxE; by case: eqP.
Qed.
Print Assumptions C38_nugget_only_on_diagonal.
Theorem C38_cross b p d (param : 'rV[R]_(1 + d)) n m (x : 'M[R]_(n, d)) (y : 'M[R]_(m, d)) i j :
  let sigma2 := exp (param 0 (lshift d 0)) in
  maternp_covariance_it b p param x y i j = maternp_covariance_it b p param y x j i /\
  0 < maternp_covariance_it b p param x y i j <= sigma2 /\
  (maternp_covariance_it b p param x y i j = sigma2 <-> row i x = row j y).
Proof.
move=> sigma2; split; last split; first by rewrite -cov_it_sym mxE.
  exact: cov_it_range.
split=> [e|]; last exact: cov_it_same.
by apply/eqP; apply: contraT => /(cov_it_lt b p); rewrite /mat_sigma2 -/sigma2 => /(_ param); rewrite e ltxx.
Qed.
Print Assumptions C38_cross.
Theorem C38_pairwise_is_diagonal b p d (param : 'rV[R]_(1 + d)) n (x y : 'M[R]_(n, d)) i :
  maternp_covariance_it_pw p param x y 0 i = maternp_covariance_it b p param x y i i.
Proof. exact: cov_it_pw. Qed.
Print Assumptions C38_pairwise_is_diagonal.
Theorem C38_backends_agree p d (param : 'rV[R]_(1 + d)) n m (x : 'M[R]_(n, d)) (y : 'M[R]_(m, d)) :
  maternp_covariance_ii NumPy p param x = maternp_covariance_ii Torch p param x /\
  maternp_covariance_it NumPy p param x y = maternp_covariance_it Torch p param x y.
Proof. by rewrite !KiiE !KitE. Qed.
Print Assumptions C38_backends_agree.

(* ---------- C39 ---------- *)
(* every half-integer regularity, every dimension, every finite family of
   points, repeated points included *)
Theorem C39_positive_semidefinite p d n (x : 'M[R]_(n, d)) (c : 'cV[R]_n) :
  0 <= \sum_i \sum_j c i 0 * maternp_kernel p (sqrt (\sum_k (x i k - x j k) ^+ 2)) * c j 0.
Proof.
have := (kern_psd p x).2 c; rewrite /qform bilinE.
by under eq_bigr => i _ do under eq_bigr => j _ do rewrite mxE.
Qed.
Print Assumptions C39_positive_semidefinite.
Theorem C39_positive_definite b p d (param : 'rV[R]_(1 + d)) n (x : 'M[R]_(n, d)) (c : 'cV[R]_n) :
  c != 0 -> 0 < (c^T *m maternp_covariance_ii b p param x *m c) 0 0.
Proof. by move=> c0; apply: (cov_ii_pd b p param x).2. Qed.
Print Assumptions C39_positive_definite.
(* joint covariance of observations and targets, as used by C21 *)
Theorem C39_joint b p d (param : 'rV[R]_(1 + d)) n m (x : 'M[R]_(n, d)) (y : 'M[R]_(m, d)) :
  pos_semidef (block_mx (maternp_covariance_ii b p param x) (maternp_covariance_it b p param x y)
     (maternp_covariance_it b p param x y)^T (maternp_covariance_ii b p param y)).
Proof. exact: joint_psd. Qed.
Print Assumptions C39_joint.
(* zero-mean kriging never fails; the prediction variance is positive, at most
   the prior variance, and at most the nugget at an observed point *)
Theorem C39_zero_mean_kriging b p d (param : 'rV[R]_(1 + d)) n m (x : 'M[R]_(n, d)) (y : 'M[R]_(m, d)) :
  exists lam v,
    kriging_predictor_with_zero_mean (maternp_covariance_ii b p param x)
      (maternp_covariance_it b p param x y) (matern_tt b p param y) 0 = Ok (lam, PVVar v) /\
    forall j, [/\ 0 < v 0 j, v 0 j <= exp (param 0 (lshift d 0))
      & forall i, row i x = row j y -> v 0 j <= 10%:R * exp (param 0 (lshift d 0)) / 2%:R ^+ 52].
Proof. exact: krig_matern. Qed.
Print Assumptions C39_zero_mean_kriging.
Theorem C39_universal_kriging b p d (param : 'rV[R]_(1 + d)) n q m (x : 'M[R]_(n, d)) (y : 'M[R]_(m, d))
  (P : 'M[R]_(n, q)) (Pt : 'M[R]_(m, q)) :
  full_col_rank P ->
  exists lam v,
    kriging_predictor_block (maternp_covariance_ii b p param x) P
      (maternp_covariance_it b p param x y) Pt (matern_tt b p param y) 0 = Ok (lam, PVVar v) /\
    forall j, 0 < v 0 j.
Proof. by move=> fr; exact: uk_matern. Qed.
Print Assumptions C39_universal_kriging.
(* the likelihood of any data is finite *)
Theorem C39_likelihood_finite b b' p d (param : 'rV[R]_(1 + d)) n (x : 'M[R]_(n, d)) (z : 'cV[R]_n) :
  exists L, nll_zero_mean b' (maternp_covariance_ii b p param x) z = Ok (Fin L).
Proof. by eexists; apply: nll_zero_ok; exact: cov_ii_pd. Qed.
Print Assumptions C39_likelihood_finite.
Example C39_case : full_col_rank (w_P R_rcfType).
Proof. exact: w_full. Qed.

(* ---------- C40 ---------- *)
Theorem C40_translation b p d (param : 'rV[R]_(1 + d)) n m (t : 'rV[R]_d) (x : 'M[R]_(n, d)) (y : 'M[R]_(m, d)) :
  let tx : 'M[R]_(n, d) := \matrix_(i, k) (x i k + t 0 k) in
  let ty : 'M[R]_(m, d) := \matrix_(i, k) (y i k + t 0 k) in
  maternp_covariance_it b p param tx ty = maternp_covariance_it b p param x y /\
  maternp_covariance_ii b p param tx = maternp_covariance_ii b p param x.
Proof. exact: cov_shift. Qed.
Print Assumptions C40_translation.
Theorem C40_change_of_units b p d (u : R) (a l : 'rV[R]_d) n m (x : 'M[R]_(n, d)) (y : 'M[R]_(m, d)) :
  (forall k, 0 < a 0 k) ->
  let param : 'rV[R]_(1 + d) := row_mx u%:M l in
  let param' : 'rV[R]_(1 + d) := row_mx u%:M (\row_k (l 0 k - ln (a 0 k))) in
  let ax : 'M[R]_(n, d) := \matrix_(i, k) (a 0 k * x i k) in
  let ay : 'M[R]_(m, d) := \matrix_(i, k) (a 0 k * y i k) in
  maternp_covariance_it b p param' ax ay = maternp_covariance_it b p param x y /\
  maternp_covariance_ii b p param' ax = maternp_covariance_ii b p param x.
Proof. exact: cov_stretch. Qed.
Print Assumptions C40_change_of_units.
Theorem C40_linear_in_sigma2 b p d (u c : R) (l : 'rV[R]_d) n m (x : 'M[R]_(n, d)) (y : 'M[R]_(m, d)) :
  0 < c ->
  let param : 'rV[R]_(1 + d) := row_mx u%:M l in
  let param' : 'rV[R]_(1 + d) := row_mx (u + ln c)%:M l in
  [/\ maternp_covariance_it b p param' x y = c *: maternp_covariance_it b p param x y,
      maternp_covariance_ii b p param' x = c *: maternp_covariance_ii b p param x
    & maternp_covariance_ii_pw param' x = c *: maternp_covariance_ii_pw param x].
Proof. exact: cov_sigma2. Qed.
Print Assumptions C40_linear_in_sigma2.
Theorem C40_coordinate_order b p d (s : {perm 'I_d}) (u : R) (l : 'rV[R]_d) n m
  (x : 'M[R]_(n, d)) (y : 'M[R]_(m, d)) :
  let param : 'rV[R]_(1 + d) := row_mx u%:M l in
  let param' : 'rV[R]_(1 + d) := row_mx u%:M (col_perm s l) in
  maternp_covariance_it b p param' (col_perm s x) (col_perm s y) = maternp_covariance_it b p param x y /\
  maternp_covariance_ii b p param' (col_perm s x) = maternp_covariance_ii b p param x.
Proof. exact: cov_perm_coords. Qed.
Print Assumptions C40_coordinate_order.
Example C40_case : forall k : 'I_3, 0 < (const_mx 2%:R : 'rV[R]_3) 0 k.
Proof. by move=> k; rewrite mxE ltr0n. Qed.

(* ---------- C74 ---------- *)
(* l = the returned log inverse length scales.  No coordinate is constant over the
   design: otherwise its initial length scale is 0 and the code takes log 0. *)
Theorem C74_zero_mean_maximum_likelihood b b' p d glog n (i0 : 'I_n) (x : 'M[R]_(n, d)) (z : 'cV[R]_n) :
  (forall k, delta_col i0 x k != 0) ->
  z != 0 ->
  let l := \row_k - ln (init_rho glog i0 x k) in
  exists u, init_zero_mean b p glog i0 x z = Ok (row_mx u%:M l) /\
    forall u', u' != u ->
      exists L L', [/\ nll_zero_mean b' (maternp_covariance_ii b p (row_mx u%:M l) x) z = Ok (Fin L),
        nll_zero_mean b' (maternp_covariance_ii b p (row_mx u'%:M l) x) z = Ok (Fin L') & L < L'].
Proof. by move=> _ zn; exact: init_zero_mean_ml. Qed.
Print Assumptions C74_zero_mean_maximum_likelihood.
(* constant mean: the mean is the generalised least squares one, but the
   variance is that of the data around zero, not around this mean *)
Theorem C74_constant_mean b p d glog n (i0 : 'I_n) (x : 'M[R]_(n, d)) (z : 'cV[R]_n) :
  (forall k, delta_col i0 x k != 0) ->
  z != 0 ->
  let l := \row_k - ln (init_rho glog i0 x k) in
  let Kinv := invmx (maternp_covariance_ii b p (row_mx (ln 1)%:M l) x) in
  let one : 'cV[R]_n := const_mx 1 in
  exists m u, [/\ init_constant_mean b p glog i0 x z = Ok (m, row_mx u%:M l),
    forall m', m' != m -> qform Kinv (z - m *: one) < qform Kinv (z - m' *: one)
    & u = ln (n%:R^-1 * (qform Kinv (z - m *: one) + m ^+ 2 * qform Kinv one))].
Proof. by move=> _ _; exact: init_constant_mean_val. Qed.
Print Assumptions C74_constant_mean.
(* linear mean: (n - q)/n times the variance maximising the restricted likelihood *)
Theorem C74_linear_mean_restricted_likelihood b b' p d glog q r (qr : qr_fun R_rcfType q r)
  (i0 : 'I_(q + r)) (x : 'M[R]_(q + r, d)) (P : 'M[R]_(q + r, q)) z :
  (forall k, delta_col i0 x k != 0) ->
  is_qr P (qr P) -> full_col_rank P -> (forall beta, z != P *m beta) ->
  let l := \row_k - ln (init_rho glog i0 x k) in
  exists s2 : R, [/\ 0 < s2,
    init_linear_mean b p glog qr i0 x P z = Ok (row_mx (ln (r%:R / (q + r)%:R * s2))%:M l)
    & forall c, 0 < c -> c != s2 ->
      exists L L', [/\ nrl b' qr (maternp_covariance_ii b p (row_mx (ln s2)%:M l) x) P z = Ok (Fin L),
        nrl b' qr (maternp_covariance_ii b p (row_mx (ln c)%:M l) x) P z = Ok (Fin L') & L < L']].
Proof. by move=> _; exact: init_linear_mean_reml. Qed.
Print Assumptions C74_linear_mean_restricted_likelihood.
Example C74_case : (const_mx 1 : 'cV[R]_3) != 0 /\
  (forall k, delta_col (0 : 'I_(1 + 1)) (\matrix_(i < 1 + 1, j < 1) (i : nat)%:R : 'M[R]_(1 + 1, 1)) k != 0) /\
  exists qr : qr_fun R_rcfType 1 1, is_qr (w_P R_rcfType) (qr (w_P R_rcfType)) /\
   full_col_rank (w_P R_rcfType) /\ forall beta, (delta_mx (lshift 1 0) 0 : 'cV[R]_(1 + 1)) != w_P R_rcfType *m beta.
Proof.
split; first by apply/eqP => /matrixP /(_ 0 0); rewrite !mxE => /eqP; rewrite oner_eq0.
split.
  move=> k; rewrite /delta_col !big_ord_recl !big_ord0 !mxE /= /bump /=.
  by rewrite (max_l ler01) (max_r ler01) (min_r ler01) minxx subr0 oner_eq0.
have [qr h] := qr_exists R_rcfType 1 1; exists qr; split=> //; split; first exact: w_full.
move=> beta; apply/eqP => e; have : row_mx 1%:M (- 1%:M) *m (delta_mx (lshift 1 0) 0 : 'cV[R]_(1 + 1)) = 0.
  by rewrite e mulmxA /w_P mul_row_col !mul1mx mulmx1 addrN mul0mx.
move=> /matrixP /(_ 0 0); rewrite mxE big_split_ord /= !big_ord1 row_mxEl row_mxEr !mxE !eqxx /=.
by rewrite mulr1 mulr0 addr0 => /eqP; rewrite oner_eq0.
Qed.
