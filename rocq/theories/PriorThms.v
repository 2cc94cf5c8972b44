(** Property theorems C41-C44 and C75 (prior densities, prior helpers). *)
From Coq Require Import List Reals Bool Lra Lia.
From Coquelicot Require Import Coquelicot.
From Verif Require Import ConfigModel FlModel PriorModel PriorProofs.
Import ListNotations.
Local Open Scope R_scope.

(** ** C41 *)
(** one component of the negative log prior on the log-range [r], hyperparameters [alpha > 0],
    cut-off [m] below reference [r0] *)
Theorem C41_minimum alpha m r0 r : 0 < alpha -> m < r0 -> r <> r0 ->
  fl_lt (nlf_component (Fin alpha) (Fin r0) (Fin m) (Fin r0))
        (nlf_component (Fin alpha) (Fin r) (Fin m) (Fin r0)) = true.
Proof. intros; apply nlf_min; auto. Qed.
Print Assumptions C41_minimum.
Theorem C41_monotone alpha m r0 r r' : 0 < alpha -> m < r0 -> r < r' ->
  (r0 <= r -> fl_lt (nlf_component (Fin alpha) (Fin r) (Fin m) (Fin r0))
                    (nlf_component (Fin alpha) (Fin r') (Fin m) (Fin r0)) = true) /\
  (m < r -> r' <= r0 -> fl_lt (nlf_component (Fin alpha) (Fin r') (Fin m) (Fin r0))
                    (nlf_component (Fin alpha) (Fin r) (Fin m) (Fin r0)) = true).
Proof. intros; split; intros; [apply nlf_mono_right|apply nlf_mono_left]; auto. Qed.
Print Assumptions C41_monotone.
Theorem C41_barrier alpha m r0 r :
  nlf_component (Fin alpha) (Fin r) (Fin m) (Fin r0) = PInf <-> r <= m.
Proof. apply nlf_inf. Qed.
Print Assumptions C41_barrier.
Theorem C41_infinite_at_both_ends alpha m r0 B : 0 < alpha -> m < r0 ->
  exists lo hi, m < lo /\ forall r, r < lo \/ hi < r ->
    fl_lt (Fin B) (nlf_component (Fin alpha) (Fin r) (Fin m) (Fin r0)) = true.
Proof.
  intros Ha Hm. destruct (nlf_blowup_left alpha m r0 B Ha Hm) as (d & Hd & L).
  destruct (nlf_blowup_right alpha m r0 B Ha Hm) as (X & U).
  exists (m + d), X. split; [lra|]. intros r [H|H]; auto.
Qed.
Print Assumptions C41_infinite_at_both_ends.
(** documented as non-negative: false exactly when the reference exceeds the cut-off by more than e *)
Theorem C41_sign alpha m r0 : 0 < alpha -> m < r0 ->
  (exists r, fl_lt (nlf_component (Fin alpha) (Fin r) (Fin m) (Fin r0)) (Fin 0) = true) <-> exp 1 < r0 - m.
Proof. intros; apply nlf_sign; auto. Qed.
Print Assumptions C41_sign.
(** the vector of all components: exceptions, support, unique mode *)
Theorem C41_raises alpha logrho logrho_min logrho_0 :
  neglog_f_logrho alpha logrho logrho_min logrho_0 = None <->
  fl_le alpha (Fin 0) = true \/ exists a b, In (a, b) (combine logrho_0 logrho_min) /\ fl_le a b = true.
Proof. apply neglog_raises. Qed.
Print Assumptions C41_raises.
Theorem C41_log_prior_support alpha li rm r0 : 0 < alpha -> Forall2 Rlt rm r0 -> length li = length rm ->
  exists u, log_prior_logrho_barrier_linear (Fin alpha) (map Fin li) (map Fin rm) (map Fin r0) = Some u /\
   ((exists x, u = Fin x) \/ u = NInf) /\
   (u = NInf <-> exists k x m, nth_error li k = Some x /\ nth_error rm k = Some m /\ - m <= x).
Proof. apply logprior_support. Qed.
Print Assumptions C41_log_prior_support.
Theorem C41_log_prior_mode alpha li rm r0 : 0 < alpha -> Forall2 Rlt rm r0 -> length li = length rm ->
  li <> map Ropp r0 ->
  exists u v, log_prior_logrho_barrier_linear (Fin alpha) (map Fin li) (map Fin rm) (map Fin r0) = Some u /\
    log_prior_logrho_barrier_linear (Fin alpha) (map Fin (map Ropp r0)) (map Fin rm) (map Fin r0) = Some v /\
    fl_lt u v = true.
Proof. apply logprior_mode. Qed.
Print Assumptions C41_log_prior_mode.
Example C41_case : exists u v, 0 < 1 /\ Forall2 Rlt [0; -1] [1; 4] /\ exp 1 < 4 - -1 /\ ~ exp 1 < 1 - 0 /\
  log_prior_logrho_barrier_linear (Fin 1) (map Fin [-2; -4]) (map Fin [0; -1]) (map Fin [1; 4]) = Some u /\
  log_prior_logrho_barrier_linear (Fin 1) (map Fin [-1; -4]) (map Fin [0; -1]) (map Fin [1; 4]) = Some v /\
  fl_lt u v = true.
Proof.
  assert (F : Forall2 Rlt [0; -1] [1; 4]) by (repeat constructor; lra).
  destruct (C41_log_prior_mode 1 [-2; -4] [0; -1] [1; 4]) as (u & v & H1 & H2 & H3); auto.
  - lra.
  - simpl. intros E; injection E; intros; lra.
  - exists u, v. split; [lra|]. split; auto. assert (E := exp_le_3). assert (E' := exp_ineq1 1 ltac:(lra)).
    split; [lra|]. split; [lra|]. split; [exact H1|]. split; [|exact H3].
    exact H2.
Qed.

(** ** C42 *)
(** above the cut-off the log prior increases with slope penalty - lambda *)
Theorem C42_slope_above_cutoff h u v p : pl_cut_high h <= u -> pl_cut_high h <= v ->
  log_prior_power_law h v p - log_prior_power_law h u p = (pl_penalty h - pl_lambda_var h) * (v - u).
Proof. apply power_law_slope. Qed.
Print Assumptions C42_slope_above_cutoff.
Theorem C42_unbounded_above h p B : pl_lambda_var h < pl_penalty h ->
  exists u, forall v, u <= v -> B < log_prior_power_law h v p.
Proof. apply power_law_unbounded. Qed.
Print Assumptions C42_unbounded_above.
(** the length-scale part is penalised as documented *)
Theorem C42_length_scales_penalised h u p : pl_lambda_len h = 0 -> 0 < pl_penalty h ->
  log_prior_power_law h u p <= log_prior_power_law h u [] /\
  (log_prior_power_law h u p = log_prior_power_law h u [] <->
   forall v, In v p -> pl_len_low h <= v <= pl_len_high h).
Proof. apply power_law_lengths. Qed.
Print Assumptions C42_length_scales_penalised.
Example C42_case : pl_lambda_var power_law_default < pl_penalty power_law_default /\
  pl_lambda_len power_law_default = 0 /\ 0 < pl_penalty power_law_default /\
  log_prior_power_law power_law_default 10 [0] = 69.
Proof.
  repeat split; try (simpl; lra).
  unfold log_prior_power_law, power_law_default, sum_list; simpl.
  rewrite Rmax_left by lra. rewrite !Rmax_right by lra. lra.
Qed.

(** ** C43 *)
Theorem C43_smallest_gap l :
  (minimum_nonzero_gap l = PInf /\ (forall x y, In x l -> In y l -> x = y)) \/
  (exists g, minimum_nonzero_gap l = Fin g /\ 0 < g /\
    (exists x y, In x l /\ In y l /\ y - x = g) /\
    forall x y, In x l -> In y l -> x <> y -> g <= Rabs (y - x)).
Proof. apply gap_spec. Qed.
Print Assumptions C43_smallest_gap.
(** the cut-off of coordinate k: log of the larger of gap and range * factor; -inf for a constant coordinate *)
Theorem C43_cutoff xi factor : 0 < factor ->
  exists rm, compute_logrho_min xi factor = Some rm /\ length rm = length xi /\
    forall k xj c, nth_error xi k = Some xj -> nth_error rm k = Some c ->
      (c = NInf /\ (forall x y, In x xj -> In y xj -> x = y)) \/
      (exists g r, minimum_nonzero_gap xj = Fin g /\ c = Fin (ln (Rmax g (r * factor))) /\ 0 < g /\
        (exists x y, In x xj /\ In y xj /\ y - x = r) /\ forall x y, In x xj -> In y xj -> y - x <= r).
Proof.
  intros Hf. rewrite compute_logrho_min_spec.
  replace (rleb factor 0) with false by (symmetry; apply rleb_f; auto).
  eexists; split; [reflexivity|]. split; [apply map_length|].
  intros k xj c Hk Hc. rewrite (map_nth_error _ _ _ Hk) in Hc. injection Hc as <-.
  destruct (cutoff_spec factor xj Hf) as [(A & E)|(g & G & Hg & HR & E)].
  - left; auto.
  - right. exists g, (col_range xj). repeat split; auto;
    destruct (range_spec xj) as ((x & y & Hx & Hy & Hr) & Hm); auto; try (intros ->; simpl in HR; lra).
    exists x, y; auto.
Qed.
Print Assumptions C43_cutoff.
(** the default reference log-ranges are those of the initial guess: coef * range *)
Theorem C43_default_raises_iff glog alpha xi factor loginvrho rm : 0 < alpha -> 0 < factor ->
  length loginvrho = length xi -> compute_logrho_min xi factor = Some rm ->
  let coef := exp (glog / INR (length xi)) / sqrt PI in
  (log_prior_logrho_barrier_linear (Fin alpha) loginvrho rm (default_logrho_0 glog xi) = None <->
   exists xj, In xj xi /\ ((forall x y, In x xj -> In y xj -> x = y) \/ coef <= factor \/
       exists g, minimum_nonzero_gap xj = Fin g /\ coef * col_range xj <= g)).
Proof.
  intros Ha Hf HL E. assert (H := default_raises glog alpha xi factor loginvrho Ha Hf HL).
  rewrite E in H. exact H.
Qed.
Print Assumptions C43_default_raises_iff.
(** one-dimensional designs with two distinct locations, or three equally spaced ones:
    the default REMAP criterion raises at every parameter *)
Theorem C43_two_points_raise glog alpha xs factor loginvrho a b : exp glog = sqrt PI / 2 -> 0 < alpha -> 0 < factor ->
  a < b -> (forall x, In x xs <-> x = a \/ x = b) -> length loginvrho = 1%nat ->
  exists rm, compute_logrho_min [xs] factor = Some rm /\
    forall inv_cdf nlrl s s0 gamma cov,
      neg_log_restricted_posterior inv_cdf nlrl s loginvrho s0 gamma cov rm (default_logrho_0 glog [xs]) (Fin alpha) = None.
Proof.
  intros Hg Ha Hf Hab Hall HL. rewrite compute_logrho_min_spec.
  replace (rleb factor 0) with false by (symmetry; apply rleb_f; auto).
  eexists; split; [reflexivity|]. intros.
  assert (N : log_prior_logrho_barrier_linear (Fin alpha) loginvrho (map (cutoff_col factor) [xs]) (default_logrho_0 glog [xs]) = None).
  { assert (H := default_raises glog alpha [xs] factor loginvrho Ha Hf HL).
    rewrite compute_logrho_min_spec in H.
    replace (rleb factor 0) with false in H by (symmetry; apply rleb_f; auto).
    apply H. exists xs. split; [left; auto|]. right; right.
    assert (Ia : In a xs) by (apply Hall; auto). assert (Ib : In b xs) by (apply Hall; auto).
    destruct (two_level xs a b Hab Ia Ib (fun x => proj1 (Hall x))) as [E1 E2].
    exists (b - a). split; auto. rewrite E2. simpl length. rewrite coef_dim1 by auto. lra. }
  unfold neg_log_restricted_posterior. rewrite N. destruct (log_prior_gaussian_logsigma2 _ _ _ _ _); auto.
Qed.
Print Assumptions C43_two_points_raise.
Theorem C43_three_points_raise glog alpha xs factor loginvrho a h : exp glog = sqrt PI / 2 -> 0 < alpha -> 0 < factor ->
  0 < h -> (forall x, In x xs <-> x = a \/ x = a + h \/ x = a + 2 * h) -> length loginvrho = 1%nat ->
  exists rm, compute_logrho_min [xs] factor = Some rm /\
    forall inv_cdf nlrl s s0 gamma cov,
      neg_log_restricted_posterior inv_cdf nlrl s loginvrho s0 gamma cov rm (default_logrho_0 glog [xs]) (Fin alpha) = None.
Proof.
  intros Hg Ha Hf Hab Hall HL. rewrite compute_logrho_min_spec.
  replace (rleb factor 0) with false by (symmetry; apply rleb_f; auto).
  eexists; split; [reflexivity|]. intros.
  assert (N : log_prior_logrho_barrier_linear (Fin alpha) loginvrho (map (cutoff_col factor) [xs]) (default_logrho_0 glog [xs]) = None).
  { assert (H := default_raises glog alpha [xs] factor loginvrho Ha Hf HL).
    rewrite compute_logrho_min_spec in H.
    replace (rleb factor 0) with false in H by (symmetry; apply rleb_f; auto).
    apply H. exists xs. split; [left; auto|]. right; right.
    destruct (three_points xs a h Hab Hall) as [E1 E2].
    exists h. split; auto. rewrite E2. simpl length. rewrite coef_dim1 by auto. lra. }
  unfold neg_log_restricted_posterior. rewrite N. destruct (log_prior_gaussian_logsigma2 _ _ _ _ _); auto.
Qed.
Print Assumptions C43_three_points_raise.
(** a constant coordinate together with admissible user-supplied references: NaN for every parameter *)
Theorem C43_constant_coordinate_nan alpha factor xi r0 loginvrho xj k :
  0 < alpha -> 0 < factor -> length r0 = length xi -> length loginvrho = length xi ->
  nth_error xi k = Some xj -> (forall x y, In x xj -> In y xj -> x = y) ->
  exists rm, compute_logrho_min xi factor = Some rm /\
   ((forall a b, In (a, b) (combine (map Fin r0) rm) -> fl_le a b = false) ->
    log_prior_logrho_barrier_linear (Fin alpha) (map Fin loginvrho) rm (map Fin r0) = Some NaN).
Proof.
  intros Ha Hf L1 L2 Hk Hall. eexists; split.
  - rewrite compute_logrho_min_spec. replace (rleb factor 0) with false by (symmetry; apply rleb_f; auto). reflexivity.
  - intros Hok. destruct (constant_coordinate_nan alpha factor xi r0 loginvrho xj k) as (rm & E & F); auto.
    + intros i x r Hi Hr.
      assert (I : In (Fin r, cutoff_col factor x) (combine (map Fin r0) (map (cutoff_col factor) xi))).
      { clear - Hi Hr. revert xi r0 Hi Hr. induction i as [|i IH]; intros [|y xi] [|s r0] Hi Hr; try discriminate.
        - injection Hi as ->. injection Hr as ->. left; auto.
        - right. apply IH; auto. }
      apply Hok in I. destruct (cutoff_spec factor x Hf) as [(_ & Q)|(g & _ & _ & _ & Q)]; rewrite Q in *; auto.
      apply fl_lt_fin. apply not_true_iff_false in I. rewrite fl_le_fin in I. lra.
    + rewrite compute_logrho_min_spec in E.
      replace (rleb factor 0) with false in E by (symmetry; apply rleb_f; auto).
      injection E as <-. exact F.
Qed.
Print Assumptions C43_constant_coordinate_nan.
(** the contract of gammaln at 3/2 is satisfiable, and a case of each theorem *)
Example C43_case : exp (ln (sqrt PI / 2)) = sqrt PI / 2 /\
  (forall x, In x [0; 1; 0] <-> x = 0 \/ x = 1) /\
  (forall x, In x [1; 0; 2] <-> x = 0 \/ x = 0 + 1 \/ x = 0 + 2 * 1) /\
  (exists rm, compute_logrho_min [[0; 1]; [5; 5]] (1 / 20) = Some rm /\
    log_prior_logrho_barrier_linear (Fin 1) (map Fin [0; 0]) rm (map Fin [1; 1]) = Some NaN).
Proof.
  split; [apply exp_ln; apply Rdiv_lt_0_compat; [apply sqrt_lt_R0, PI_RGT_0|lra]|].
  split; [intros x; simpl; intuition|].
  split; [intros x; simpl; split; [intuition lra|]; intros [->|[->| ->]]; [|left; lra|right; right; left; lra]; right; left; auto|].
  destruct (C43_constant_coordinate_nan 1 (1 / 20) [[0; 1]; [5; 5]] [1; 1] [0; 0] [5; 5] 1) as (rm & E & H);
    try reflexivity; try lra.
  { intros x y; simpl; intuition; subst; auto. }
  exists rm; split; auto. apply H. clear H.
  rewrite compute_logrho_min_spec in E. replace (rleb (1 / 20) 0) with false in E by (symmetry; apply rleb_f; lra).
  injection E as <-. simpl. intros a b [Hab|[Hab|[]]]; injection Hab as <- <-.
  - destruct (two_level [0; 1] 0 1) as [G1 G2]; [lra|left; auto|right; left; auto|simpl; intuition|].
    destruct (cutoff_spec (1 / 20) [0; 1]) as [(A & _)|(g & G & Hg & HR & E)]; [lra| |].
    + specialize (A 0 1 (or_introl eq_refl) (or_intror (or_introl eq_refl))). lra.
    + change (fl_le (Fin 1) (cutoff_col (1/20) [0; 1]) = false). rewrite E. rewrite G1 in G. injection G as <-. rewrite G2. rewrite Rmax_left by lra.
      replace (1 - 0) with 1 by ring. rewrite ln_1. apply not_true_iff_false. rewrite fl_le_fin. lra.
  - destruct (cutoff_spec (1 / 20) [5; 5]) as [(A & E)|(g & G & Hg & HR & E)]; [lra| |].
    + change (fl_le (Fin 1) (cutoff_col (1/20) [5; 5]) = false). rewrite E. reflexivity.
    + exfalso. rewrite range_zero in HR by (intros x y; simpl; intuition; subst; auto). lra.
Qed.

(** ** C44 *)
Definition is_given {V} (o : option V) : bool := match o with Some _ => true | None => false end.
Definition or_else {V} (o : option V) (dflt : V) : V := match o with Some v => v | None => dflt end.
Theorem C44_select {V} (guess : V) covparam0 covparam0_prior covparam0_init :
  let '(prior, init, calls) := resolve_prior_and_init guess covparam0 covparam0_prior covparam0_init in
  prior = or_else covparam0_prior (or_else covparam0 guess) /\
  init = or_else covparam0_init (or_else covparam0 guess) /\
  calls = if is_given covparam0 || (is_given covparam0_prior && is_given covparam0_init) then 0%nat else 1%nat.
Proof. destruct covparam0, covparam0_prior, covparam0_init; simpl; auto. Qed.
Print Assumptions C44_select.
Theorem C44_update {V} (guess : V) model_covparam covparam0 covparam0_prior covparam0_init warn :
  let '(prior, init, calls, ws) :=
    update_remap_roles guess model_covparam covparam0 covparam0_prior covparam0_init warn in
  prior = or_else covparam0_prior (or_else covparam0 (or_else model_covparam guess)) /\
  init = or_else covparam0_init (or_else covparam0 (or_else model_covparam guess)) /\
  calls = (if is_given covparam0 || is_given model_covparam || (is_given covparam0_prior && is_given covparam0_init)
           then 0%nat else 1%nat) /\
  ws = if negb warn || is_given covparam0_prior then []
       else if is_given covparam0 then [Covparam0AsPrior]
       else if is_given model_covparam then [ModelCovparamAsPrior] else [].
Proof. destruct model_covparam, covparam0, covparam0_prior, covparam0_init, warn; simpl; auto. Qed.
Print Assumptions C44_update.
(** reference and cut-off of the prior when not overridden *)
Theorem C44_prior_arguments s0 li0 xi factor ps pr pm ls r0 rm :
  resolve_prior_args s0 li0 xi factor ps pr pm = Some (ls, r0, rm) <->
  ls = or_else ps s0 /\ r0 = or_else pr (map fl_opp li0) /\
  match pm with Some v => rm = v | None => compute_logrho_min xi factor = Some rm end.
Proof.
  unfold resolve_prior_args, or_else. destruct pm as [v|].
  - split; [intros H; injection H; intros; subst; auto|]. intros (-> & -> & ->); auto.
  - destruct (compute_logrho_min xi factor) as [c|].
    + split; [intros H; injection H; intros; subst; auto|]. intros (-> & -> & H); injection H as ->; auto.
    + split; [discriminate|]. intros (_ & _ & H); discriminate.
Qed.
Print Assumptions C44_prior_arguments.
Example C44_case : update_remap_roles 9%nat (Some 7%nat) None (Some 3%nat) None true = (3%nat, 7%nat, 0%nat, []) /\
  update_remap_roles 9%nat None None None None true = (9%nat, 9%nat, 1%nat, []).
Proof. split; reflexivity. Qed.

(** ** C75 *)
(** mass of the log-space normal law with the returned standard deviation on
    [log(sigma2_0/gamma), log(sigma2_0 gamma)] *)
Theorem C75_coverage inv_cdf gamma coverage s0 : inv_cdf_contract inv_cdf -> 1 < gamma -> 0 < coverage < 1 ->
  exists std, logsigma2_prior_std inv_cdf gamma coverage = Some std /\ 0 < std /\
   is_RInt (fun t => exp (- ((t - s0) / std * ((t - s0) / std)) / 2) / sqrt (2 * PI) / std)
     (s0 - ln gamma) (s0 + ln gamma) coverage.
Proof. apply coverage_holds. Qed.
Print Assumptions C75_coverage.
Theorem C75_raises inv_cdf gamma coverage : inv_cdf_contract inv_cdf ->
  logsigma2_prior_std inv_cdf gamma coverage = None <-> ~ (1 < gamma /\ 0 < coverage < 1).
Proof. apply std_raises. Qed.
Print Assumptions C75_raises.
(** the log prior is the logarithm of that density up to a constant *)
Theorem C75_log_density inv_cdf s s0 gamma coverage : inv_cdf_contract inv_cdf -> 1 < gamma -> 0 < coverage < 1 ->
  exists std v, logsigma2_prior_std inv_cdf gamma coverage = Some std /\
    log_prior_gaussian_logsigma2 inv_cdf s s0 gamma coverage = Some v /\
    v = ln (exp (- ((s - s0) / std * ((s - s0) / std)) / 2)) /\ v <= 0 /\ (v = 0 <-> s = s0).
Proof.
  intros Hc Hg Hcov. destruct (coverage_holds inv_cdf gamma coverage s0 Hc Hg Hcov) as (std & E & Hs & _).
  unfold log_prior_gaussian_logsigma2. rewrite E. exists std. eexists; split; auto. split; [reflexivity|].
  rewrite ln_exp. set (z := (s - s0) / std). split; [field|].
  assert (Hz := Rle_0_sqr z). unfold Rsqr in Hz. split; [lra|]. split.
  - intros H. assert (z * z = 0) by lra. assert (z = 0) by (apply Rsqr_0_uniq; auto).
    unfold z in H1. apply (f_equal (fun v => v * std)) in H1. field_simplify in H1; lra.
  - intros ->. unfold z. replace (s0 - s0) with 0 by ring. field. lra.
Qed.
Print Assumptions C75_log_density.

(** ** C42, consequence for the criterion *)
From mathcomp Require Import all_ssreflect all_algebra.
From Verif Require Import LinAlg KrigModel Rinst LikModel CholProofs LinQR KrigProofs KrigProofs3 LooProofs MaternCov PriorMat.
Import Order.TTheory GRing.Theory Num.Theory.
Local Close Scope R_scope.
Local Open Scope ring_scope.
Bind Scope ring_scope with R.
(** restricted likelihood + power-law prior, Matern model, r = n - q contrasts: for every
    length scales the criterion has no minimum in log sigma2 when r <= 197 ... *)
Theorem C42_criterion_unbounded_below b b' p d q r (qr : qr_fun R_rcfType q r) (x : 'M[R]_(q + r, d))
  (P : 'M[R]_(q + r, q)) (z : 'cV[R]_(q + r)) (l : 'rV[R]_d) (B : R) :
  is_qr P (qr P) -> full_col_rank P -> (r <= 197)%N ->
  exists u v, power_laws_criterion b b' p qr x P z u l = Ok (LikModel.Fin v) /\ v < B.
Proof. by move=> qrP fP; exact: power_unbounded. Qed.
Print Assumptions C42_criterion_unbounded_below.
(** ... and is bounded below for r >= 198, unless the data lie in the span of the trend *)
Theorem C42_criterion_bounded_below b b' p d q r (qr : qr_fun R_rcfType q r) (x : 'M[R]_(q + r, d))
  (P : 'M[R]_(q + r, q)) (z : 'cV[R]_(q + r)) (l : 'rV[R]_d) :
  is_qr P (qr P) -> full_col_rank P -> (198 <= r)%N -> (forall beta, z != P *m beta) ->
  exists B, forall u, exists v, power_laws_criterion b b' p qr x P z u l = Ok (LikModel.Fin v) /\ B <= v.
Proof. by move=> qrP fP; exact: power_bounded. Qed.
Print Assumptions C42_criterion_bounded_below.
Example C42_criterion_case : exists qr : qr_fun R_rcfType 1 1,
  is_qr (w_P R_rcfType) (qr (w_P R_rcfType)) /\ full_col_rank (w_P R_rcfType) /\ (1 <= 197)%N.
Proof. by have [qr h] := qr_exists R_rcfType 1 1; exists qr; split=> //; split=> //; exact: w_full. Qed.
Example C42_criterion_large_case : exists (qr : qr_fun R_rcfType 1 198) (z : 'cV[R]_(1 + 198)),
  is_qr (const_mx 1) (qr (const_mx 1)) /\ full_col_rank (const_mx 1 : 'M[R]_(1 + 198, 1)) /\
  forall beta, z != (const_mx 1 : 'M[R]_(1 + 198, 1)) *m beta.
Proof.
have [qr h] := qr_exists R_rcfType 1 198; exists qr, (delta_mx (lshift 198 0) 0); split=> //; split.
  move=> v /matrixP /(_ (lshift 198 0) 0); rewrite !mxE big_ord1 mxE mul1r => e.
  by apply/matrixP => i j; rewrite !ord1 e mxE.
move=> beta; apply/eqP => e.
have /matrixP /(_ (lshift 198 0) 0) := e; have /matrixP /(_ (rshift 1 0) 0) := e.
by rewrite !mxE !big_ord1 !mxE !mul1r !eqxx /= => <- /eqP; rewrite oner_eq0.
Qed.
