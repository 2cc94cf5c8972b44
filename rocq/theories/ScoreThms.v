(** Theorems about the scoring rules (C66, C67, C83). *)
From Coq Require Import Reals Lra Lia Bool.
From Coquelicot Require Import Coquelicot.
From Verif Require Import ConfigModel FlModel GaussProofs ScoreModel NutsProofs ScoreProofs.
Local Open Scope R_scope.

(** The standard normal density and distribution function used by the model are the usual ones. *)
Theorem C66_normal_law :
  (forall x, npdf x = exp (- (x * x / 2)) / sqrt (2 * PI)) /\
  (forall x, is_derive ncdf x (npdf x)) /\ is_lim ncdf m_infty 0 /\ is_lim ncdf p_infty 1.
Proof. split; [reflexivity |]. split; [apply ncdf_derive |]. split; [apply ncdf_lim_m | apply ncdf_lim_p]. Qed.
Print Assumptions C66_normal_law.

(** C66: for finite thresholds the code's three-term formula is the integral of the squared distance between the
    predictive distribution function and the step at the observation; with an infinite threshold it is the
    improper integral. *)
Theorem C66_truncated_integral mvcdf mu sigma z a b : bivariate_cdf mvcdf -> 0 < sigma -> a <= b ->
  is_RInt (brier mu sigma z) a b (tcrps_gaussian mvcdf mu sigma z (Fin a) (Fin b)).
Proof. intros hb hs hab. now apply tcrps_int. Qed.
Print Assumptions C66_truncated_integral.
Theorem C66_improper_integrals mvcdf mu sigma z : bivariate_cdf mvcdf -> 0 < sigma ->
  (forall b, is_lim (fun a => RInt (brier mu sigma z) a b) m_infty (tcrps_gaussian mvcdf mu sigma z NInf (Fin b))) /\
  (forall a, is_lim (fun b => RInt (brier mu sigma z) a b) p_infty (tcrps_gaussian mvcdf mu sigma z (Fin a) PInf)) /\
  is_lim (fun m => RInt (brier mu sigma z) (- m) m) p_infty (crps_gaussian mu sigma z) /\
  tcrps_gaussian mvcdf mu sigma z NInf PInf = crps_gaussian mu sigma z.
Proof.
  intros hb hs. assert (L : forall b, is_lim (fun a => RInt (brier mu sigma z) a b) m_infty (tcrps_left mvcdf mu sigma z b)).
  { intro b. apply is_lim_ext_loc with (fun a => tcrps_both mvcdf mu sigma z a b); [| now apply tcrps_left_lim].
    exists b. intros a ha. symmetry. apply is_RInt_unique, tcrps_int; [exact hb | exact hs | lra]. }
  assert (U : forall a, is_lim (fun b => RInt (brier mu sigma z) a b) p_infty (tcrps_left mvcdf (- mu) sigma (- z) (- a))).
  { intro a. apply is_lim_ext_loc with (fun b => tcrps_both mvcdf mu sigma z a b); [| now apply tcrps_right_lim].
    exists a. intros b h. symmetry. apply is_RInt_unique, tcrps_int; [exact hb | exact hs | lra]. }
  split; [exact L | split; [exact U | split; [| reflexivity]]].
  apply is_lim_ext_loc with (fun m => RInt (brier mu sigma z) (- m) 0 + RInt (brier mu sigma z) 0 m).
  { exists 0. intros m hm. apply (RInt_Chasles (V := R_CompleteNormedModule) (brier mu sigma z) (- m) 0 m).
    - eexists. apply (tcrps_int mvcdf hb mu sigma hs). lra.
    - eexists. apply (tcrps_int mvcdf hb mu sigma hs). lra. }
  rewrite <- (halves mvcdf hb mu sigma z 0 hs).
  apply (is_lim_plus _ _ p_infty (Finite (tcrps_left mvcdf mu sigma z 0)) (Finite (tcrps_left mvcdf (- mu) sigma (- z) (- 0)))); [| apply U | reflexivity].
  assert (h := L 0). apply is_lim_spec in h. apply is_lim_spec. intro e. destruct (h e) as [M hM]. exists (- M). intros m hm. apply hM. lra.
Qed.
Print Assumptions C66_improper_integrals.
Example C66_bivariate_cdf_exists : exists f, bivariate_cdf f /\ f 0 = 3 / 8.
Proof. eexists. split; [exact biv_exists |]. cbv beta. rewrite Ropp_0, ncdf_0. field. Qed.

(** additivity over adjacent intervals, infinite end points included *)
Theorem C66_additive mvcdf mu sigma z (a c : fl) b : bivariate_cdf mvcdf -> 0 < sigma ->
  (a = NInf \/ exists a', a = Fin a' /\ a' <= b) -> (c = PInf \/ exists c', c = Fin c' /\ b <= c') ->
  tcrps_gaussian mvcdf mu sigma z a c = tcrps_gaussian mvcdf mu sigma z a (Fin b) + tcrps_gaussian mvcdf mu sigma z (Fin b) c.
Proof.
  intros hb hs [-> | [a' [-> ha]]] [-> | [c' [-> hc]]]; cbn [tcrps_gaussian].
  - symmetry. now apply halves.
  - now apply left_add.
  - rewrite (both_reflect mvcdf mu sigma z a' b hb hs ha). rewrite (left_add mvcdf (- mu) sigma (- z) (- b) (- a')) by lra. ring.
  - now apply both_add.
Qed.
Print Assumptions C66_additive.
Example C66_additive_example mvcdf : bivariate_cdf mvcdf ->
  crps_gaussian 1 2 3 = tcrps_gaussian mvcdf 1 2 3 NInf (Fin 0) + tcrps_gaussian mvcdf 1 2 3 (Fin 0) (Fin 5) + tcrps_gaussian mvcdf 1 2 3 (Fin 5) PInf.
Proof.
  intro hb. rewrite <- (C66_additive mvcdf 1 2 3 NInf (Fin 5) 0 hb); [| lra | now left | right; exists 5; split; [reflexivity | lra]].
  apply (C66_additive mvcdf 1 2 3 NInf PInf 5 hb); [lra | now left | now left].
Qed.
(** every truncated score is between zero and the unrestricted score, and grows with the interval *)
Theorem C66_bounds mvcdf mu sigma z (a b : fl) : bivariate_cdf mvcdf -> 0 < sigma ->
  (a = NInf \/ exists a', a = Fin a') -> (b = PInf \/ exists b', b = Fin b') -> fl_le a b = true ->
  0 <= tcrps_gaussian mvcdf mu sigma z a b <= crps_gaussian mu sigma z.
Proof.
  intros hb hs ha hb' hab.
  assert (P1 : forall m z' x, 0 <= tcrps_left mvcdf m sigma z' x) by (intros; now apply left_nonneg).
  assert (P2 := fun x => halves mvcdf hb mu sigma z x hs).
  destruct ha as [-> | [a' ->]], hb' as [-> | [b' ->]]; cbn [tcrps_gaussian].
  - split; [| lra]. specialize (P2 0). pose proof (P1 mu z 0). pose proof (P1 (- mu) (- z) (- 0)). lra.
  - specialize (P2 b'). pose proof (P1 mu z b'). pose proof (P1 (- mu) (- z) (- b')). lra.
  - specialize (P2 a'). pose proof (P1 mu z a'). pose proof (P1 (- mu) (- z) (- a')). lra.
  - assert (hab' : a' <= b') by (cbn in hab; destruct (Rle_dec a' b'); [assumption | discriminate]).
    pose proof (tcrps_both_nonneg mvcdf mu sigma z a' b' hb hs hab'). specialize (P2 b'). pose proof (left_add mvcdf mu sigma z a' b' hab').
    pose proof (P1 mu z a'). pose proof (P1 (- mu) (- z) (- b')). lra.
Qed.
Print Assumptions C66_bounds.
Example C66_bounds_example : fl_le (Fin 0) PInf = true.
Proof. reflexivity. Qed.
(** an infinite threshold of the wrong sign is read as the other one: the empty interval [+inf, b] is scored as (-inf, b] *)
Theorem C66_wrong_infinity mvcdf mu sigma z b : 0 < sigma -> bivariate_cdf mvcdf ->
  tcrps_gaussian mvcdf mu sigma z PInf (Fin b) = tcrps_gaussian mvcdf mu sigma z NInf (Fin b) /\
  tcrps_gaussian mvcdf mu sigma z (Fin b) NInf = tcrps_gaussian mvcdf mu sigma z (Fin b) PInf /\
  tcrps_gaussian mvcdf mu sigma z PInf PInf = crps_gaussian mu sigma z /\ 0 < crps_gaussian mu sigma z.
Proof.
  intros hs hb. split; [reflexivity |]. split; [reflexivity |]. split; [reflexivity |].
  rewrite crps_cr. apply Rmult_lt_0_compat; [exact hs |]. assert (hp : 0 < sqrt PI) by (apply sqrt_lt_R0, PI_RGT_0).
  assert (k : 0 < cr 0). { rewrite cr_0. apply Rdiv_lt_0_compat; [| exact hp]. assert (1 < sqrt 2) by (rewrite <- sqrt_1; apply sqrt_lt_1_alt; lra). lra. }
  set (t := (z - mu) / sigma). destruct (Rtotal_order t 0) as [h | [-> | h]]; [| exact k |].
  - rewrite <- cr_even. assert (i := cr_increasing 0 (- t)). lra.
  - assert (i := cr_increasing 0 t). lra.
Qed.
Print Assumptions C66_wrong_infinity.

(** C67: shape of the score. *)
Theorem C67_invariances mu sigma z d c : 0 < sigma -> 0 < c ->
  crps_gaussian mu sigma (mu + d) = crps_gaussian mu sigma (mu - d) /\
  crps_gaussian (mu + d) sigma (z + d) = crps_gaussian mu sigma z /\
  crps_gaussian (c * mu) (c * sigma) (c * z) = c * crps_gaussian mu sigma z /\
  crps_gaussian (- mu) sigma (- z) = crps_gaussian mu sigma z.
Proof.
  intros hs hc. rewrite !crps_cr. split; [| split; [| split]].
  - replace ((mu - d - mu) / sigma) with (- ((mu + d - mu) / sigma)) by (field; lra). now rewrite cr_even.
  - do 2 f_equal. field. lra.
  - replace ((c * z - c * mu) / (c * sigma)) with ((z - mu) / sigma) by (field; lra). ring.
  - replace ((- z - - mu) / sigma) with (- ((z - mu) / sigma)) by (field; lra). now rewrite cr_even.
Qed.
Print Assumptions C67_invariances.
Theorem C67_minimum mu sigma z : 0 < sigma ->
  crps_gaussian mu sigma mu = sigma * (sqrt 2 - 1) / sqrt PI /\ 0 < crps_gaussian mu sigma mu /\
  (z <> mu -> crps_gaussian mu sigma mu < crps_gaussian mu sigma z).
Proof.
  intro hs. rewrite !crps_cr. replace ((mu - mu) / sigma) with 0 by (field; lra).
  assert (hp : 0 < sqrt PI) by (apply sqrt_lt_R0, PI_RGT_0).
  assert (k : 0 < cr 0). { rewrite cr_0. apply Rdiv_lt_0_compat; [| exact hp]. assert (1 < sqrt 2) by (rewrite <- sqrt_1; apply sqrt_lt_1_alt; lra). lra. }
  split; [rewrite cr_0; field; lra |]. split; [now apply Rmult_lt_0_compat |].
  intro ne. apply Rmult_lt_compat_l; [exact hs |]. set (t := (z - mu) / sigma).
  assert (ht : t <> 0). { intro h. apply ne. assert (z - mu = sigma * t) by (unfold t; field; lra). rewrite h in H. lra. }
  destruct (Rtotal_order t 0) as [h | [h | h]]; [| contradiction |].
  - rewrite <- (cr_even t). apply cr_increasing; lra.
  - apply cr_increasing; lra.
Qed.
Print Assumptions C67_minimum.
(** strictly increasing in the error, and within sigma of the absolute error *)
Theorem C67_growth mu sigma z z' : 0 < sigma ->
  (Rabs (z - mu) < Rabs (z' - mu) -> crps_gaussian mu sigma z < crps_gaussian mu sigma z') /\
  Rabs (z - mu) - sigma / sqrt PI < crps_gaussian mu sigma z <= Rabs (z - mu) + sigma * (sqrt 2 - 1) / sqrt PI.
Proof.
  intro hs. assert (hp : 0 < sqrt PI) by (apply sqrt_lt_R0, PI_RGT_0).
  assert (A : forall y, crps_gaussian mu sigma y = sigma * cr (Rabs (y - mu) / sigma)).
  { intro y. rewrite crps_cr. unfold Rabs. destruct (Rcase_abs (y - mu)) as [h | h]; [| reflexivity].
    rewrite <- cr_even. do 2 f_equal. field. lra. }
  rewrite !A. assert (P : forall y, 0 <= Rabs (y - mu) / sigma).
  { intro y. apply Rmult_le_pos; [apply Rabs_pos | left; now apply Rinv_0_lt_compat]. }
  split.
  - intro h. apply Rmult_lt_compat_l; [exact hs |]. apply cr_increasing; [apply P |]. unfold Rdiv. apply Rmult_lt_compat_r; [now apply Rinv_0_lt_compat | exact h].
  - assert (l := cr_lower _ (P z)). assert (u := cr_upper _ (P z)). set (t := Rabs (z - mu) / sigma) in *.
    assert (e : Rabs (z - mu) = sigma * t) by (unfold t; field; lra). rewrite e. split.
    + replace (sigma * t - sigma / sqrt PI) with (sigma * (t - 1 / sqrt PI)) by (field; lra). now apply Rmult_lt_compat_l.
    + replace (sigma * t + sigma * (sqrt 2 - 1) / sqrt PI) with (sigma * (t + (sqrt 2 - 1) / sqrt PI)) by (field; lra). apply Rmult_le_compat_l; lra.
Qed.
Print Assumptions C67_growth.
Example C67_growth_example : Rabs (2 - 1) < Rabs (4 - 1).
Proof. rewrite !Rabs_right by lra. lra. Qed.

(** C83: the expected improvements are the tail integrals that define them. *)
Theorem C83_expected_improvement mvcdf mu sigma z : bivariate_cdf mvcdf -> 0 < sigma ->
  is_lim (fun m => RInt (fun y => 1 - cdf_at mu sigma y) z m) p_infty (ei1_up mu sigma z) /\
  is_lim (fun m => RInt (fun y => 1 - cdf_at mu sigma y * cdf_at mu sigma y) z m) p_infty (ei2_up mvcdf mu sigma z).
Proof.
  intros hb hs. split.
  - apply is_lim_ext with (fun m => ei1_up mu sigma z - ei1_up mu sigma m); [intro m; symmetry; apply is_RInt_unique; now apply ei1_int |].
    replace (Finite (ei1_up mu sigma z)) with (Finite (ei1_up mu sigma z - 0)) by (f_equal; ring).
    apply (is_lim_minus _ _ p_infty (Finite (ei1_up mu sigma z)) (Finite 0)); [apply is_lim_const | | reflexivity].
    apply (scaled_tail loss 6 mu sigma hs ltac:(lra)). intros t ht. assert (l := loss_small t ht). rewrite Rabs_right; lra.
  - apply is_lim_ext with (fun m => ei2_up mvcdf mu sigma z - ei2_up mvcdf mu sigma m); [intro m; symmetry; apply is_RInt_unique; now apply ei2_int |].
    replace (Finite (ei2_up mvcdf mu sigma z)) with (Finite (ei2_up mvcdf mu sigma z - 0)) by (f_equal; ring).
    apply (is_lim_minus _ _ p_infty (Finite (ei2_up mvcdf mu sigma z)) (Finite 0)); [apply is_lim_const | | reflexivity].
    apply is_lim_ext with (fun m => sigma * kk ((mu - m) / sigma)); [intro m; symmetry; now apply ei2_kk |].
    apply (scaled_tail kk 24 mu sigma hs ltac:(lra)). exact kk_neg_tail.
Qed.
Print Assumptions C83_expected_improvement.
(** positive, decreasing in the threshold, increasing in the spread, above the plug-in improvement *)
Theorem C83_shape mu sigma z : 0 < sigma ->
  0 < ei1_up mu sigma z /\ mu - z < ei1_up mu sigma z /\ (forall z', z < z' -> ei1_up mu sigma z' < ei1_up mu sigma z) /\
  (forall s', sigma < s' -> ei1_up mu sigma z < ei1_up mu s' z) /\
  (forall mu', mu < mu' -> ei1_up mu sigma z < ei1_up mu' sigma z).
Proof.
  intro hs. unfold ei1_up. change h1 with loss.
  assert (inc : forall x y, x < y -> loss x < loss y).
  { intros x y h. apply (derive_lt loss ncdf); [intro; apply loss_derive | exact h | intros w _; apply ncdf_range]. }
  assert (hi : 0 < / sigma) by now apply Rinv_0_lt_compat.
  split; [apply Rmult_lt_0_compat; [exact hs | apply loss_pos] |]. split; [| split; [| split]].
  - assert (l := loss_pos (- ((mu - z) / sigma))). rewrite loss_sym in l. set (t := (mu - z) / sigma) in *.
    replace (mu - z) with (sigma * t) by (unfold t; field; lra). apply Rmult_lt_compat_l; lra.
  - intros z' h. apply Rmult_lt_compat_l; [exact hs |]. apply inc. unfold Rdiv. apply Rmult_lt_compat_r; lra.
  - intros s' h. set (d := mu - z).
    destruct (Req_dec d 0) as [-> | hd].
    { unfold Rdiv. rewrite !Rmult_0_l. apply Rmult_lt_compat_r; [apply loss_pos | exact h]. }
    set (u := d / sigma). set (v := d / s').
    assert (conv : loss v - loss u - ncdf v * (v - u) < 0 \/ u = v).
    { destruct (Rtotal_order u v) as [h1 | [h1 | h1]]; [left | now right | left].
      - destruct (MVT_cor2 loss ncdf u v h1) as [c [e hc]]; [intros; apply is_derive_Reals, loss_derive |]. rewrite e.
        assert (i := ncdf_increasing c v ltac:(lra)). nra.
      - destruct (MVT_cor2 loss ncdf v u h1) as [c [e hc]]; [intros; apply is_derive_Reals, loss_derive |].
        assert (i := ncdf_increasing v c ltac:(lra)). nra. }
    assert (es : d = sigma * u) by (unfold u; field; lra). assert (es' : d = s' * v) by (unfold v; field; lra).
    destruct conv as [conv | conv]; [| exfalso; rewrite <- conv in es'; assert (u <> 0) by (intro q; rewrite q in es; lra); nra].
    assert (pv := npdf_pos v). unfold loss in conv at 1. assert (k : loss u > npdf v + ncdf v * u) by lra.
    (* the other tangent: loss v > npdf u + ncdf u * v *)
    assert (conv2 : loss v > npdf u + ncdf u * v).
    { destruct (Rtotal_order u v) as [h1 | [h1 | h1]]; [| exfalso; rewrite h1 in conv; unfold loss in conv; lra |].
      - destruct (MVT_cor2 loss ncdf u v h1) as [c [e hc]]; [intros; apply is_derive_Reals, loss_derive |].
        assert (i := ncdf_increasing u c ltac:(lra)). assert (w : loss v = loss u + ncdf c * (v - u)) by lra. rewrite w. unfold loss. nra.
      - destruct (MVT_cor2 loss ncdf v u h1) as [c [e hc]]; [intros; apply is_derive_Reals, loss_derive |].
        assert (i := ncdf_increasing c u ltac:(lra)). assert (w : loss v = loss u - ncdf c * (u - v)) by lra. rewrite w. unfold loss. nra. }
    assert (pu := npdf_pos u). apply Rlt_trans with (s' * (npdf u + ncdf u * v)); [| apply Rmult_lt_compat_l; lra].
    replace (s' * (npdf u + ncdf u * v)) with (s' * npdf u + ncdf u * (s' * v)) by ring. rewrite <- es', es. unfold loss. nra.
  - intros mu' h. apply Rmult_lt_compat_l; [exact hs |]. apply inc. unfold Rdiv. apply Rmult_lt_compat_r; lra.
Qed.
Print Assumptions C83_shape.
(** two draws improve at least as much as one and at most twice as much *)
Theorem C83_two_draws mvcdf mu sigma z : bivariate_cdf mvcdf -> 0 < sigma ->
  ei1_up mu sigma z <= ei2_up mvcdf mu sigma z <= 2 * ei1_up mu sigma z.
Proof.
  intros hb hs. destruct (C83_expected_improvement mvcdf mu sigma z hb hs) as [l1 l2].
  assert (R1 : forall m, z < m -> RInt (fun y => 1 - cdf_at mu sigma y) z m <= RInt (fun y => 1 - cdf_at mu sigma y * cdf_at mu sigma y) z m).
  { intros m hm. apply RInt_le; [lra | eexists; now apply ei1_int | eexists; now apply (ei2_int mvcdf) |]. intros y _. assert (r := ncdf_range ((y - mu) / sigma)). unfold cdf_at. nra. }
  assert (R2 : forall m, z < m -> RInt (fun y => 1 - cdf_at mu sigma y * cdf_at mu sigma y) z m <= 2 * RInt (fun y => 1 - cdf_at mu sigma y) z m).
  { intros m hm. apply (is_RInt_le (fun y => 1 - cdf_at mu sigma y * cdf_at mu sigma y) (fun y => 2 * (1 - cdf_at mu sigma y)) z m); [lra | | |].
    - apply (RInt_correct (V := R_CompleteNormedModule)). eexists. now apply (ei2_int mvcdf).
    - apply (is_RInt_scal (V := R_NormedModule) (fun y => 1 - cdf_at mu sigma y) z m 2). apply (RInt_correct (V := R_CompleteNormedModule)). eexists. now apply ei1_int.
    - intros y _. assert (r := ncdf_range ((y - mu) / sigma)). unfold cdf_at. nra. }
  split.
  - assert (k : Rbar_le (ei1_up mu sigma z) (ei2_up mvcdf mu sigma z)); [| exact k].
    refine (is_lim_le_loc _ _ p_infty _ _ _ l1 l2). exists z. exact R1.
  - assert (k : Rbar_le (ei2_up mvcdf mu sigma z) (Rbar_mult 2 (ei1_up mu sigma z))); [| exact k].
    refine (is_lim_le_loc _ _ p_infty _ _ _ l2 (is_lim_scal_l _ 2 p_infty _ l1)). exists z. exact R2.
Qed.
Print Assumptions C83_two_draws.
