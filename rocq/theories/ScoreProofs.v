(** Spec vocabulary and lemmas for ScoreModel. *)
From Coq Require Import Reals Lra Lia Bool.
From Coquelicot Require Import Coquelicot.
From Verif Require Import ConfigModel FlModel GaussProofs ScoreModel NutsProofs.
Local Open Scope R_scope.

(** the bivariate distribution function: probability that -N1 <= t and N2 - N1 <= 0, i.e. the integral of
    npdf(n) ncdf(n) over n >= -t *)
Definition bivariate_cdf (mvcdf : R -> R) : Prop :=
  forall t, is_lim (fun M => RInt (fun n => npdf n * ncdf n) (- t) M) p_infty (mvcdf t).
Lemma half_sq_derive n : is_derive (fun x => ncdf x * ncdf x / 2) n (npdf n * ncdf n).
Proof.
  eapply (is_derive_ext (fun x => / 2 * (ncdf x * ncdf x))); [intro; unfold Rdiv; apply Rmult_comm |].
  eapply filterdiff_ext_lin; [apply (is_derive_scal (fun x => ncdf x * ncdf x) n (/ 2)); apply (is_derive_mult ncdf ncdf n); [apply ncdf_derive | apply ncdf_derive | intros; apply Rmult_comm] |].
  intro y. cbn. unfold plus, scal, mult. cbn. unfold mult. cbn. field.
Qed.
Lemma npdf_cont x : continuous npdf x.
Proof. apply (ex_derive_continuous npdf). eexists. apply npdf_derive. Qed.
Lemma ncdf_cont x : continuous ncdf x.
Proof. apply (ex_derive_continuous ncdf). eexists. apply ncdf_derive. Qed.
Lemma prod_int a b : is_RInt (fun n => npdf n * ncdf n) a b (ncdf b * ncdf b / 2 - ncdf a * ncdf a / 2).
Proof.
  apply (is_RInt_derive (fun x => ncdf x * ncdf x / 2)); [intros; apply half_sq_derive |].
  intros x _. apply (continuous_mult npdf ncdf); [apply npdf_cont | apply ncdf_cont].
Qed.
Lemma biv_lim t : is_lim (fun M => RInt (fun n => npdf n * ncdf n) (- t) M) p_infty ((1 - ncdf (- t) * ncdf (- t)) / 2).
Proof.
  apply is_lim_ext with (fun M => / 2 * (ncdf M * ncdf M) + - (ncdf (- t) * ncdf (- t) / 2)).
  { intro M. symmetry. rewrite (is_RInt_unique _ _ _ _ (prod_int (- t) M)). field. }
  replace (Finite ((1 - ncdf (- t) * ncdf (- t)) / 2)) with (Rbar_plus (Rbar_mult (/ 2) (Rbar_mult 1 1)) (Finite (- (ncdf (- t) * ncdf (- t) / 2)))) by (cbn; f_equal; field).
  apply (is_lim_plus _ _ p_infty (Rbar_mult (/ 2) (Rbar_mult 1 1)) (Finite (- (ncdf (- t) * ncdf (- t) / 2)))); [| apply is_lim_const | reflexivity].
  apply (is_lim_scal_l (fun M => ncdf M * ncdf M) (/ 2) p_infty (Rbar_mult 1 1)).
  apply is_lim_mult; [apply ncdf_lim_p | apply ncdf_lim_p | reflexivity].
Qed.
Lemma biv_value mvcdf : bivariate_cdf mvcdf -> forall t, mvcdf t = (1 - ncdf (- t) * ncdf (- t)) / 2.
Proof.
  intros h t. assert (h1 := is_lim_unique _ _ _ (h t)). assert (h2 := is_lim_unique _ _ _ (biv_lim t)).
  rewrite h1 in h2. injection h2. auto.
Qed.
Lemma biv_exists : bivariate_cdf (fun t => (1 - ncdf (- t) * ncdf (- t)) / 2).
Proof. intro t. apply biv_lim. Qed.

(** distribution function of the prediction and the integrand of the scores *)
Definition cdf_at (mu sigma y : R) : R := ncdf ((y - mu) / sigma).
Definition brier (mu sigma z y : R) : R := let e := (if rleb z y then 1 else 0) - cdf_at mu sigma y in e * e.

Section S.
Variable mvcdf : R -> R.
Hypothesis hbiv : bivariate_cdf mvcdf.
Notation ei2 := (ei2_up mvcdf).
Variable mu sigma : R.
Hypothesis hs : 0 < sigma.
Notation F := (cdf_at mu sigma).

Lemma F_refl z : ncdf ((mu - z) / sigma) = 1 - F z.
Proof. unfold cdf_at. replace ((mu - z) / sigma) with (- ((z - mu) / sigma)) by (field; lra). apply ncdf_sym. Qed.
Lemma F_cont y : continuous F y.
Proof.
  unfold cdf_at. apply (ex_derive_continuous (fun y => ncdf ((y - mu) / sigma))). eexists.
  apply (is_derive_comp ncdf (fun y => (y - mu) / sigma)); [apply ncdf_derive |]. auto_derive; [trivial |]. reflexivity.
Qed.
Lemma ei1_derive z : is_derive (ei1_up mu sigma) z (- (1 - F z)).
Proof.
  unfold ei1_up. change h1 with loss. replace (- (1 - F z)) with (scal sigma (scal (- / sigma) (ncdf ((mu - z) / sigma)))).
  - apply (is_derive_scal (fun z => loss ((mu - z) / sigma)) z sigma). apply (is_derive_comp loss (fun z => (mu - z) / sigma)); [apply loss_derive |].
    auto_derive; [trivial |]. field. lra.
  - unfold scal. cbn. unfold mult. cbn. rewrite F_refl. field. lra.
Qed.
Definition kk (t : R) : R := t * (1 - ncdf (- t) * ncdf (- t)) + 2 * npdf t * ncdf (- t) + 1 / sqrt PI * ncdf (t / sqrt (1 / 2)).
Lemma ei2_kk m z : ei2 m sigma z = sigma * kk ((m - z) / sigma).
Proof. unfold ei2_up, kk. rewrite (biv_value mvcdf hbiv). cbv zeta. field. split; [apply Rgt_not_eq, sqrt_lt_R0, PI_RGT_0 | lra]. Qed.
Lemma sqrt_half : sqrt (1 / 2) = / sqrt 2.
Proof. unfold Rdiv. rewrite Rmult_1_l. symmetry. apply inv_sqrt. lra. Qed.
Lemma pdf_sq t : 1 / sqrt PI * (sqrt 2 * npdf (t / sqrt (1 / 2))) = 2 * (npdf t * npdf t).
Proof.
  assert (h2 : 0 < sqrt 2) by (apply sqrt_lt_R0; lra). assert (hp : 0 < sqrt PI) by (apply sqrt_lt_R0, PI_RGT_0).
  rewrite sqrt_half. replace (t / / sqrt 2) with (t * sqrt 2) by (field; lra). unfold npdf, bell.
  assert (e : sqrt (2 * PI) = sqrt 2 * sqrt PI) by (apply sqrt_mult; [lra | left; apply PI_RGT_0]). rewrite e.
  replace (t * sqrt 2 * (t * sqrt 2) / 2) with (t * t / 2 + t * t / 2).
  2: { replace (t * sqrt 2 * (t * sqrt 2)) with (t * t * (sqrt 2 * sqrt 2)) by ring. rewrite sqrt_sqrt by lra. field. }
  rewrite Ropp_plus_distr, exp_plus. set (E := exp _).
  replace (2 * (E / (sqrt 2 * sqrt PI) * (E / (sqrt 2 * sqrt PI)))) with (2 / (sqrt 2 * sqrt 2) * (E * E / (sqrt PI * sqrt PI))) by (field; lra).
  rewrite (sqrt_sqrt 2) by lra. field. lra.
Qed.
Lemma kk_derive t : is_derive kk t (1 - ncdf (- t) * ncdf (- t)).
Proof.
  assert (d1 : is_derive (fun t => ncdf (- t)) t (- npdf t)) by (rewrite <- npdf_even; apply is_derive_neg, ncdf_derive).
  assert (d2 : is_derive (fun t => ncdf (t / sqrt (1 / 2))) t (sqrt 2 * npdf (t / sqrt (1 / 2)))).
  { assert (h2 : 0 < sqrt 2) by (apply sqrt_lt_R0; lra).
    replace (sqrt 2 * npdf (t / sqrt (1 / 2))) with (scal (sqrt 2) (npdf (t / sqrt (1 / 2)))) by (unfold scal; cbn; unfold mult; reflexivity).
    apply (is_derive_comp ncdf (fun t => t / sqrt (1 / 2)) t); [apply ncdf_derive |]. rewrite sqrt_half. auto_derive; [trivial |]. field. lra. }
  unfold kk. replace (1 - ncdf (- t) * ncdf (- t)) with
    (plus (plus ((1 - ncdf (- t) * ncdf (- t)) + t * (- ((- npdf t) * ncdf (- t) + ncdf (- t) * (- npdf t))))
                (2 * (- t * npdf t) * ncdf (- t) + 2 * npdf t * (- npdf t))) (1 / sqrt PI * (sqrt 2 * npdf (t / sqrt (1 / 2))))).
  2: { unfold plus. cbn. rewrite pdf_sq. ring. }
  apply (is_derive_plus (fun t => t * (1 - ncdf (- t) * ncdf (- t)) + 2 * npdf t * ncdf (- t)) (fun t => 1 / sqrt PI * ncdf (t / sqrt (1 / 2))) t).
  2: { apply (is_derive_scal (fun t => ncdf (t / sqrt (1 / 2))) t (1 / sqrt PI)). exact d2. }
  apply (is_derive_plus (fun t => t * (1 - ncdf (- t) * ncdf (- t))) (fun t => 2 * npdf t * ncdf (- t)) t).
  - eapply filterdiff_ext_lin; [apply (is_derive_mult (fun t => t) (fun t => 1 - ncdf (- t) * ncdf (- t)) t); [apply (is_derive_id t) | | intros; apply Rmult_comm] |].
    + apply (is_derive_minus (fun _ => 1) (fun t => ncdf (- t) * ncdf (- t)) t); [apply (is_derive_const 1) |].
      apply (is_derive_mult (fun t => ncdf (- t)) (fun t => ncdf (- t)) t); [exact d1 | exact d1 | intros; apply Rmult_comm].
    + intro y. cbn. unfold minus, plus, opp, zero, scal, mult, one. cbn. unfold mult. cbn. ring.
  - eapply filterdiff_ext_lin; [apply (is_derive_mult (fun t => 2 * npdf t) (fun t => ncdf (- t)) t); [apply (is_derive_scal npdf t 2), npdf_derive | exact d1 | intros; apply Rmult_comm] |].
    intro y. cbn. unfold plus, scal, mult. cbn. unfold mult. cbn. ring.
Qed.
Lemma ei2_derive z : is_derive (ei2 mu sigma) z (- (1 - F z * F z)).
Proof.
  apply (is_derive_ext (fun z => sigma * kk ((mu - z) / sigma))); [intro; symmetry; apply ei2_kk |].
  replace (- (1 - F z * F z)) with (scal sigma (scal (- / sigma) (1 - ncdf (- ((mu - z) / sigma)) * ncdf (- ((mu - z) / sigma))))).
  - apply (is_derive_scal (fun z => kk ((mu - z) / sigma)) z sigma). apply (is_derive_comp kk (fun z => (mu - z) / sigma)); [apply kk_derive |].
    auto_derive; [trivial |]. field. lra.
  - unfold scal. cbn. unfold mult. cbn. rewrite ncdf_sym, F_refl. field. lra.
Qed.

(** the two antiderivatives *)
Lemma below_int a b : is_RInt (fun y => F y * F y) a b (b + ei2 mu sigma b - (a + ei2 mu sigma a)).
Proof.
  apply (is_RInt_derive (fun y => y + ei2 mu sigma y)).
  - intros x _. replace (F x * F x) with (plus 1 (- (1 - F x * F x))) by (unfold plus; cbn; ring).
    apply (is_derive_plus (fun y => y) (ei2 mu sigma) x); [apply (is_derive_id x) | apply ei2_derive].
  - intros x _. apply (continuous_mult F F); apply F_cont.
Qed.
Lemma above_int a b : is_RInt (fun y => (1 - F y) * (1 - F y)) a b
  ((ei2 mu sigma b - 2 * ei1_up mu sigma b) - (ei2 mu sigma a - 2 * ei1_up mu sigma a)).
Proof.
  apply (is_RInt_derive (fun y => ei2 mu sigma y - 2 * ei1_up mu sigma y)).
  - intros x _. replace ((1 - F x) * (1 - F x)) with (minus (- (1 - F x * F x)) (2 * (- (1 - F x)))) by (unfold minus, plus, opp; cbn; ring).
    apply (is_derive_minus (ei2 mu sigma) (fun y => 2 * ei1_up mu sigma y) x); [apply ei2_derive |].
    apply (is_derive_scal (ei1_up mu sigma) x 2). apply ei1_derive.
  - intros x _. assert (c : continuous (fun y => 1 - F y) x) by (apply (continuous_minus (fun _ => 1) F); [apply continuous_const | apply F_cont]).
    apply (continuous_mult (fun y => 1 - F y) (fun y => 1 - F y)); exact c.
Qed.
Lemma brier_below z y : y < z -> brier mu sigma z y = F y * F y.
Proof. intro h. unfold brier. assert (e : rleb z y = false) by (now apply rleb_false). rewrite e. ring. Qed.
Lemma brier_above z y : z <= y -> brier mu sigma z y = (1 - F y) * (1 - F y).
Proof. intro h. unfold brier. assert (e : rleb z y = true) by (now apply rleb_iff). now rewrite e. Qed.
Lemma tcrps_int z a b : a <= b -> is_RInt (brier mu sigma z) a b (tcrps_both mvcdf mu sigma z a b).
Proof.
  intro hab. unfold tcrps_both. cbv zeta. destruct (Rle_dec z a) as [h1 | h1]; [| destruct (Rle_dec z b) as [h2 | h2]].
  - rewrite (Rmin_right b z), (Rmax_right (z - a) 0), (Rmax_left a z) by lra. assert (e : rleb z b = true) by (apply rleb_iff; lra). rewrite e.
    replace (0 + (ei2 mu sigma b - ei2 mu sigma a) + -2 * (ei1_up mu sigma b - ei1_up mu sigma a)) with
      ((ei2 mu sigma b - 2 * ei1_up mu sigma b) - (ei2 mu sigma a - 2 * ei1_up mu sigma a)) by ring.
    eapply is_RInt_ext; [| apply above_int]. intros y hy. rewrite Rmin_left, Rmax_right in hy by lra. symmetry. apply brier_above. lra.
  - rewrite (Rmin_right b z), (Rmax_left (z - a) 0), (Rmax_right a z) by lra. assert (e : rleb z b = true) by (apply rleb_iff; lra). rewrite e.
    replace (z - a + (ei2 mu sigma b - ei2 mu sigma a) + -2 * (ei1_up mu sigma b - ei1_up mu sigma z)) with
      (plus (z + ei2 mu sigma z - (a + ei2 mu sigma a)) ((ei2 mu sigma b - 2 * ei1_up mu sigma b) - (ei2 mu sigma z - 2 * ei1_up mu sigma z))) by (unfold plus; cbn; ring).
    apply (is_RInt_Chasles (V := R_NormedModule) _ a z b).
    + eapply is_RInt_ext; [| apply below_int]. intros y hy. rewrite Rmin_left, Rmax_right in hy by lra. symmetry. apply brier_below. lra.
    + eapply is_RInt_ext; [| apply above_int]. intros y hy. rewrite Rmin_left, Rmax_right in hy by lra. symmetry. apply brier_above. lra.
  - rewrite (Rmin_left b z), (Rmax_left (b - a) 0) by lra. assert (e : rleb z b = false) by (apply rleb_false; lra). rewrite e.
    replace (b - a + (ei2 mu sigma b - ei2 mu sigma a) + -2 * 0) with (b + ei2 mu sigma b - (a + ei2 mu sigma a)) by ring.
    eapply is_RInt_ext; [| apply below_int]. intros y hy. rewrite Rmin_left, Rmax_right in hy by lra. symmetry. apply brier_below. lra.
Qed.

(** the left tail *)
Lemma kk_tail t : 1 <= t -> Rabs (kk t - t - 1 / sqrt PI) <= 12 / t.
Proof.
  intro h. unfold kk. rewrite ncdf_sym. assert (m := mills t). assert (r := ncdf_range t). pose proof (npdf_pos t). assert (n := npdf_small t h).
  assert (n2 : npdf t <= 2 / t) by nra.
  assert (hp : 1 <= sqrt PI) by (rewrite <- sqrt_1; apply sqrt_le_1_alt; pose proof PI2_1; lra).
  assert (hi : 0 < 1 / sqrt PI <= 1) by (unfold Rdiv; rewrite Rmult_1_l; split; [apply Rinv_0_lt_compat; lra | rewrite <- Rinv_1; apply Rinv_le_contravar; lra]).
  assert (h2 : 0 < sqrt 2) by (apply sqrt_lt_R0; lra).
  rewrite sqrt_half. replace (t / / sqrt 2) with (t * sqrt 2) by (field; lra).
  assert (h21 : 1 <= sqrt 2) by (rewrite <- sqrt_1; apply sqrt_le_1_alt; lra).
  assert (r2 := ncdf_range (t * sqrt 2)).
  assert (mono : ncdf t <= ncdf (t * sqrt 2)).
  { destruct (Req_dec t (t * sqrt 2)) as [<- | ne]; [lra |]. left. apply ncdf_increasing. nra. }
  set (c := ncdf t) in *. set (p := npdf t) in *. set (w := ncdf (t * sqrt 2)) in *. set (q := 1 / sqrt PI) in *.
  replace (t * (1 - (1 - c) * (1 - c)) + 2 * p * (1 - c) + q * w - t - q) with (- (t * (1 - c)) * (1 - c) + 2 * p * (1 - c) - q * (1 - w)) by ring.
  assert (a1 : 0 <= t * (1 - c) <= p) by nra. assert (a2 : 0 <= t * (1 - c) * (1 - c) <= p) by nra. assert (a3 : 0 <= 2 * p * (1 - c) <= 2 * p) by nra.
  assert (a4 : 0 <= q * (1 - w) <= 1 - c) by nra. assert (a5 : 1 - c <= p) by nra.
  assert (0 < / t) by (apply Rinv_0_lt_compat; lra). unfold Rdiv in *. apply Rabs_le. split; nra.
Qed.
Lemma ei2_tail (e : R) : 0 < e -> exists A, forall a, a < A -> Rabs (ei2 mu sigma a + a - (mu + sigma / sqrt PI)) < e.
Proof.
  intro he. assert (hp : 0 < sqrt PI) by (apply sqrt_lt_R0, PI_RGT_0).
  exists (mu - sigma * Rmax 1 (13 * sigma / e)). intros a ha. rewrite ei2_kk. set (t := (mu - a) / sigma).
  assert (ea : a = mu - sigma * t) by (unfold t; field; lra).
  assert (ht : Rmax 1 (13 * sigma / e) < t) by (apply Rmult_lt_reg_l with sigma; lra).
  assert (h1 : 1 < t) by (eapply Rle_lt_trans; [apply Rmax_l | exact ht]). assert (h2 : 13 * sigma / e < t) by (eapply Rle_lt_trans; [apply Rmax_r | exact ht]).
  replace (sigma * kk t + a - (mu + sigma / sqrt PI)) with (sigma * (kk t - t - 1 / sqrt PI)) by (rewrite ea; field; lra).
  rewrite Rabs_mult, (Rabs_right sigma) by lra. assert (k := kk_tail t ltac:(lra)).
  assert (h3 : 13 * sigma < e * t) by (apply Rmult_lt_compat_r with (r := e) in h2; [| exact he]; unfold Rdiv in h2; rewrite Rmult_assoc, Rinv_l in h2 by lra; lra).
  apply Rle_lt_trans with (sigma * (12 / t)); [apply Rmult_le_compat_l; lra |].
  apply Rmult_lt_reg_r with t; [lra |]. unfold Rdiv. rewrite Rmult_assoc, (Rmult_assoc 12), Rinv_l by lra. lra.
Qed.
Lemma tcrps_left_lim z b : is_lim (fun a => tcrps_both mvcdf mu sigma z a b) m_infty (tcrps_left mvcdf mu sigma z b).
Proof.
  apply is_lim_spec. intros [e he]. cbn [pos]. destruct (ei2_tail e he) as [A hA]. exists (Rmin A (Rmin b z)). intros a ha.
  assert (h1 : a < A) by (eapply Rlt_le_trans; [exact ha | apply Rmin_l]). assert (h2 : a < Rmin b z) by (eapply Rlt_le_trans; [exact ha | apply Rmin_r]).
  assert (h3 : a < z) by (eapply Rlt_le_trans; [exact h2 | apply Rmin_r]). specialize (hA a h1).
  unfold tcrps_both, tcrps_left. cbv zeta. rewrite (Rmax_left (Rmin b z - a) 0), (Rmax_right a z) by lra.
  match goal with |- Rabs ?x < _ => replace x with (- (ei2 mu sigma a + a - (mu + sigma / sqrt PI))) by ring end.
  now rewrite Rabs_Ropp.
Qed.
Lemma left_add z a b : a <= b -> tcrps_left mvcdf mu sigma z b = tcrps_left mvcdf mu sigma z a + tcrps_both mvcdf mu sigma z a b.
Proof.
  intro hab. unfold tcrps_both, tcrps_left. cbv zeta. destruct (Rle_dec z a) as [h1 | h1]; [| destruct (Rle_dec z b) as [h2 | h2]].
  - assert (e1 : rleb z a = true) by (now apply rleb_iff). assert (e2 : rleb z b = true) by (apply rleb_iff; lra). rewrite e1, e2.
    rewrite !Rmin_right, (Rmax_right (z - a) 0), Rmax_left by lra. ring.
  - assert (e1 : rleb z a = false) by (apply rleb_false; lra). assert (e2 : rleb z b = true) by (apply rleb_iff; lra). rewrite e1, e2.
    rewrite (Rmin_right b z), (Rmin_left a z), (Rmax_left (z - a) 0), (Rmax_right a z) by lra. ring.
  - assert (e1 : rleb z a = false) by (apply rleb_false; lra). assert (e2 : rleb z b = false) by (apply rleb_false; lra). rewrite e1, e2.
    rewrite !Rmin_left, (Rmax_left (b - a) 0) by lra. ring.
Qed.
End S.

Section S2.
Variable mvcdf : R -> R.
Hypothesis hbiv : bivariate_cdf mvcdf.
Lemma both_add mu sigma z a b c : a <= b -> b <= c -> tcrps_both mvcdf mu sigma z a c = tcrps_both mvcdf mu sigma z a b + tcrps_both mvcdf mu sigma z b c.
Proof.
  intros h1 h2. assert (e1 := left_add mvcdf mu sigma z a c ltac:(lra)). assert (e2 := left_add mvcdf mu sigma z a b h1).
  assert (e3 := left_add mvcdf mu sigma z b c h2). lra.
Qed.
(** left of b plus right of b is the whole line *)
Lemma halves mu sigma z b : 0 < sigma -> tcrps_left mvcdf mu sigma z b + tcrps_left mvcdf (- mu) sigma (- z) (- b) = crps_gaussian mu sigma z.
Proof.
  intro hs. assert (hp : 0 < sqrt PI) by (apply sqrt_lt_R0, PI_RGT_0).
  unfold tcrps_left, crps_gaussian. cbv zeta. rewrite !(ei2_kk mvcdf hbiv) by exact hs. unfold ei1_up. change h1 with loss.
  replace ((- mu - - b) / sigma) with (- ((mu - b) / sigma)) by (field; lra). replace ((- mu - - z) / sigma) with (- ((mu - z) / sigma)) by (field; lra).
  replace ((z - mu) / sigma) with (- ((mu - z) / sigma)) by (field; lra).
  assert (hk : kk ((mu - b) / sigma) + kk (- ((mu - b) / sigma)) = 2 * loss ((mu - b) / sigma) - (mu - b) / sigma + 1 / sqrt PI).
  { set (t := (mu - b) / sigma). unfold kk, loss. replace (- t / sqrt (1 / 2)) with (- (t / sqrt (1 / 2))) by (unfold Rdiv; ring).
    rewrite Ropp_involutive, !ncdf_sym, npdf_even. ring. }
  assert (lz := loss_sym ((mu - z) / sigma)). assert (lb := loss_sym ((mu - b) / sigma)).
  set (t := (mu - b) / sigma) in *. set (s := (mu - z) / sigma) in *. assert (eb : b = mu - sigma * t) by (unfold t; field; lra).
  assert (ez : z = mu - sigma * s) by (unfold s; field; lra).
  assert (hk2 : kk (- t) = 2 * loss t - t + 1 / sqrt PI - kk t) by lra. rewrite hk2, lz, lb.
  assert (el : s * (2 * ncdf s - 1) + 2 * npdf s = 2 * loss s - s) by (unfold loss; ring).
  replace (sigma * (- s * (2 * ncdf (- s) - 1) + 2 * npdf (- s) - 1 / sqrt PI)) with (sigma * (2 * loss s - s - 1 / sqrt PI)) by (rewrite <- el, ncdf_sym, npdf_even; ring).
  clear hk hk2 lz lb el. clearbody t s.
  destruct (Rle_dec z b) as [h | h].
  - assert (e1 : rleb z b = true) by (now apply rleb_iff). rewrite e1. destruct (Req_dec z b) as [heq | hne].
    + assert (e2 : rleb (- z) (- b) = true) by (apply rleb_iff; lra). rewrite e2. rewrite (Rmin_left b z), (Rmin_left (- b) (- z)) by lra.
      assert (s = t) by (apply Rmult_eq_reg_l with sigma; lra). subst s. field. lra.
    + assert (e2 : rleb (- z) (- b) = false) by (apply rleb_false; lra). rewrite e2. rewrite (Rmin_right b z), (Rmin_left (- b) (- z)) by lra. rewrite eb, ez. field. lra.
  - assert (e1 : rleb z b = false) by (apply rleb_false; lra). assert (e2 : rleb (- z) (- b) = true) by (apply rleb_iff; lra). rewrite e1, e2.
    rewrite (Rmin_left b z), (Rmin_right (- b) (- z)) by lra. rewrite eb, ez. field. lra.
Qed.
End S2.

Lemma brier_nonneg mu sigma z y : 0 <= brier mu sigma z y.
Proof. unfold brier. cbv zeta. set (e := _ - _). nra. Qed.
Lemma tcrps_both_nonneg mvcdf mu sigma z a b : bivariate_cdf mvcdf -> 0 < sigma -> a <= b -> 0 <= tcrps_both mvcdf mu sigma z a b.
Proof.
  intros hb hs hab. assert (i := tcrps_int mvcdf hb mu sigma hs z a b hab).
  apply (is_RInt_le (fun _ => 0) (brier mu sigma z) a b 0 (tcrps_both mvcdf mu sigma z a b)); [exact hab | | exact i | intros; apply brier_nonneg].
  assert (k := is_RInt_const (V := R_NormedModule) a b 0). change (scal (b - a) (0 : R_NormedModule)) with ((b - a) * 0) in k. rewrite Rmult_0_r in k. exact k.
Qed.
Lemma both_reflect mvcdf mu sigma z a b : bivariate_cdf mvcdf -> 0 < sigma -> a <= b ->
  tcrps_both mvcdf mu sigma z a b = tcrps_both mvcdf (- mu) sigma (- z) (- b) (- a).
Proof.
  intros hb hs hab. assert (e1 := halves mvcdf hb mu sigma z a hs). assert (e2 := halves mvcdf hb mu sigma z b hs).
  assert (e3 := left_add mvcdf mu sigma z a b hab). assert (e4 := left_add mvcdf (- mu) sigma (- z) (- b) (- a) ltac:(lra)). lra.
Qed.
Lemma tcrps_right_lim mvcdf mu sigma z a : bivariate_cdf mvcdf -> 0 < sigma ->
  is_lim (fun b => tcrps_both mvcdf mu sigma z a b) p_infty (tcrps_left mvcdf (- mu) sigma (- z) (- a)).
Proof.
  intros hb hs. assert (h := tcrps_left_lim mvcdf hb (- mu) sigma hs (- z) (- a)). apply is_lim_spec in h. apply is_lim_spec.
  intro e. destruct (h e) as [M hM]. exists (Rmax a (- M)). intros b hb'.
  assert (a < b) by (eapply Rle_lt_trans; [apply Rmax_l | exact hb']). assert (- M < b) by (eapply Rle_lt_trans; [apply Rmax_r | exact hb']).
  rewrite both_reflect by (auto; lra). apply hM. lra.
Qed.
Lemma left_nonneg mvcdf mu sigma z b : bivariate_cdf mvcdf -> 0 < sigma -> 0 <= tcrps_left mvcdf mu sigma z b.
Proof.
  intros hb hs. assert (h := tcrps_left_lim mvcdf hb mu sigma hs z b). apply is_lim_spec in h.
  destruct (Rle_dec 0 (tcrps_left mvcdf mu sigma z b)) as [| n]; [assumption | exfalso].
  assert (he : 0 < - tcrps_left mvcdf mu sigma z b) by lra. destruct (h (mkposreal _ he)) as [M hM]. cbn in hM.
  assert (hm1 : Rmin M b - 1 < M) by (pose proof (Rmin_l M b); lra). specialize (hM (Rmin M b - 1) hm1).
  assert (p := tcrps_both_nonneg mvcdf mu sigma z (Rmin M b - 1) b hb hs ltac:(pose proof (Rmin_r M b); lra)).
  apply Rabs_def2 in hM. lra.
Qed.

(** shape of the score *)
Definition cr (t : R) : R := t * (2 * ncdf t - 1) + 2 * npdf t - 1 / sqrt PI.
Lemma crps_cr mu sigma z : crps_gaussian mu sigma z = sigma * cr ((z - mu) / sigma).
Proof. reflexivity. Qed.
Lemma cr_loss t : cr t = 2 * loss t - t - 1 / sqrt PI.
Proof. unfold cr, loss. ring. Qed.
Lemma cr_even t : cr (- t) = cr t.
Proof. rewrite !cr_loss, loss_sym. ring. Qed.
Lemma cr_derive t : is_derive cr t (2 * ncdf t - 1).
Proof.
  apply (is_derive_ext (fun t => 2 * loss t - t - 1 / sqrt PI)); [intro; symmetry; apply cr_loss |].
  eapply filterdiff_ext_lin; [apply (is_derive_minus (fun t => 2 * loss t - t) (fun _ => 1 / sqrt PI) t);
    [apply (is_derive_minus (fun t => 2 * loss t) (fun t => t) t); [apply (is_derive_scal loss t 2), loss_derive | apply (is_derive_id t)] | apply (is_derive_const (1 / sqrt PI))] |].
  intro y. cbn. unfold minus, plus, opp, scal, zero, one, mult. cbn. unfold mult. cbn. ring.
Qed.
Lemma ncdf_half t : 0 < t -> 1 / 2 < ncdf t.
Proof. intro h. assert (e := ncdf_0). assert (i := ncdf_increasing 0 t h). lra. Qed.
Lemma cr_increasing a b : 0 <= a -> a < b -> cr a < cr b.
Proof.
  intros ha hab. apply (derive_lt cr (fun t => 2 * ncdf t - 1)); [intros; apply cr_derive | exact hab |].
  intros x hx. assert (i := ncdf_half x ltac:(lra)). lra.
Qed.
Lemma npdf_0 : npdf 0 = 1 / (sqrt 2 * sqrt PI).
Proof.
  unfold npdf, bell. replace (- (0 * 0 / 2)) with 0 by field. rewrite exp_0. rewrite sqrt_mult; [reflexivity | lra | left; apply PI_RGT_0].
Qed.
Lemma cr_0 : cr 0 = (sqrt 2 - 1) / sqrt PI.
Proof.
  assert (h2 : 0 < sqrt 2) by (apply sqrt_lt_R0; lra). assert (hp : 0 < sqrt PI) by (apply sqrt_lt_R0, PI_RGT_0).
  unfold cr. rewrite npdf_0. replace (2 * (1 / (sqrt 2 * sqrt PI))) with (sqrt 2 * sqrt 2 * (1 / (sqrt 2 * sqrt PI))) by (rewrite sqrt_sqrt by lra; reflexivity).
  field. lra.
Qed.
Lemma cr_lower t : 0 <= t -> t - 1 / sqrt PI < cr t.
Proof. intro h. rewrite cr_loss. assert (l := loss_pos (- t)). rewrite loss_sym in l. lra. Qed.
Lemma cr_upper t : 0 <= t -> cr t <= t + (sqrt 2 - 1) / sqrt PI.
Proof.
  intro h. destruct (Req_dec t 0) as [-> | ne]; [rewrite cr_0; lra |].
  assert (k : cr 0 - 0 >= cr t - t); [| rewrite cr_0 in k; lra].
  apply Rle_ge. apply Ropp_le_cancel.
  apply (derive_le (fun t => - (cr t - t)) (fun t => 2 - 2 * ncdf t)); [| lra |].
  - intros x. eapply filterdiff_ext_lin; [apply (is_derive_opp (fun t => cr t - t) x); apply (is_derive_minus cr (fun t => t) x); [apply cr_derive | apply (is_derive_id x)] |].
    intro y. cbn. unfold minus, plus, opp, scal, zero, one, mult. cbn. unfold mult. cbn. ring.
  - intros x hx. assert (r := ncdf_range x). lra.
Qed.

(** expected improvements *)
Lemma kk_refl t : kk t + kk (- t) = 2 * loss t - t + 1 / sqrt PI.
Proof.
  unfold kk, loss. replace (- t / sqrt (1 / 2)) with (- (t / sqrt (1 / 2))) by (unfold Rdiv; ring).
  rewrite Ropp_involutive, !ncdf_sym, npdf_even. ring.
Qed.
Lemma kk_neg_tail t : 1 <= t -> Rabs (kk (- t)) <= 24 / t.
Proof.
  intro h. assert (k := kk_tail t h). assert (r := kk_refl t). assert (l := loss_small t h). rewrite loss_sym in l.
  replace (kk (- t)) with (2 * (loss t - t) - (kk t - t - 1 / sqrt PI)) by lra.
  unfold Rdiv in *. apply Rabs_le. assert (k1 := Rle_abs (kk t - t - 1 * / sqrt PI)). assert (k2 := Rle_abs (- (kk t - t - 1 * / sqrt PI))). rewrite Rabs_Ropp in k2. assert (0 < / t) by (apply Rinv_0_lt_compat; lra). split; nra.
Qed.
Lemma scaled_tail (f : R -> R) (C mu sigma : R) : 0 < sigma -> 0 <= C -> (forall t, 1 <= t -> Rabs (f (- t)) <= C / t) ->
  is_lim (fun M => sigma * f ((mu - M) / sigma)) p_infty 0.
Proof.
  intros hs hC hf. apply is_lim_spec. intros [e he]. cbn [pos]. exists (mu + sigma * Rmax 1 ((C + 1) * sigma / e)). intros M hM.
  set (t := (M - mu) / sigma). replace ((mu - M) / sigma) with (- t) by (unfold t; field; lra).
  assert (eM : M = mu + sigma * t) by (unfold t; field; lra).
  assert (ht : Rmax 1 ((C + 1) * sigma / e) < t) by (apply Rmult_lt_reg_l with sigma; lra).
  assert (h1 : 1 < t) by (eapply Rle_lt_trans; [apply Rmax_l | exact ht]). assert (h2 : (C + 1) * sigma / e < t) by (eapply Rle_lt_trans; [apply Rmax_r | exact ht]).
  rewrite Rminus_0_r, Rabs_mult, (Rabs_right sigma) by lra. assert (k := hf t ltac:(lra)).
  assert (h3 : (C + 1) * sigma < e * t) by (apply Rmult_lt_compat_r with (r := e) in h2; [| exact he]; unfold Rdiv in h2; rewrite Rmult_assoc, Rinv_l in h2 by lra; lra).
  apply Rle_lt_trans with (sigma * (C / t)); [apply Rmult_le_compat_l; lra |].
  apply Rmult_lt_reg_r with t; [lra |]. unfold Rdiv. rewrite Rmult_assoc, (Rmult_assoc C), Rinv_l by lra. lra.
Qed.
Lemma ei1_int mu sigma a b : 0 < sigma -> is_RInt (fun y => 1 - cdf_at mu sigma y) a b (ei1_up mu sigma a - ei1_up mu sigma b).
Proof.
  intro hs. replace (ei1_up mu sigma a - ei1_up mu sigma b) with (minus (- ei1_up mu sigma b) (- ei1_up mu sigma a)) by (unfold minus, plus, opp; cbn; ring).
  apply (is_RInt_derive (fun y => - ei1_up mu sigma y)).
  - intros x _. replace (1 - cdf_at mu sigma x) with (opp (- (1 - cdf_at mu sigma x))) by (unfold opp; cbn; ring).
    apply (is_derive_opp (ei1_up mu sigma) x). now apply ei1_derive.
  - intros x _. apply (continuous_minus (fun _ => 1) (cdf_at mu sigma)); [apply continuous_const | now apply F_cont].
Qed.
Lemma ei2_int mvcdf mu sigma a b : bivariate_cdf mvcdf -> 0 < sigma ->
  is_RInt (fun y => 1 - cdf_at mu sigma y * cdf_at mu sigma y) a b (ei2_up mvcdf mu sigma a - ei2_up mvcdf mu sigma b).
Proof.
  intros hb hs. replace (ei2_up mvcdf mu sigma a - ei2_up mvcdf mu sigma b) with (minus (- ei2_up mvcdf mu sigma b) (- ei2_up mvcdf mu sigma a)) by (unfold minus, plus, opp; cbn; ring).
  apply (is_RInt_derive (fun y => - ei2_up mvcdf mu sigma y)).
  - intros x _. replace (1 - cdf_at mu sigma x * cdf_at mu sigma x) with (opp (- (1 - cdf_at mu sigma x * cdf_at mu sigma x))) by (unfold opp; cbn; ring).
    apply (is_derive_opp (ei2_up mvcdf mu sigma) x). now apply ei2_derive.
  - intros x _. apply (continuous_minus (fun _ => 1) (fun y => cdf_at mu sigma y * cdf_at mu sigma y)); [apply continuous_const |].
    apply (continuous_mult (cdf_at mu sigma) (cdf_at mu sigma)); now apply F_cont.
Qed.
