(** The Gaussian integral, density and distribution function. *)
From Coq Require Import Reals Lra Lia.
From Coquelicot Require Import Coquelicot.
Local Open Scope R_scope.

Definition bell (x : R) : R := exp (- (x * x / 2)).
Lemma bell_pos x : 0 < bell x. Proof. apply exp_pos. Qed.
Lemma bell_derive x : is_derive bell x (- x * bell x).
Proof. unfold bell. auto_derive; [trivial |]. unfold Rdiv. ring_simplify. f_equal. field. Qed.
Lemma bell_cont x : continuous bell x.
Proof. apply (ex_derive_continuous bell). eexists. apply bell_derive. Qed.
Lemma bell_int a b : ex_RInt bell a b.
Proof. apply (ex_RInt_continuous (V := R_CompleteNormedModule)). intros. apply bell_cont. Qed.
Definition area (t : R) : R := RInt bell 0 t.
Lemma area_derive t : is_derive area t (bell t).
Proof.
  apply (is_derive_RInt bell area 0 t); [| apply bell_cont].
  exists (mkposreal 1 Rlt_0_1). intros y _. apply (RInt_correct (V := R_CompleteNormedModule)), bell_int.
Qed.
Lemma area_0 : area 0 = 0. Proof. exact (RInt_point (V := R_CompleteNormedModule) 0 bell). Qed.

(** the auxiliary integral *)
Definition aux (t x : R) : R := exp (- (t * t * (1 + x * x) / 2)) / (1 + x * x).
Lemma one_sq x : 0 < 1 + x * x. Proof. pose proof (Rle_0_sqr x). unfold Rsqr in *. lra. Qed.
Lemma aux_derive (t x : R) : is_derive (fun u => aux u x) t (- t * exp (- (t * t * (1 + x * x) / 2))).
Proof.
  pose proof (one_sq x). unfold aux. auto_derive; [lra |]. unfold Rdiv. set (E := exp _). clearbody E. revert t E. intros t E. change R in t. field. lra.
Qed.
Lemma aux_int t a b : ex_RInt (aux t) a b.
Proof.
  apply (ex_RInt_continuous (V := R_CompleteNormedModule)). intros x _. apply (ex_derive_continuous (aux t)). unfold aux. auto_derive.
  pose proof (one_sq x). lra.
Qed.
Definition H (t : R) : R := RInt (aux t) 0 1.
Lemma H_derive (t : R) : is_derive H t (- bell t * area t).
Proof.
  assert (h : is_derive H t (RInt (fun x => Derive (fun u => aux u x) t) 0 1)).
  { apply (is_derive_RInt_param aux 0 1 t).
    - exists (mkposreal 1 Rlt_0_1). intros u _ x _. eexists. apply aux_derive.
    - intros x _. apply (continuity_2d_pt_ext (fun u v => - u * exp (- (u * u * (1 + v * v) / 2)))).
      { intros u v. symmetry. apply is_derive_unique, aux_derive. }
      apply continuity_2d_pt_mult; [apply continuity_2d_pt_opp, continuity_2d_pt_id1 |].
      apply (continuity_1d_2d_pt_comp exp (fun u v => - (u * u * (1 + v * v) / 2))); [apply derivable_continuous, derivable_exp |].
      apply continuity_2d_pt_opp. unfold Rdiv. apply continuity_2d_pt_mult; [| apply continuity_2d_pt_const].
      apply continuity_2d_pt_mult; [apply continuity_2d_pt_mult; apply continuity_2d_pt_id1 |].
      apply continuity_2d_pt_plus; [apply continuity_2d_pt_const |]. apply continuity_2d_pt_mult; apply continuity_2d_pt_id2.
    - exists (mkposreal 1 Rlt_0_1). intros u _. apply aux_int. }
  replace (- bell t * area t) with (RInt (fun x => Derive (fun u => aux u x) t) 0 1); [exact h |].
  transitivity (RInt (fun x => scal (- bell t) (scal t (bell (t * x + 0)))) 0 1).
  - apply RInt_ext. intros x _. transitivity (- t * exp (- (t * t * (1 + x * x) / 2))); [exact (is_derive_unique _ _ _ (aux_derive t x)) |]. unfold scal. cbn. unfold mult. cbn. unfold bell.
    replace (- (t * t * (1 + x * x) / 2)) with (- (t * t / 2) + - ((t * x + 0) * (t * x + 0) / 2)) by field. rewrite exp_plus. ring.
  - rewrite (RInt_scal (V := R_CompleteNormedModule)).
    + assert (e := RInt_comp_lin (V := R_CompleteNormedModule) bell t 0 0 1 (bell_int _ _)).
      replace (t * 0 + 0) with 0 in e by ring. replace (t * 1 + 0) with t in e by ring. exact (f_equal (Rmult (- bell t)) e).
    + apply (ex_RInt_comp_lin (V := R_CompleteNormedModule) bell t 0 0 1). apply bell_int.
Qed.
Lemma atan_int : RInt (fun x => / (1 + x * x)) 0 1 = PI / 4.
Proof.
  rewrite <- atan_1. replace (atan 1) with (minus (atan 1) (atan 0)) by (unfold minus, plus, opp; cbn; rewrite atan_0; ring).
  apply is_RInt_unique. apply (is_RInt_derive atan).
  - intros x _. apply is_derive_Reals. assert (h := derivable_pt_lim_atan x). replace (/ (1 + x * x)) with (/ (1 + x ^ 2)) by (f_equal; ring).  exact h.
  - intros x _. apply (ex_derive_continuous (fun x => / (1 + x * x))). auto_derive. pose proof (one_sq x). lra.
Qed.
Lemma area_sq t : area t * area t + 2 * H t = PI / 2.
Proof.
  assert (h0 : H 0 = PI / 4).
  { unfold H. rewrite <- atan_int. apply RInt_ext. intros x _. unfold aux. rewrite !Rmult_0_l. unfold Rdiv. rewrite Rmult_0_l, Ropp_0, exp_0. exact (Rmult_1_l _). }
  assert (h : forall x, is_derive (fun t => area t * area t + 2 * H t) x 0).
  { intro x. eapply filterdiff_ext_lin; [apply (is_derive_plus (fun t => area t * area t) (fun t => 2 * H t) x) |].
    - apply (is_derive_mult area area x); [apply area_derive | apply area_derive | intros; apply Rmult_comm].
    - apply (is_derive_scal H x 2). apply H_derive.
    - intro y. cbn. unfold plus, scal, mult. cbn. unfold mult. cbn. ring. }
  assert (e : (fun t => area t * area t + 2 * H t) t = (fun t => area t * area t + 2 * H t) 0).
  { destruct (MVT_gen (fun t => area t * area t + 2 * H t) 0 t (fun _ => 0)) as [c [_ hc]].
    - intros x _. apply h.
    - intros x _. apply derivable_continuous_pt. exists 0. apply is_derive_Reals. apply h.
    - cbv beta in *. lra. }
  cbv beta in e. rewrite e, area_0, h0. field.
Qed.
Lemma H_bounds t : 0 <= H t <= bell t.
Proof.
  assert (hb : forall x, 0 <= aux t x <= bell t).
  { intro x. pose proof (one_sq x). unfold aux, bell. pose proof (Rle_0_sqr x). pose proof (Rle_0_sqr t). unfold Rsqr in *.
    assert (e1 : exp (- (t * t * (1 + x * x) / 2)) <= exp (- (t * t / 2))).
    { destruct (Req_dec (t * t * (x * x)) 0) as [e | e]; [right; f_equal; nra |]. left. apply exp_increasing. nra. }
    pose proof (exp_pos (- (t * t * (1 + x * x) / 2))). split.
    - apply Rmult_le_pos; [lra | left; apply Rinv_0_lt_compat; lra].
    - apply Rmult_le_reg_r with (1 + x * x); [lra |]. unfold Rdiv at 1. rewrite Rmult_assoc, Rinv_l by lra. nra. }
  assert (hc : forall c : R, RInt (fun _ : R => c) 0 1 = c).
  { intro c. assert (e := RInt_const (V := R_CompleteNormedModule) 0 1 c). rewrite Rminus_0_r in e. transitivity (1 * c); [exact e | exact (Rmult_1_l c)]. }
  unfold H. split.
  - apply Rle_trans with (RInt (fun _ : R => 0) 0 1); [rewrite hc; lra |].
    apply RInt_le; [lra | apply ex_RInt_const | apply aux_int | intros; apply hb].
  - apply Rle_trans with (RInt (fun _ : R => bell t) 0 1); [| rewrite hc; lra].
    apply RInt_le; [lra | apply aux_int | apply ex_RInt_const | intros; apply hb].
Qed.

(** * density and distribution function of the standard normal law *)
Definition npdf (x : R) : R := bell x / sqrt (2 * PI).
Definition ncdf (x : R) : R := 1 / 2 + area x / sqrt (2 * PI).
Lemma s2pi : 0 < sqrt (2 * PI).
Proof. apply sqrt_lt_R0. pose proof PI_RGT_0. lra. Qed.
Lemma s2pi_sq : sqrt (2 * PI) * sqrt (2 * PI) = 2 * PI.
Proof. apply sqrt_sqrt. pose proof PI_RGT_0. lra. Qed.
Lemma npdf_pos x : 0 < npdf x.
Proof. apply Rmult_lt_0_compat; [apply bell_pos | apply Rinv_0_lt_compat, s2pi]. Qed.
Lemma npdf_even x : npdf (- x) = npdf x.
Proof. unfold npdf, bell. now replace (- x * - x) with (x * x) by ring. Qed.
Lemma npdf_derive x : is_derive npdf x (- x * npdf x).
Proof.
  unfold npdf, Rdiv. replace (- x * (bell x * / sqrt (2 * PI))) with (scal (/ sqrt (2 * PI)) (- x * bell x)) by (unfold scal; cbn; unfold mult; cbn; ring).
  apply (is_derive_ext (fun y => / sqrt (2 * PI) * bell y)); [intro y; apply Rmult_comm |]. apply (is_derive_scal bell x). apply bell_derive.
Qed.
Lemma ncdf_derive x : is_derive ncdf x (npdf x).
Proof.
  unfold ncdf, npdf, Rdiv. replace (bell x * / sqrt (2 * PI)) with (plus 0 (scal (/ sqrt (2 * PI)) (bell x))) by (unfold plus, scal; cbn; unfold mult; cbn; ring).
  apply (is_derive_plus (fun _ => 1 * / 2) (fun y => area y * / sqrt (2 * PI))); [apply (is_derive_const (1 * / 2)) |].
  apply (is_derive_ext (fun y => / sqrt (2 * PI) * area y)); [intro y; apply Rmult_comm |]. apply (is_derive_scal area x). apply area_derive.
Qed.
(** a function with derivative [f'] that is positive is increasing, etc. *)
Lemma derive_le (f f' : R -> R) a b : (forall x, is_derive f x (f' x)) -> a <= b -> (forall x, a <= x <= b -> 0 <= f' x) -> f a <= f b.
Proof.
  intros hd hab hp. destruct (MVT_gen f a b f') as [c [hc e]].
  - intros x _. apply hd.
  - intros x _. apply derivable_continuous_pt. exists (f' x). apply is_derive_Reals, hd.
  - rewrite Rmin_left, Rmax_right in hc by lra. assert (0 <= f' c * (b - a)) by (apply Rmult_le_pos; [now apply hp | lra]). lra.
Qed.
Lemma derive_lt (f f' : R -> R) a b : (forall x, is_derive f x (f' x)) -> a < b -> (forall x, a < x < b -> 0 < f' x) -> f a < f b.
Proof.
  intros hd hab hp. assert (D : forall x, derivable_pt_lim f x (f' x)) by (intro x; apply is_derive_Reals, hd).
  destruct (MVT_cor2 f f' a b hab) as [c [e hc]]; [intros; apply D |]. assert (0 < f' c * (b - a)) by (apply Rmult_lt_0_compat; [now apply hp | lra]). lra.
Qed.
Lemma derive_const (f : R -> R) a b : (forall x, is_derive f x 0) -> f a = f b.
Proof.
  intro hd. destruct (Rle_dec a b).
  - apply Rle_antisym; [now apply (derive_le f (fun _ => 0)); [| | intros; lra] |].
    assert (h := derive_le (fun x => - f x) (fun _ => 0) a b). cbv beta in h. assert (- f a <= - f b); [| lra]. apply h; [| assumption | intros; lra].
    intro x. replace 0 with (opp 0) by (unfold opp; cbn; ring). apply (is_derive_opp f x 0 (hd x)).
  - apply Rle_antisym; [| now apply (derive_le f (fun _ => 0)); [| lra | intros; lra]].
    assert (h := derive_le (fun x => - f x) (fun _ => 0) b a). cbv beta in h. assert (- f b <= - f a); [| lra]. apply h; [| lra | intros; lra].
    intro x. replace 0 with (opp 0) by (unfold opp; cbn; ring). apply (is_derive_opp f x 0 (hd x)).
Qed.
Lemma ncdf_increasing a b : a < b -> ncdf a < ncdf b.
Proof. intro h. apply (derive_lt ncdf npdf); [apply ncdf_derive | exact h | intros; apply npdf_pos]. Qed.
Lemma ncdf_0 : ncdf 0 = 1 / 2.
Proof. unfold ncdf. rewrite area_0. unfold Rdiv. ring. Qed.
Lemma is_derive_neg (f : R -> R) x l : is_derive f (- x) l -> is_derive (fun y => f (- y)) x (- l).
Proof.
  intro h. replace (- l) with (scal (-1) l) by (unfold scal; cbn; unfold mult; cbn; ring).
  apply (is_derive_comp f (fun y => - y) x l (-1) h). auto_derive; [trivial | ring].
Qed.
Lemma ncdf_sym x : ncdf (- x) = 1 - ncdf x.
Proof.
  assert (h : (fun y => ncdf y + ncdf (- y)) x = (fun y => ncdf y + ncdf (- y)) 0).
  { apply (derive_const (fun y => ncdf y + ncdf (- y))). intro y. replace 0 with (plus (npdf y) (- npdf (- y))) by (unfold plus; cbn; rewrite npdf_even; ring).
    apply (is_derive_plus ncdf (fun y => ncdf (- y)) y); [apply ncdf_derive |]. apply is_derive_neg, ncdf_derive. }
  cbv beta in h. rewrite Ropp_0, ncdf_0 in h. lra.
Qed.
Lemma area_nonneg t : 0 <= t -> 0 <= area t.
Proof. intro h. rewrite <- area_0. apply (derive_le area bell); [apply area_derive | exact h | intros; left; apply bell_pos]. Qed.
(** the tail: Gaussian integral *)
Lemma tail_sq t : 0 <= t -> let r := area t / sqrt (2 * PI) in r * r = / 4 - H t / PI.
Proof.
  intros h r. unfold r, Rdiv. pose proof PI_RGT_0. pose proof s2pi. pose proof (area_sq t).
  replace (area t * / sqrt (2 * PI) * (area t * / sqrt (2 * PI))) with (area t * area t / (sqrt (2 * PI) * sqrt (2 * PI))) by (field; lra).
  rewrite s2pi_sq. replace (area t * area t) with (PI / 2 - 2 * H t) by lra. field. lra.
Qed.
Lemma ncdf_upper t : 0 <= t -> 1 - 2 * bell t <= ncdf t <= 1.
Proof.
  intro h. assert (e := tail_sq t h). cbv zeta in e. unfold ncdf. set (r := area t / sqrt (2 * PI)) in *.
  assert (hr : 0 <= r) by (apply Rmult_le_pos; [now apply area_nonneg | left; apply Rinv_0_lt_compat, s2pi]).
  destruct (H_bounds t) as [b1 b2]. pose proof PI_RGT_0. pose proof (bell_pos t).
  assert (hpi : 2 < PI) by (pose proof PI2_1; lra).
  assert (q : 0 <= H t / PI <= bell t / 2).
  { split; [apply Rmult_le_pos; [lra | left; now apply Rinv_0_lt_compat] |]. apply Rmult_le_reg_r with PI; [lra |]. unfold Rdiv. rewrite Rmult_assoc, Rinv_l by lra. nra. }
  split; [| nra]. assert (hb : bell t <= 1). { unfold bell. rewrite <- exp_0. destruct (Req_dec (t * t) 0) as [e0 | e0]; [rewrite e0; unfold Rdiv; rewrite Rmult_0_l, Ropp_0; lra |]. left. apply exp_increasing. pose proof (Rle_0_sqr t). unfold Rsqr in *. lra. }
  nra.
Qed.
Lemma bell_small t : 0 <= t -> bell t * (1 + t * t / 2) <= 1.
Proof.
  intro h. unfold bell. rewrite exp_Ropp. assert (e : 1 + t * t / 2 <= exp (t * t / 2)).
  { destruct (Req_dec (t * t / 2) 0) as [-> | hne]; [rewrite exp_0; lra |]. left. apply exp_ineq1; exact hne. }
  pose proof (exp_pos (t * t / 2)). apply Rmult_le_reg_l with (exp (t * t / 2)); [assumption |]. rewrite <- Rmult_assoc, Rinv_r by lra. lra.
Qed.
Lemma ncdf_range x : 0 < ncdf x < 1.
Proof.
  assert (G : forall t, 0 <= t -> 0 < ncdf t < 1).
  { intros t h. split; [apply Rlt_le_trans with (ncdf 0); [rewrite ncdf_0; lra |]; destruct h as [h | <-]; [left; now apply ncdf_increasing | lra] |].
    apply Rlt_le_trans with (ncdf (t + 1)); [apply ncdf_increasing; lra | apply ncdf_upper; lra]. }
  destruct (Rle_dec 0 x) as [h | h]; [now apply G |]. assert (g := G (- x) ltac:(lra)). rewrite ncdf_sym in g. lra.
Qed.
Lemma ncdf_lim_p : is_lim ncdf p_infty 1.
Proof.
  apply is_lim_spec. intro eps. destruct eps as [e he]. cbn. exists (Rmax 1 (4 / e)). intros x hx.
  assert (h1 : 1 < x) by (eapply Rle_lt_trans; [apply Rmax_l | exact hx]). assert (h2 : 4 / e < x) by (eapply Rle_lt_trans; [apply Rmax_r | exact hx]).
  destruct (ncdf_upper x ltac:(lra)) as [a b]. assert (c := bell_small x ltac:(lra)). pose proof (bell_pos x).
  assert (h3 : 4 < e * x) by (apply Rmult_lt_compat_r with (r := e) in h2; [| exact he]; unfold Rdiv in h2; rewrite Rmult_assoc, Rinv_l in h2 by lra; lra).
  assert (h4 : bell x * x <= 2) by nra. assert (h5 : 2 * bell x < e) by nra.
  apply Rabs_def1; lra.
Qed.
Lemma ncdf_lim_m : is_lim ncdf m_infty 0.
Proof.
  apply is_lim_ext with (fun x => 1 - ncdf (- x)); [intro y; rewrite ncdf_sym; ring |].
  replace (Finite 0) with (Rbar_minus (Finite 1) (Finite 1)) by (cbn; f_equal; ring).
  apply (is_lim_minus (fun _ => 1) (fun y => ncdf (- y)) m_infty 1 1); [apply is_lim_const | | reflexivity].
  apply (is_lim_comp ncdf (fun y => - y) m_infty 1 p_infty); [apply ncdf_lim_p | | exists 0; intros; discriminate].
  apply is_lim_spec. intro M. exists (- M). intros x hx. lra.
Qed.
(** Mills' inequality and the loss function *)
Definition loss (t : R) : R := t * ncdf t + npdf t.
Lemma loss_derive t : is_derive loss t (ncdf t).
Proof.
  unfold loss. eapply filterdiff_ext_lin; [apply (is_derive_plus (fun t => t * ncdf t) npdf t); [apply (is_derive_mult (fun t => t) ncdf t) | apply npdf_derive] |].
  - apply (is_derive_id t).
  - apply ncdf_derive.
  - intros; apply Rmult_comm.
  - intro y. cbn. unfold plus, scal, mult, one. cbn. unfold mult. cbn. ring.
Qed.
Lemma loss_sym t : loss (- t) = loss t - t.
Proof. unfold loss. rewrite ncdf_sym, npdf_even. ring. Qed.
Lemma npdf_small t : 1 <= t -> npdf t * t <= 2 / t.
Proof.
  intro h. assert (c := bell_small t ltac:(lra)). pose proof (bell_pos t). unfold npdf. assert (hs : 1 <= sqrt (2 * PI)).
  { rewrite <- sqrt_1. apply sqrt_le_1_alt. pose proof PI2_1. lra. }
  apply Rmult_le_reg_r with t; [lra |]. unfold Rdiv at 2. rewrite (Rmult_assoc 2), Rinv_l by lra.
  assert (hi : 0 < / sqrt (2 * PI) <= 1) by (split; [apply Rinv_0_lt_compat; lra | rewrite <- Rinv_1; apply Rinv_le_contravar; lra]).
  unfold Rdiv. assert (bell t * (t * t) <= 2) by nra. assert (0 <= bell t * (t * t)) by nra. nra.
Qed.
(** loss (-t) tends to 0: t (1 - ncdf t) is at most t * 2 bell t *)
Lemma loss_small t : 1 <= t -> 0 <= loss (- t) <= 6 / t.
Proof.
  intro h. assert (hp : forall M, t <= M -> loss (- M) <= loss (- t)).
  { intros M hM. apply (derive_le loss ncdf); [apply loss_derive | lra | intros; left; apply ncdf_range]. }
  assert (up : forall M, 1 <= M -> - (4 / M) <= loss (- M) <= 6 / M).
  { intros M hM. unfold loss. rewrite ncdf_sym, npdf_even. destruct (ncdf_upper M ltac:(lra)) as [a b]. assert (c := bell_small M ltac:(lra)).
    pose proof (bell_pos M). pose proof (npdf_pos M). assert (n := npdf_small M hM).
    assert (k : bell M * M * M <= 2) by nra. assert (k2 : bell M * M <= 2 / M) by (apply Rmult_le_reg_r with M; [lra |]; unfold Rdiv; rewrite (Rmult_assoc 2), Rinv_l by lra; lra).
    assert (k3 : npdf M <= 2 / M) by nra.
    assert (0 < / M) by (apply Rinv_0_lt_compat; lra). unfold Rdiv in *. split; nra. }
  split; [| now apply up].
  destruct (Rle_dec 0 (loss (- t))) as [p | p]; [exact p |]. exfalso. apply Rnot_le_lt in p. set (e := - loss (- t)) in *. assert (he : 0 < e) by (unfold e; lra).
  set (M := Rmax t (8 / e)). assert (h1 : t <= M) by apply Rmax_l. assert (h2 : 8 / e <= M) by apply Rmax_r.
  assert (h3 := hp M h1). destruct (up M ltac:(lra)) as [h4 _].
  assert (h5 : 4 / M <= e / 2). { apply Rmult_le_reg_r with M; [lra |]. unfold Rdiv at 1. rewrite (Rmult_assoc 4), Rinv_l by lra.
    apply Rmult_le_compat_r with (r := e) in h2; [| lra]. unfold Rdiv in h2. rewrite Rmult_assoc, Rinv_l in h2 by lra. lra. }
  unfold e in *. lra.
Qed.
Lemma loss_pos t : 0 < loss t.
Proof.
  assert (G : forall t, t <= -1 -> 0 <= loss t) by (intros u hu; replace u with (- - u) by ring; apply loss_small; lra).
  set (u := Rmin (t - 1) (-1)). apply Rle_lt_trans with (loss u); [apply G, Rmin_r |].
  apply (derive_lt loss ncdf); [apply loss_derive | | intros; apply ncdf_range]. assert (u <= t - 1) by apply Rmin_l. lra.
Qed.
Lemma mills t : t * (1 - ncdf t) < npdf t.
Proof. assert (h := loss_pos (- t)). rewrite loss_sym in h. unfold loss in h. lra. Qed.
