(** Lemmas on the level search, the restart path and the scale tuning of SmcModel. *)
From Coq Require Import List Arith ZArith Reals Bool Lia Lra Psatz.
From Verif Require Import ConfigModel FlModel PriorModel PriorProofs SelectProofs SmcModel SmcProofs.
Import ListNotations.
Local Open Scope R_scope.

(** t lies strictly between a and b, or is b *)
Definition towards (a b t : R) : Prop := (a < t <= b) \/ (b <= t < a).
Definition between (a b t : R) : Prop := Rmin a b <= t <= Rmax a b.
Lemma towards_trans a b t u : towards a b t -> towards t b u -> towards a b u.
Proof. unfold towards; lra. Qed.

Lemma close_spec p p0 : close_to p p0 = true <-> exists v, p = Fin v /\ Rabs (v - p0) < 1 / 20.
Proof.
  unfold close_to. destruct p as [v| | |]; cbn [fl_sub fl_opp fl_add fl_lt].
  - destruct (Rlt_dec (Rabs (v + - p0)) (1 / 20)) as [H|H]; split; auto.
    + intros _. exists v. split; auto.
    + discriminate.
    + intros (w & E & G). injection E as <-. contradiction.
  - split; [discriminate|intros (w & E & _); discriminate].
  - split; [discriminate|intros (w & E & _); discriminate].
  - split; [discriminate|intros (w & E & _); discriminate].
Qed.
Lemma bisect_sound fuel pv p0 : forall low high t, low <> high -> bisect fuel pv p0 low high = Some t ->
  (low < t < high \/ high < t < low) /\ exists v, pv t = Fin v /\ Rabs (v - p0) < 1 / 20.
Proof.
  induction fuel as [|fuel IH]; intros low high t Hne; simpl. discriminate.
  destruct (close_to (pv ((high + low) / 2)) p0) eqn:C.
  - intros E; injection E as <-. apply close_spec in C. split; auto. lra.
  - destruct (fl_lt (pv ((high + low) / 2)) (Fin p0)); intros E; apply IH in E; try lra; destruct E as [E1 E2]; split; auto; lra.
Qed.
Lemma next_p0_sound fuel pv cur target p0 t : cur <> target -> next_param_p0 fuel pv cur target p0 = Some t ->
  towards cur target t /\ ((t = target /\ fl_le (Fin p0) (pv t) = true) \/ exists v, pv t = Fin v /\ Rabs (v - p0) < 1 / 20).
Proof.
  intros Hne. unfold next_param_p0. destruct (fl_le (Fin p0) (pv target)) eqn:E.
  - intros G; injection G as <-. split; auto. unfold towards. lra.
  - intros G; apply bisect_sound in G as [A B]; auto. split; auto. unfold towards. lra.
Qed.
Lemma bisect_loops pv p0 : (forall t v, pv t = Fin v -> 1 / 20 <= Rabs (v - p0)) -> forall fuel low high, bisect fuel pv p0 low high = None.
Proof.
  intros H. induction fuel as [|fuel IH]; intros low high; simpl; auto.
  destruct (close_to (pv ((high + low) / 2)) p0) eqn:C.
  - apply close_spec in C as (v & E & G). apply H in E. lra.
  - destruct (fl_lt _ _); auto.
Qed.
(** only the levels between the two ends matter *)
Lemma bisect_loops_between pv p0 : forall fuel low high, low <> high ->
  (forall t v, (low < t < high \/ high < t < low) -> pv t = Fin v -> 1 / 20 <= Rabs (v - p0)) -> bisect fuel pv p0 low high = None.
Proof.
  induction fuel as [|fuel IH]; intros low high Hne H; simpl; auto.
  destruct (close_to (pv ((high + low) / 2)) p0) eqn:C.
  - apply close_spec in C as (v & E & G). apply H in E; lra.
  - destruct (fl_lt _ _); apply IH; try lra; intros t v Ht; apply H; lra.
Qed.

(** termination for continuous families *)
Lemma bisect_terminates (g : R -> R) (pv : R -> fl) p0 a b : a <= b ->
  (forall t, a <= t <= b -> pv t = Fin (g t)) -> (forall t, a <= t <= b -> continuity_pt g t) ->
  forall low high, a <= low <= b -> a <= high <= b -> p0 <= g low -> g high < p0 ->
  exists fuel t, bisect fuel pv p0 low high = Some t.
Proof.
  intros Hab Hpv Hc.
  assert (U : uniform_continuity g (fun c => a <= c <= b)).
  { apply Heine. apply compact_P3. exact Hc. }
  destruct (U (mkposreal (1 / 20) ltac:(lra))) as [d Hd]. simpl in Hd.
  assert (Main : forall n low high, a <= low <= b -> a <= high <= b -> p0 <= g low -> g high < p0 ->
            Rabs (high - low) < d * 2 ^ n -> exists fuel t, bisect fuel pv p0 low high = Some t).
  { induction n as [|n IH]; intros low high Hl Hh Gl Gh HW.
    - exists 1%nat. simpl. set (m := (high + low) / 2) in *.
      assert (Hm : a <= m <= b) by (unfold m; lra).
      simpl in HW. rewrite Rmult_1_r in HW.
      assert (D1 : Rabs (m - low) < d). { unfold m. replace ((high + low) / 2 - low) with ((high - low) * / 2) by field. rewrite Rabs_mult, (Rabs_pos_eq (/ 2)) by lra. pose proof (Rabs_pos (high - low)). lra. }
      assert (D2 : Rabs (m - high) < d). { unfold m. replace ((high + low) / 2 - high) with (- (high - low) * / 2) by field. rewrite Rabs_mult, Rabs_Ropp, (Rabs_pos_eq (/ 2)) by lra. pose proof (Rabs_pos (high - low)). lra. }
      assert (G1 := Hd m low Hm Hl D1). assert (G2 := Hd m high Hm Hh D2). apply Rabs_def2 in G1. apply Rabs_def2 in G2.
      assert (C : close_to (pv m) p0 = true).
      { apply close_spec. exists (g m). split; auto. apply Rabs_def1; lra. }
      rewrite C. eauto.
    - set (m := (high + low) / 2). assert (Hm : a <= m <= b) by (unfold m; lra).
      assert (HH : Rabs (m - low) < d * 2 ^ n /\ Rabs (high - m) < d * 2 ^ n).
      { assert (E1 : m - low = (high - low) * / 2) by (unfold m; field). assert (E2 : high - m = (high - low) * / 2) by (unfold m; field).
        rewrite E1, E2, Rabs_mult, (Rabs_pos_eq (/ 2)) by lra. simpl in HW. lra. }
      destruct (close_to (pv m) p0) eqn:C.
      + exists 1%nat. exists m. simpl. fold m. rewrite C. reflexivity.
      + destruct (Rlt_le_dec (g m) p0) as [L|L].
        * destruct (IH low m) as (f & t & E); auto; [tauto|]. exists (S f), t. simpl. fold m. rewrite C, (Hpv m Hm). cbn [fl_lt]. destruct Rlt_dec; [exact E|contradiction].
        * destruct (IH m high) as (f & t & E); auto; [tauto|]. exists (S f), t. simpl. fold m. rewrite C, (Hpv m Hm). cbn [fl_lt]. destruct Rlt_dec; [lra|exact E]. }
  intros low high Hl Hh Gl Gh.
  destruct (Pow_x_infinity 2 ltac:(rewrite Rabs_pos_eq; lra) ((Rabs (high - low) + 1) / d)) as [N HN].
  specialize (HN N (le_n N)). rewrite Rabs_pos_eq in HN by (apply pow_le; lra).
  apply (Main N); auto. destruct d as [d Hd']. simpl in *.
  assert (E : Rabs (high - low) + 1 <= 2 ^ N * d).
  { replace (Rabs (high - low) + 1) with ((Rabs (high - low) + 1) / d * d) by (field; lra). apply Rmult_le_compat_r; lra. }
  lra.
Qed.

(** the p value *)
Section PV.
Context {X : Type}.
Lemma p_value_fin (g : R -> X -> R) (s : particles X) new cur : px s <> [] ->
  p_value X (fun t x => Fin (g t x)) s new cur = Fin (sum_list (map (fun x => exp (g new x - g cur x)) (px s)) / INR (length (px s))).
Proof.
  intros H. unfold p_value. cbn [fl_sub fl_opp fl_add fl_exp].
  rewrite <- (map_map (fun x => exp (g new x + - g cur x)) Fin), fl_sum_fin. cbn [fl_div]. unfold reqb.
  destruct (Req_EM_T (INR (length (px s))) 0) as [E|E]; auto. exfalso. revert E. apply not_0_INR. destruct (px s); simpl; [congruence|lia].
Qed.
Lemma p_value_cur (g : R -> X -> R) (s : particles X) cur : px s <> [] ->
  sum_list (map (fun x => exp (g cur x - g cur x)) (px s)) / INR (length (px s)) = 1.
Proof.
  intros H. rewrite (map_ext _ (fun _ => 1)) by (intros; rewrite Rminus_diag_eq, exp_0; auto). rewrite sum_const. field.
  apply not_0_INR. destruct (px s); simpl; [congruence|lia].
Qed.
Lemma sum_continuous (g : R -> X -> R) l t : (forall x, In x l -> continuity_pt (fun t => g t x) t) ->
  continuity_pt (fun t => sum_list (map (g t) l)) t.
Proof.
  induction l as [|x l IH]; intros H.
  - apply continuity_pt_const. intros u v. reflexivity.
  - apply (continuity_pt_locally_ext (fun t => g t x + sum_list (map (g t) l)) _ 1).
    { lra. } { intros u _. simpl map. rewrite sum_list_cons. reflexivity. }
    apply (continuity_pt_plus (fun t => g t x) (fun t => sum_list (map (g t) l))). apply H; simpl; auto. apply IH; intros; apply H; simpl; auto.
Qed.
Lemma p_continuous (g : R -> X -> R) (s : particles X) cur t : (forall x, In x (px s) -> continuity_pt (fun t => g t x) t) ->
  continuity_pt (fun t => sum_list (map (fun x => exp (g t x - g cur x)) (px s)) / INR (length (px s))) t.
Proof.
  intros H. unfold Rdiv.
  apply (continuity_pt_mult (fun t => sum_list (map (fun x => exp (g t x - g cur x)) (px s))) (fun _ => / INR (length (px s)))).
  2: apply continuity_pt_const; intros u v; reflexivity.
  apply (sum_continuous (fun t x => exp (g t x - g cur x))). intros x Hx.
  apply (continuity_pt_comp (fun t => g t x - g cur x) exp). 2: apply derivable_continuous_pt, derivable_pt_exp.
  apply (continuity_pt_minus (fun t => g t x) (fun _ => g cur x)). auto. apply continuity_pt_const; intros u v; reflexivity.
Qed.
Lemma p_value_nan logpdf (s : particles X) new cur x : In x (px s) -> logpdf new x = NInf -> logpdf cur x = NInf ->
  p_value X logpdf s new cur = NaN.
Proof.
  intros Hx H1 H2. unfold p_value. assert (G : fl_sum (map (fun x => fl_exp (fl_sub (logpdf new x) (logpdf cur x))) (px s)) = NaN).
  { unfold fl_sum. generalize (Fin 0). induction (px s) as [|y l IH]; intros a. destruct Hx. simpl map. cbn [fold_left].
    destruct Hx as [->|Hx]; auto. rewrite H1, H2. cbn [fl_sub fl_opp fl_add fl_exp].
    assert (N : fl_add a NaN = NaN) by (destruct a; reflexivity). rewrite N. clear. induction (map _ l) as [|b t IH]; auto. }
  rewrite G. reflexivity.
Qed.

(** ** the path of a restart *)
(** consecutive elements of a :: l satisfy rel *)
Fixpoint chain (rel : R -> R -> Prop) (a : R) (l : list R) : Prop := match l with [] => True | b :: l => rel a b /\ chain rel b l end.
Lemma restart_chain fuel sch logpdf draws mv next target (rel : R -> R -> Prop) :
  (forall s cur t, cur <> target -> next s cur = Some t -> rel cur t) ->
  forall cur k s path r s', restart_loop X fuel sch logpdf draws mv next target cur k s path = Some (r, s') ->
  exists steps, r = path ++ steps /\ chain rel cur steps.
Proof.
  intros HN. induction fuel as [|fuel IH]; intros cur k s path r s'; simpl; unfold reqb; destruct (Req_EM_T cur target) as [E|E]; try discriminate.
  1,2: intros G; injection G as <- <-; exists []; rewrite app_nil_r; simpl; auto.
  destruct (next s cur) as [t|] eqn:EN; [|discriminate]. destruct (step X sch logpdf (draws k) (mv k) t s) as [s1|]; [|discriminate].
  intros G. apply IH in G as (steps & -> & HC). exists (t :: steps). rewrite <- app_assoc. split; auto. simpl. eauto.
Qed.
Lemma next_ess_between brentq d cur target : (forall lo hi, lo <= hi -> lo <= brentq lo hi <= hi) ->
  between cur target (next_param_ess brentq d cur target).
Proof.
  intros HB. unfold next_param_ess, between. cbv zeta. destruct (fl_lt (Fin 0) (d target)). split. apply Rmin_r. apply Rmax_r.
  destruct (fl_lt _ _). split. apply Rmin_r. apply Rmax_r. rewrite (Rmin_comm cur), (Rmax_comm cur). apply HB.
  apply Rle_trans with target. apply Rmin_l. apply Rmax_l.
Qed.
End PV.

(** ** scale tuning *)
(** s is scale s0 after [up] increases and [down] decreases *)
Lemma tune_spec lower upper factor rmin rmax rates : factor <> 0 -> forall fuel k s0 s n,
  tune fuel lower upper factor rmin rmax rates k s0 = Some (s, n) ->
  exists up down, s = s0 * factor ^ up / factor ^ down /\ (up + down <= fuel)%nat /\
    ((n = k + up + down /\ fuel = up + down)%nat \/ (n = S (k + up + down) /\ (up + down < fuel)%nat /\ rmin <= rates (k + up + down)%nat <= rmax /\ lower <= s <= upper)).
Proof.
  intros HF. induction fuel as [|fuel IH]; intros k s0 s n; simpl.
  - intros E; injection E as <- <-. exists 0%nat, 0%nat. simpl. split; [field|]. split; auto. left; lia.
  - unfold rltb. destruct (Rlt_dec upper s0) as [A|A]; simpl; [discriminate|]. destruct (Rlt_dec s0 lower) as [B|B]; simpl; [discriminate|].
    destruct (Rlt_dec (rates k) rmin) as [C|C].
    + intros E. apply IH in E as (up & down & E & L & H). exists up, (S down). split. rewrite E. simpl. field. split; [apply pow_nonzero; auto|auto].
      split; [lia|]. replace (k + up + S down)%nat with (S k + up + down)%nat by lia. destruct H as [H|H]; [left; lia|right]. split; [lia|]. split; [lia|]. tauto.
    + destruct (Rlt_dec rmax (rates k)) as [D|D].
      * intros E. apply IH in E as (up & down & E & L & H). exists (S up), down. split. rewrite E. simpl. field. apply pow_nonzero; auto.
        split; [lia|]. replace (k + S up + down)%nat with (S k + up + down)%nat by lia. destruct H as [H|H]; [left; lia|right]. split; [lia|]. split; [lia|]. tauto.
      * intros E; injection E as <- <-. exists 0%nat, 0%nat. simpl. split; [field|]. split; [lia|]. right. rewrite !Nat.add_0_r. split; auto. split; [lia|]. lra.
Qed.
Lemma tune_low lower upper factor rmin rmax rates : (forall k, rates k < rmin) -> 1 < factor -> forall fuel m k s0,
  s0 / factor ^ m < lower -> (m < fuel)%nat -> tune fuel lower upper factor rmin rmax rates k s0 = None.
Proof.
  intros HR HF. induction fuel as [|fuel IH]; intros m k s0 HM HL. lia.
  simpl. unfold rltb. destruct (Rlt_dec upper s0); auto. destruct (Rlt_dec s0 lower) as [B|B]; auto. simpl.
  destruct (Rlt_dec (rates k) rmin) as [C|C]; [|exfalso; apply C, HR].
  destruct m as [|m]. simpl in HM. lra. apply (IH m); [|lia]. replace (s0 / factor / factor ^ m) with (s0 / factor ^ S m); auto. simpl. field. split; try (apply pow_nonzero); lra.
Qed.
Lemma tune_safe lower upper factor rmin rmax rates : 1 < factor -> 0 <= lower -> forall fuel k s0,
  lower * factor ^ fuel <= s0 -> s0 * factor ^ fuel <= upper -> tune fuel lower upper factor rmin rmax rates k s0 <> None.
Proof.
  intros HF HL. induction fuel as [|fuel IH]; intros k s0 H1 H2; simpl. discriminate.
  assert (P1 : 1 <= factor ^ fuel) by (apply pow_R1_Rle; lra). simpl in H1, H2.
  assert (S0 : 0 <= s0). { apply Rle_trans with (lower * (factor * factor ^ fuel)); auto. apply Rmult_le_pos; auto. apply Rmult_le_pos; lra. }
  assert (Q1 : lower * factor ^ fuel <= lower * (factor * factor ^ fuel)) by (apply Rmult_le_compat_l; auto; nra).
  assert (Q0 : lower <= lower * factor ^ fuel) by (rewrite <- (Rmult_1_r lower) at 1; apply Rmult_le_compat_l; auto).
  assert (Q2 : s0 * factor ^ fuel <= s0 * (factor * factor ^ fuel)) by (apply Rmult_le_compat_l; auto; nra).
  assert (Q3 : s0 <= s0 * factor ^ fuel) by (rewrite <- (Rmult_1_r s0) at 1; apply Rmult_le_compat_l; auto).
  unfold rltb. destruct (Rlt_dec upper s0); [lra|]. destruct (Rlt_dec s0 lower); [lra|]. simpl.
  destruct (Rlt_dec (rates k) rmin).
  - apply IH.
    + apply Rmult_le_reg_r with factor; [lra|]. replace (s0 / factor * factor) with s0 by (field; lra). lra.
    + apply Rle_trans with (s0 * factor ^ fuel); [|lra]. apply Rmult_le_compat_r; [lra|]. apply Rmult_le_reg_r with factor; [lra|]. replace (s0 / factor * factor) with s0 by (field; lra). nra.
  - destruct (Rlt_dec rmax (rates k)); [|discriminate]. apply IH.
    + apply Rle_trans with s0; [lra|]. nra.
    + lra.
Qed.

(** ** residual resampling: null weights and expected counts *)
Lemma zip2_sum_res c p : 0 <= c -> Forall (fun v => 0 <= v) p ->
  sum_list (zip2 (fun v k => Rmax (c * v - INR k) 0) p (map (fun v => floor_nat (c * v)) p)) = c * sum_list p - INR (list_sum (map (fun v => floor_nat (c * v)) p)).
Proof.
  intros Hc. induction 1 as [|a l Ha _ IH]. unfold sum_list; simpl; ring.
  simpl map. simpl zip2. simpl list_sum. rewrite !sum_list_cons, IH, plus_INR.
  destruct (floor_nat_spec (c * a)) as [F _]. apply Rmult_le_pos; auto. rewrite Rmax_left by lra. ring.
Qed.
(** the probabilities of the random part *)
Definition residual_pv (n : nat) (p : list R) : list R :=
  let res := zip2 (fun v c => Rmax (INR n * v - INR c) 0) p (map (fun v => floor_nat (INR n * v)) p) in
  if reqb (sum_list res) 0 then map (fun _ => 1 / INR (length res)) res else map (fun v => v / sum_list res) res.
Lemma residual_pv_sum n p : p <> [] -> sum_list (residual_pv n p) = 1.
Proof.
  intros Hp. unfold residual_pv. cbv zeta. set (res := zip2 _ _ _).
  assert (L : length res = length p) by (apply zip2_length; now rewrite map_length).
  unfold reqb. destruct (Req_EM_T (sum_list res) 0) as [E|E].
  - rewrite sum_const, L. assert (0 < INR (length p)) by (apply lt_0_INR; destruct p; simpl; congruence || lia). field. lra.
  - rewrite (map_ext _ (fun v => / sum_list res * v)) by (intros; unfold Rdiv; ring). rewrite sum_map_mul. field. exact E.
Qed.
Definition residual_n (n : nat) (p : list R) : nat := (n - list_sum (map (fun v => floor_nat (INR n * v)) p))%nat.
Lemma residual_parts draw n p i : Forall (fun v => 0 <= v) p -> sum_list p = 1 -> (i < length p)%nat -> multinomial_draw draw -> p <> [] ->
  residual_pv n p <> [] /\ length (residual_pv n p) = length p /\
  nth i (residual_counts draw n p) 0%nat =
    (floor_nat (INR n * nth i p 0%R) + if (0 <? residual_n n p)%nat then nth i (draw (residual_n n p) (residual_pv n p)) 0 else 0)%nat /\
  INR n * nth i p 0 = INR (floor_nat (INR n * nth i p 0)) + INR (residual_n n p) * nth i (residual_pv n p) 0.
Proof.
  intros HP HS Hi HD Hp.
  set (det := map (fun v => floor_nat (INR n * v)) p).
  set (res := zip2 (fun v c => Rmax (INR n * v - INR c) 0) p det).
  assert (LD : length det = length p) by apply map_length.
  assert (LR : length res = length p) by (apply zip2_length; lia).
  assert (LV : length (residual_pv n p) = length p). { unfold residual_pv. cbv zeta. fold det. fold res. destruct (reqb _ _); rewrite map_length; auto. }
  assert (NV : residual_pv n p <> []). { intros E. rewrite E in LV. destruct p; simpl in *; congruence. }
  assert (ND : nth i det 0%nat = floor_nat (INR n * nth i p 0)).
  { unfold det. rewrite (nth_indep _ 0%nat (floor_nat (INR n * 0))) by (rewrite map_length; auto). apply (map_nth (fun v => floor_nat (INR n * v)) p 0 i). }
  assert (Pi : 0 <= nth i p 0) by (rewrite Forall_forall in HP; apply HP, nth_In; auto).
  assert (F : INR (floor_nat (INR n * nth i p 0)) <= INR n * nth i p 0) by (apply floor_nat_spec; apply Rmult_le_pos; auto; apply pos_INR).
  assert (NR : nth i res 0 = INR n * nth i p 0 - INR (nth i det 0%nat)).
  { unfold res. rewrite (nth_indep _ 0 (Rmax (INR n * 0 - INR 0) 0)) by (fold res; lia).
    rewrite (zip2_nth (fun v c => Rmax (INR n * v - INR c) 0) p det i 0 0%nat) by lia. rewrite ND. apply Rmax_left. lra. }
  assert (SD : (list_sum det <= n)%nat).
  { apply INR_le. replace (INR n) with (INR n * sum_list p) by (rewrite HS; ring). apply det_sum_le; auto. apply pos_INR. }
  assert (TR : sum_list res = INR (residual_n n p)).
  { unfold res, det. rewrite zip2_sum_res; auto using pos_INR. rewrite HS. unfold residual_n. fold det. rewrite minus_INR by auto. ring. }
  split; [exact NV|]. split; [exact LV|]. split.
  - set (cr := if (0 <? residual_n n p)%nat then draw (residual_n n p) (residual_pv n p) else map (fun _ => 0%nat) det).
    change (nth i (zip2 Nat.add det cr) 0%nat = (floor_nat (INR n * nth i p 0%R) + if (0 <? residual_n n p)%nat then nth i (draw (residual_n n p) (residual_pv n p)) 0 else 0)%nat).
    assert (LC : length cr = length det).
    { unfold cr. destruct (0 <? residual_n n p)%nat; [|apply map_length]. destruct (HD (residual_n n p) (residual_pv n p) NV) as [A _]. lia. }
    change 0%nat with (0 + 0)%nat at 1. rewrite zip2_nth by lia. rewrite ND. f_equal. unfold cr. destruct (0 <? residual_n n p)%nat; auto.
    clear. revert i. induction det; intros [|i]; simpl; auto.
  - unfold residual_pv. cbv zeta. fold det. fold res. unfold reqb. destruct (Req_EM_T (sum_list res) 0) as [E|E].
    + rewrite <- TR, E, Rmult_0_l. assert (R0 : nth i res 0 = 0).
      { apply (sum_zero res). apply Forall_forall. unfold res. intros v Hv. clear -Hv. revert Hv. generalize det. clear det. induction p as [|a p IH]; intros [|b det]; simpl; try contradiction. intros [<-|H]. apply Rmax_r. eauto. exact E. apply nth_In; lia. }
      rewrite NR, ND in R0. lra.
    + rewrite (nth_indep (map (fun v => v / sum_list res) res) 0 (0 / sum_list res)) by (rewrite map_length; lia). rewrite (map_nth (fun v => v / sum_list res) res 0 i), NR, ND, TR. field. rewrite <- TR; auto.
Qed.
