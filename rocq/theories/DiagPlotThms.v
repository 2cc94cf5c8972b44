(** C118: the figures of gpmp.modeldiagnosis. *)
From Coq Require Import Reals List Bool Arith ZArith String Lra Lia Permutation Sorted.
From Verif Require Import ConfigModel FlModel DesignModel DesignProofs QuantModel QuantProofs DiagProofs PlotModel PlotProofs DiagPlotModel.
Import ListNotations.
Local Open Scope R_scope.

Lemma rltb_iff a b : rltb a b = true <-> a < b.
Proof. unfold rltb. destruct (Rlt_dec a b); split; intro; auto; try discriminate; contradiction. Qed.

(** ** the PIT curve *)
Definition count_below (u : R) (l : list R) : nat := List.length (filter (fun p => rltb p u) l).
Lemma count_below_perm u l l' : Permutation l l' -> count_below u l = count_below u l'.
Proof.
  unfold count_below. induction 1; cbn; auto; [destruct (rltb x u); cbn; congruence | destruct (rltb x u), (rltb y u); reflexivity | congruence].
Qed.
Lemma step_pre_sorted u : forall s ys, sorted s -> List.length ys = List.length s -> (count_below u s < List.length s)%nat ->
  step_pre s ys u = Some (nth (count_below u s) ys 0).
Proof.
  induction s as [| x s IH]; intros ys hs hl hc; [cbn in hc; lia |]. destruct ys as [| y ys]; [discriminate |].
  inversion hs as [| ? ? hs' F]; subst. cbn [step_pre]. unfold count_below in *. cbn [filter] in *.
  destruct (rltb x u) eqn:E.
  - apply rltb_iff in E. unfold rleb. destruct (Rle_dec u x); [lra |]. cbn [List.length nth] in *. apply IH; [exact hs' | cbn in hl; lia | lia].
  - assert (u <= x) by (unfold rltb in E; destruct (Rlt_dec x u); [discriminate | lra]).
    unfold rleb. destruct (Rle_dec u x); [| lra].
    assert (e0 : filter (fun p => rltb p u) s = []).
    { clear -F H. induction s as [| a s IHs]; [reflexivity |]. inversion F; subst. cbn. destruct (rltb a u) eqn:Ea; [apply rltb_iff in Ea; lra | now apply IHs]. }
    rewrite e0. reflexivity.
Qed.
Lemma step_pre_beyond u : forall s ys, (forall p, In p s -> p < u) -> step_pre s ys u = None.
Proof.
  induction s as [| x s IH]; intros ys h; [reflexivity |]. destruct ys; [reflexivity |]. cbn. unfold rleb. destruct (Rle_dec u x).
  - assert (x < u) by (apply h; now left). lra.
  - apply IH. intros p hp. apply h. now right.
Qed.
(** At u the curve of n >= 2 PIT values shows #(PIT < u) / (n - 1), not / n: above the empirical distribution function (just
    left of u) by at most 1/n.  Right of the largest value nothing is drawn. *)
Theorem C118_pit_ecdf : forall pit u, (forall p, In p pit -> 0 <= p) -> 0 < u ->
  let n := List.length pit in let curve := pit_curve pit in let ecdf := INR (count_below u pit) / INR n in
  ((forall p, In p pit -> p < u) -> step_pre (fst curve) (snd curve) u = None) /\
  ((exists p, In p pit /\ u <= p) -> exists y, step_pre (fst curve) (snd curve) u = Some y /\
     ((2 <= n)%nat -> y = INR (count_below u pit) / INR (n - 1)) /\ (n = 1%nat -> y = 0) /\ ecdf <= y <= ecdf + 1 / INR n).
Proof.
  intros pit u h0 hu n curve ecdf. unfold curve, pit_curve. cbn [fst snd step_pre].
  assert (e0 : rleb u 0 = false) by (unfold rleb; destruct (Rle_dec u 0); [lra | reflexivity]). rewrite e0. split.
  - intro h. apply step_pre_beyond. intros p hp. apply h. apply (Permutation_in _ (Permutation_sym (sort_perm pit))). exact hp.
  - intros [p [hp hup]]. set (k := count_below u pit).
    assert (ek : count_below u (sort pit) = k) by (symmetry; apply count_below_perm, sort_perm).
    assert (hk : (k < n)%nat).
    { unfold k, n, count_below. clear -hp hup. induction pit as [| a l IH]; [destruct hp |]. cbn. destruct hp as [-> | hp].
      - destruct (rltb p u) eqn:E; [apply rltb_iff in E; lra |]. assert (forall l', (List.length (filter (fun p => rltb p u) l') <= List.length l')%nat).
        { induction l' as [| b l' IH']; cbn; [lia |]. destruct (rltb b u); cbn; lia. } specialize (H l). lia.
      - specialize (IH hp). destruct (rltb a u); cbn; lia. }
    fold n. exists (nth k (linspace 0 1 n) 0). split.
    { rewrite (step_pre_sorted u (sort pit)); [now rewrite ek | apply sort_sorted | rewrite linspace_length, sort_length; reflexivity | rewrite ek, sort_length; exact hk]. }
    assert (hn : 0 < INR n) by (apply lt_0_INR; lia).
    destruct (Nat.eq_dec n 1) as [e1 | n1].
    + assert (k0 : k = 0%nat) by lia. unfold ecdf. fold k. rewrite k0, e1. cbn. split; [lia |]. split; [reflexivity |]. lra.
    + assert (e2 : nth k (linspace 0 1 n) 0 = INR k / INR (n - 1)).
      { destruct n as [| [| m]]; try lia. unfold linspace. rewrite nth_map_seq by exact hk. unfold Rdiv. ring. }
      rewrite e2. split; [reflexivity |]. split; [lia |]. unfold ecdf. fold k.
      assert (hm : 0 < INR (n - 1)) by (apply lt_0_INR; lia). assert (en : INR n = INR (n - 1) + 1) by (rewrite <- S_INR; f_equal; lia).
      assert (hkn : INR k <= INR (n - 1)) by (apply le_INR; lia). assert (0 <= INR k) by apply pos_INR.
      assert (ed : INR k / INR (n - 1) - INR k / INR n = INR k / INR (n - 1) * (1 / INR n)) by (rewrite en; field; lra).
      assert (q : 0 <= INR k / INR (n - 1) <= 1).
      { split; [apply Rdiv_le_0_compat || (unfold Rdiv; apply Rmult_le_pos; [assumption | left; now apply Rinv_0_lt_compat]); assumption |].
        apply (Rmult_le_reg_r (INR (n - 1))); [exact hm |]. unfold Rdiv. rewrite Rmult_assoc, Rinv_l by lra. lra. }
      assert (0 < 1 / INR n) by (unfold Rdiv; rewrite Rmult_1_l; now apply Rinv_0_lt_compat). nra.
Qed.

(** ** cross sections of criteria *)
Section Criteria.
Variable crits : list (list R -> fl).
Variable ref : list R.
Variable is_int : bool.
Variable n_points : nat.
Variable delta : R.
Variable names : option (list string).
Variable show : Z -> string.
Local Notation sections := (criterion_sections crits ref is_int n_points delta names show).

(** the panel shows every criterion along coordinate j from lo to hi, all other parameters at the reference *)
Definition shows_section (j : nat) (lo hi : R) (p : cpanel) : Prop :=
  p_ref p = nth j ref 0 /\ p_x p = map (fun q => lo + INR q * ((hi - lo) / INR (n_points - 1))) (seq 0 n_points) /\
  List.length (p_curves p) = List.length crits /\
  forall k f ys, nth_error crits k = Some f -> nth_error (p_curves p) k = Some ys ->
    List.length ys = n_points /\
    forall q, (q < n_points)%nat -> exists row, nth_error ys q = Some (f row) /\ List.length row = List.length ref /\
      nth j row 0 = (if is_int then trunc (nth q (p_x p) 0) else nth q (p_x p) 0) /\ forall j', j' <> j -> nth j' row 0 = nth j' ref 0.

Lemma py_pos_spec n z j : py_pos n z = Some j -> (j < n)%nat /\ (z = Z.of_nat j \/ z = Z.of_nat j - Z.of_nat n)%Z.
Proof.
  unfold py_pos. destruct (Z.ltb_spec z 0); [destruct (Z.leb_spec 0 (z + Z.of_nat n)); destruct (Z.ltb_spec (z + Z.of_nat n) (Z.of_nat n)) | destruct (Z.leb_spec 0 z); destruct (Z.ltb_spec z (Z.of_nat n))];
    cbn [andb]; intro e; try discriminate; injection e as <-; lia.
Qed.
Lemma py_pos_some n z : (- Z.of_nat n <= z < Z.of_nat n)%Z -> exists j, py_pos n z = Some j.
Proof.
  intro h. unfold py_pos. destruct (Z.ltb_spec z 0); [destruct (Z.leb_spec 0 (z + Z.of_nat n)); destruct (Z.ltb_spec (z + Z.of_nat n) (Z.of_nat n)) | destruct (Z.leb_spec 0 z); destruct (Z.ltb_spec z (Z.of_nat n))];
    cbn [andb]; try lia; eauto.
Qed.
Lemma lin_map lo hi n : linspace lo hi n = map (fun q => lo + INR q * ((hi - lo) / INR (n - 1))) (seq 0 n).
Proof. destruct n as [| [| m]]; [reflexivity | cbn; f_equal; lra | reflexivity]. Qed.
Lemma panel_shows box pos z p : criterion_panel crits ref is_int n_points delta names show box pos z = Some p ->
  exists j lo hi, (j < List.length ref)%nat /\ (z = Z.of_nat j \/ z = Z.of_nat j - Z.of_nat (List.length ref))%Z /\ shows_section j lo hi p /\
    match box with None => lo = nth j ref 0 - delta /\ hi = nth j ref 0 + delta | Some lu => nth_error (fst lu) pos = Some lo /\ nth_error (snd lu) pos = Some hi end.
Proof.
  unfold criterion_panel. destruct (py_pos (List.length ref) z) as [j |] eqn:Ej; [| discriminate]. apply py_pos_spec in Ej as [hj hz].
  assert (S : forall lo hi nm, shows_section j lo hi (mkPanel (linspace lo hi n_points) (map (fun f => map (fun a => f (set_nth j (if is_int then trunc a else a) ref)) (linspace lo hi n_points)) crits) (nth j ref 0) nm)).
  { intros lo hi nm. split; [reflexivity |]. split; [apply lin_map |]. split; [apply map_length |]. cbn [p_curves p_x]. intros k f ys ek eys.
    rewrite nth_error_map, ek in eys. cbn in eys. injection eys as <-. split; [rewrite map_length; apply linspace_length |].
    intros q hq. exists (set_nth j (if is_int then trunc (nth q (linspace lo hi n_points) 0) else nth q (linspace lo hi n_points) 0) ref). split.
    - rewrite nth_error_map, (nth_error_nth' _ 0) by (rewrite linspace_length; exact hq). reflexivity.
    - split; [apply set_nth_length |]. split; [now apply set_nth_same | intros j' h'; now apply set_nth_other]. }
  unfold grid_for. destruct box as [[l u] |].
  - destruct (nth_error l pos) as [lo |] eqn:El; [| discriminate]. destruct (nth_error u pos) as [hi |] eqn:Eu; [| discriminate].
    destruct (panel_name names show z) as [nm |]; [| discriminate]. intro e. injection e as <-. exists j, lo, hi. split; [exact hj |]. split; [exact hz |]. split; [apply S |]. cbn [fst snd]. auto.
  - destruct (panel_name names show z) as [nm |]; [| discriminate]. intro e. injection e as <-. exists j, (nth j ref 0 - delta), (nth j ref 0 + delta).
    split; [exact hj |]. split; [exact hz |]. split; [apply S |]. split; reflexivity.
Qed.
Lemma panels_from_nth box : forall ind pos ps, panels_from crits ref is_int n_points delta names show box pos ind = Some ps ->
  List.length ps = List.length ind /\ forall i z p, nth_error ind i = Some z -> nth_error ps i = Some p ->
    criterion_panel crits ref is_int n_points delta names show box (pos + i) z = Some p.
Proof.
  induction ind as [| z ind IH]; intros pos ps e; cbn in e.
  - injection e as <-. split; [reflexivity |]. intros [| i] z p h; discriminate.
  - destruct (criterion_panel _ _ _ _ _ _ _ box pos z) as [p0 |] eqn:E0; [| discriminate].
    destruct (panels_from _ _ _ _ _ _ _ box (S pos) ind) as [ps' |] eqn:E1; [| discriminate]. injection e as <-.
    destruct (IH _ _ E1) as [h1 h2]. split; [cbn; lia |]. intros [| i] z' p hz hp; cbn in hz, hp.
    + injection hz as <-. injection hp as <-. now rewrite Nat.add_0_r.
    + rewrite Nat.add_succ_r. exact (h2 i z' p hz hp).
Qed.

(** Panel i of the list of indices shows the parameter asked for; its range is the reference -+ delta, or the column i of the
    box: the column of the position in the list, not of the parameter. *)
Theorem C118_sections : forall ind ind_pooled box box_pooled ps qs, sections ind ind_pooled box box_pooled = Some (ps, qs) ->
  let indices := match ind, ind_pooled with None, None => map Z.of_nat (seq 0 (List.length ref)) | Some l, _ => l | None, Some _ => [] end in
  let pooled := match ind_pooled with Some l => l | None => [] end in
  List.length ps = List.length indices /\ List.length qs = List.length pooled /\
  forall l bx res, (l, bx, res) = (indices, box, ps) \/ (l, bx, res) = (pooled, box_pooled, qs) ->
    forall i z p, nth_error l i = Some z -> nth_error res i = Some p ->
    exists j lo hi, (j < List.length ref)%nat /\ (z = Z.of_nat j \/ z = Z.of_nat j - Z.of_nat (List.length ref))%Z /\ shows_section j lo hi p /\
      match bx with None => lo = nth j ref 0 - delta /\ hi = nth j ref 0 + delta | Some lu => nth_error (fst lu) i = Some lo /\ nth_error (snd lu) i = Some hi end.
Proof.
  intros ind ind_pooled box box_pooled ps qs e indices pooled.
  assert (P : forall b l r, panels_from crits ref is_int n_points delta names show b 0 l = Some r -> List.length r = List.length l /\
    forall i z p, nth_error l i = Some z -> nth_error r i = Some p ->
    exists j lo hi, (j < List.length ref)%nat /\ (z = Z.of_nat j \/ z = Z.of_nat j - Z.of_nat (List.length ref))%Z /\ shows_section j lo hi p /\
      match b with None => lo = nth j ref 0 - delta /\ hi = nth j ref 0 + delta | Some lu => nth_error (fst lu) i = Some lo /\ nth_error (snd lu) i = Some hi end).
  { intros b l r h. destruct (panels_from_nth b l 0 r h) as [h1 h2]. split; [exact h1 |]. intros i z p hz hp. exact (panel_shows b i z p (h2 i z p hz hp)). }
  unfold criterion_sections in e. cbv zeta in e.
  set (ind' := match ind, ind_pooled with None, None => Some (map Z.of_nat (seq 0 (List.length ref))) | _, _ => ind end) in e.
  assert (ei : match ind' with None => indices = [] | Some l => indices = l end) by (unfold ind', indices; destruct ind, ind_pooled; reflexivity).
  destruct (match ind' with None => Some [] | Some [] => None | Some l => panels_from crits ref is_int n_points delta names show box 0 l end) as [ps0 |] eqn:E1; [| discriminate].
  destruct (match ind_pooled with None => Some [] | Some l => panels_from crits ref is_int n_points delta names show box_pooled 0 l end) as [qs0 |] eqn:E2; [| discriminate].
  injection e as <- <-.
  assert (Q1 : panels_from crits ref is_int n_points delta names show box 0 indices = Some ps0).
  { destruct ind' as [[| a l] |]; [discriminate | rewrite ei; exact E1 | rewrite ei; exact E1]. }
  assert (Q2 : panels_from crits ref is_int n_points delta names show box_pooled 0 pooled = Some qs0) by (unfold pooled; destruct ind_pooled; exact E2).
  destruct (P _ _ _ Q1) as [l1 p1]. destruct (P _ _ _ Q2) as [l2 p2]. split; [exact l1 |]. split; [exact l2 |].
  intros l bx res [h | h]; injection h as -> -> ->; assumption.
Qed.

(** When it succeeds (no names given): some panel is asked for, all indices exist, and the box has a column per panel. *)
Theorem C118_succeeds : forall ind box, names = None ->
  (exists ps qs, sections (Some ind) None box None = Some (ps, qs)) <->
  ind <> [] /\ (forall z, In z ind -> (- Z.of_nat (List.length ref) <= z < Z.of_nat (List.length ref))%Z) /\
  match box with None => True | Some lu => (List.length ind <= List.length (fst lu))%nat /\ (List.length ind <= List.length (snd lu))%nat end.
Proof.
  intros ind box hn. unfold criterion_sections.
  assert (K : forall l pos, (exists ps, panels_from crits ref is_int n_points delta names show box pos l = Some ps) <->
    (forall z, In z l -> (- Z.of_nat (List.length ref) <= z < Z.of_nat (List.length ref))%Z) /\
    match box with None => True | Some lu => l = [] \/ (pos + List.length l <= List.length (fst lu))%nat /\ (pos + List.length l <= List.length (snd lu))%nat end).
  { induction l as [| z l IH]; intro pos; cbn [panels_from].
    - split; [intros _; split; [intros z [] | destruct box; auto] | intros _; eauto].
    - assert (C : (exists p, criterion_panel crits ref is_int n_points delta names show box pos z = Some p) <->
        (- Z.of_nat (List.length ref) <= z < Z.of_nat (List.length ref))%Z /\ match box with None => True | Some lu => (pos < List.length (fst lu))%nat /\ (pos < List.length (snd lu))%nat end).
      { unfold criterion_panel. split.
        - intros [p e]. destruct (py_pos (List.length ref) z) as [j |] eqn:Ej; [| discriminate]. apply py_pos_spec in Ej. split; [lia |].
          destruct box as [[a b] |]; [| exact I]. cbn [fst snd grid_for] in *. destruct (nth_error a pos) eqn:Ea; [| discriminate]. destruct (nth_error b pos) eqn:Eb; [| discriminate].
          split; apply nth_error_Some; congruence.
        - intros [hz hb]. destruct (py_pos_some _ _ hz) as [j ->]. unfold panel_name. rewrite hn. unfold grid_for. destruct box as [[a b] |]; [| eauto]. cbn [fst snd] in hb.
          rewrite (nth_error_nth' a 0 (proj1 hb)), (nth_error_nth' b 0 (proj2 hb)). eauto. }
      split.
      + intros [ps e]. destruct (criterion_panel _ _ _ _ _ _ _ box pos z) as [p |] eqn:Ep; [| discriminate].
        destruct (panels_from _ _ _ _ _ _ _ box (S pos) l) as [r |] eqn:Er; [| discriminate].
        destruct (proj1 C (ex_intro _ p eq_refl)) as [c1 c2]. destruct (proj1 (IH (S pos)) (ex_intro _ r Er)) as [i1 i2]. split.
        * intros z' [<- | h]; auto.
        * destruct box as [lu |]; [| exact I]. right. cbn [List.length]. destruct i2 as [-> | i2]; cbn [List.length]; lia.
      + intros [h1 h2]. assert (c : exists p, criterion_panel crits ref is_int n_points delta names show box pos z = Some p).
        { apply C. split; [apply h1; now left |]. destruct box as [lu |]; [| exact I]. destruct h2 as [h2 | h2]; [discriminate | cbn in h2; lia]. }
        destruct c as [p ->]. assert (c : exists r, panels_from crits ref is_int n_points delta names show box (S pos) l = Some r).
        { apply IH. split; [intros z' h; apply h1; now right |]. destruct box as [lu |]; [| exact I]. destruct h2 as [h2 | h2]; [discriminate |]. right. cbn in h2. lia. }
        destruct c as [r ->]. eauto. }
  destruct ind as [| z ind].
  - split; [intros [ps [qs e]]; discriminate | intros [h _]; congruence].
  - split.
    + intros [ps [qs e]]. destruct (panels_from crits ref is_int n_points delta names show box 0 (z :: ind)) as [r |] eqn:Er; [| discriminate].
      destruct (proj1 (K _ _) (ex_intro _ r Er)) as [k1 k2]. split; [discriminate |]. split; [exact k1 |]. destruct box; [| exact I]. destruct k2 as [k2 | k2]; [discriminate | exact k2].
    + intros [_ [h1 h2]]. assert (c : exists r, panels_from crits ref is_int n_points delta names show box 0 (z :: ind) = Some r).
      { apply K. split; [exact h1 |]. destruct box; [right; exact h2 | exact I]. }
      destruct c as [r ->]. eauto.
Qed.

(** the title of a panel: the name given to the parameter, or its index where the names end *)
Theorem C118_titles : forall box pos j p,
  criterion_panel crits ref is_int n_points delta names show box pos (Z.of_nat j) = Some p ->
  p_title p = match names with
              | Some l => match nth_error l j with Some s => s | None => String.append "param " (show (Z.of_nat j)) end
              | None => String.append "param " (show (Z.of_nat j))
              end.
Proof.
  intros box pos j p. unfold criterion_panel. destruct (py_pos _ _); [| discriminate]. destruct (grid_for _ _ _ _ _) as [xs |]; [| discriminate].
  destruct (panel_name names show (Z.of_nat j)) as [s |] eqn:E; [| discriminate]. intro e. injection e as <-. cbn [p_title].
  unfold panel_name in E. destruct names as [l |]; [| injection E as <-; reflexivity]. destruct (Z.ltb_spec (Z.of_nat j) (Z.of_nat (List.length l))) as [h | h].
  - unfold py_get in E. assert (ep : py_pos (List.length l) (Z.of_nat j) = Some j).
    { unfold py_pos. destruct (Z.ltb_spec (Z.of_nat j) 0); [lia |]. destruct (Z.leb_spec 0 (Z.of_nat j)); [| lia]. destruct (Z.ltb_spec (Z.of_nat j) (Z.of_nat (List.length l))); [| lia]. cbn. now rewrite Nat2Z.id. }
    rewrite ep in E. now rewrite E.
  - injection E as <-. assert (en : nth_error l j = None) by (apply nth_error_None; lia). now rewrite en.
Qed.

(** without a box the reference is the middle abscissa if the number of points is odd; an even number misses it *)
Theorem C118_reference : forall j p, shows_section j (nth j ref 0 - delta) (nth j ref 0 + delta) p -> delta <> 0 ->
  (forall m, n_points = (2 * m + 1)%nat -> (1 <= m)%nat -> nth m (p_x p) 0 = nth j ref 0) /\
  (forall m, n_points = (2 * m)%nat -> ~ In (nth j ref 0) (p_x p)).
Proof.
  intros j p [_ [ex _]] hd. rewrite ex. split.
  - intros m hm h1. rewrite nth_map_seq by lia. assert (e : INR (n_points - 1) = 2 * INR m) by (rewrite hm; replace (2 * m + 1 - 1)%nat with (2 * m)%nat by lia; rewrite mult_INR; cbn; lra).
    rewrite e. assert (0 < INR m) by (apply lt_0_INR; lia). field. lra.
  - intros m hm hI. apply in_map_iff in hI as [q [eq hq]]. apply in_seq in hq. assert (hm1 : (1 <= m)%nat) by lia.
    assert (hp : 0 < INR (n_points - 1)) by (apply lt_0_INR; lia).
    assert (e2 : INR q * 2 = INR (n_points - 1)).
    { apply (Rmult_eq_reg_r (delta / INR (n_points - 1))).
      - replace (INR q * 2 * (delta / INR (n_points - 1))) with (INR q * ((nth j ref 0 + delta - (nth j ref 0 - delta)) / INR (n_points - 1))) by (field; lra).
        replace (INR (n_points - 1) * (delta / INR (n_points - 1))) with delta by (field; lra). lra.
      - unfold Rdiv. apply Rmult_integral_contrapositive. split; [exact hd | apply Rinv_neq_0_compat; lra]. }
    assert (e3 : INR (q * 2) = INR (n_points - 1)) by (rewrite mult_INR; cbn; lra). apply INR_eq in e3. lia.
Qed.
End Criteria.

(** the wrong range: parameter 1 asked for alone is drawn over the range of parameter 0 *)
Theorem C118_box_column_refuted : forall f : list R -> fl, exists p,
  criterion_sections [f] [0; 15] false 2 5 None (fun _ => ""%string) (Some [1%Z]) None (Some ([0; 10], [1; 20])) None = Some ([p], []) /\
  p_ref p = 15 /\ p_x p = [0; 1] /\ p_curves p = [[f [0; 0]; f [0; 1]]].
Proof.
  intro f. eexists. split; [reflexivity |]. cbn. replace (0 + 0 * ((1 - 0) / 1)) with 0 by lra. replace (0 + 1 * ((1 - 0) / 1)) with 1 by lra. auto.
Qed.
(** labels: as many as criteria, and distinct by default *)
Theorem C118_labels : forall show n base given l, (forall a b, show a = show b -> a = b) -> criterion_labels show n base given = Some l ->
  List.length l = n /\ match given with Some g => l = g | None => NoDup l end.
Proof.
  intros show n base given l hs. unfold criterion_labels. destruct given as [g |].
  - destruct (Nat.eqb_spec (List.length g) n); [| discriminate]. intro e'. injection e' as <-. auto.
  - destruct (Nat.eqb_spec n 1) as [-> | h1]; cbn [List.length Nat.eqb].
    + intro e. injection e as <-. split; [reflexivity | repeat constructor; intros []].
    + destruct (Nat.eqb_spec (List.length (map (fun k => String.append base (String.append " #" (show k))) (seq 0 n))) n) as [e |]; [| discriminate].
      intro e'. injection e' as <-. split; [exact e |]. apply FinFun.Injective_map_NoDup; [| apply seq_NoDup].
      intros a b hab. apply hs. clear e. induction base as [| c base IH]; cbn in hab; [injection hab as h; exact h | injection hab as h; exact (IH h)].
Qed.

(** ** the two-dimensional profile *)
Lemma ln10 : 0 < ln 10.
Proof. rewrite <- ln_1. apply ln_increasing; lra. Qed.
Lemma log10_pow t : log10 (Rpower 10 t) = t.
Proof. unfold log10, Rpower. rewrite ln_exp. field. apply Rgt_not_eq, ln10. Qed.
Lemma place_to_param i p : 0 < p -> place i (to_param i p) = log10 p.
Proof.
  intro h. unfold place, to_param. destruct (Nat.eqb i 0).
  - rewrite exp_ln by nra. unfold log10. rewrite ln_mult by lra. pose proof ln10. field. lra.
  - rewrite exp_ln by (unfold Rdiv; rewrite Rmult_1_l; now apply Rinv_0_lt_compat). unfold log10, Rdiv. rewrite Rmult_1_l, ln_Rinv by exact h. ring.
Qed.
Lemma place_natural i c : place i c = log10 (natural i c).
Proof. unfold place, natural, log10. destruct (Nat.eqb i 0); rewrite !ln_exp; pose proof ln10; field; lra. Qed.
Lemma log10_le a b : 0 < a -> a <= b -> log10 a <= log10 b.
Proof.
  intros h1 h2. unfold log10, Rdiv. apply Rmult_le_compat_r; [left; apply Rinv_0_lt_compat, ln10 |]. destruct h2 as [h2 | ->]; [left; now apply ln_increasing | lra].
Qed.
Lemma log10_lt a b : 0 < a -> a < b -> log10 a < log10 b.
Proof. intros h1 h2. unfold log10, Rdiv. apply Rmult_lt_compat_r; [apply Rinv_0_lt_compat, ln10 | now apply ln_increasing]. Qed.
Lemma log10_hundredth : log10 (1 / 100) = -2.
Proof. replace (1 / 100) with (Rpower 10 (-2)); [apply log10_pow |]. replace (-2) with (- (2)) by lra. rewrite Rpower_Ropp. replace 2 with (INR 2) by (cbn; lra). rewrite Rpower_pow by lra. cbn. lra. Qed.

Section Profile.
Variable fmax : R.
Variable crit : list R -> fl.
Variables model_cov info_cov : list R.
Variables i1 i2 : nat.
Variable n : nat.
Variable factor : R.
Hypothesis hi1 : (i1 < List.length info_cov)%nat.
Hypothesis hi2 : (i2 < List.length info_cov)%nat.
Local Notation prof := (profile fmax crit model_cov info_cov i1 i2 n factor).
Local Notation vals := (values fmax crit model_cov info_cov i1 i2 n factor).

Lemma axis_nth i b : (b < n)%nat -> exists p, nth_error (axis model_cov n factor i) b = Some p /\ 0 < p.
Proof.
  intro h. unfold axis. cbv zeta. eexists. split.
  - rewrite nth_error_map, (nth_error_nth' _ 0) by (rewrite linspace_length; exact h). reflexivity.
  - apply exp_pos.
Qed.

(** The cell (x_b, y_a) shows the criterion at the parameters of info, except the two varied ones, which are those whose place
    on the figure -- computed as for the marked points -- is (x_b, y_a). *)
Theorem C118_profile : forall shift a b, (a < n)%nat -> (b < n)%nat -> i1 <> i2 ->
  exists x y v, nth_error (fst (fst (prof shift))) b = Some x /\ nth_error (snd (fst (prof shift))) a = Some y /\
    nth_error (nth a vals []) b = Some v /\
    nth_error (nth a (snd (prof shift)) []) b = Some (log10 (Rmax (1 / 100) (v + shift_of fmax crit model_cov info_cov i1 i2 n factor shift))) /\
    exists cov, v = nan_to_num fmax (crit cov) /\ List.length cov = List.length info_cov /\ point i1 i2 cov = (x, y) /\
      forall j, j <> i1 -> j <> i2 -> nth j cov 0 = nth j info_cov 0.
Proof.
  intros shift a b ha hb hne. destruct (axis_nth i1 b hb) as [p1 [e1 h1]]. destruct (axis_nth i2 a ha) as [p2 [e2 h2]].
  set (cov := set_nth i2 (to_param i2 p2) (set_nth i1 (to_param i1 p1) info_cov)).
  assert (er : nth_error vals a = Some (map (fun p => nan_to_num fmax (crit (set_nth i2 (to_param i2 p2) (set_nth i1 (to_param i1 p) info_cov)))) (axis model_cov n factor i1))).
  { unfold values. rewrite nth_error_map, e2. reflexivity. }
  exists (log10 p1), (log10 p2), (nan_to_num fmax (crit cov)). cbn [profile fst snd]. split; [now rewrite nth_error_map, e1 |]. split; [now rewrite nth_error_map, e2 |].
  assert (ev : nth_error (nth a vals []) b = Some (nan_to_num fmax (crit cov))).
  { rewrite (nth_error_nth _ _ _ er), nth_error_map, e1. reflexivity. }
  split; [exact ev |]. split.
  - assert (er' : nth a (map (map (level (shift_of fmax crit model_cov info_cov i1 i2 n factor shift))) vals) [] = map (level (shift_of fmax crit model_cov info_cov i1 i2 n factor shift)) (nth a vals [])).
    { change [] with (map (level (shift_of fmax crit model_cov info_cov i1 i2 n factor shift)) []) at 1. apply map_nth. }
    rewrite er', nth_error_map, ev. reflexivity.
  - exists cov. split; [reflexivity |]. split; [unfold cov; now rewrite !set_nth_length |]. split.
    + unfold point, cov. rewrite (set_nth_other i2 i1) by exact hne. rewrite set_nth_same by exact hi1. rewrite set_nth_same by (rewrite set_nth_length; exact hi2).
      now rewrite !place_to_param.
    + intros j hj1 hj2. unfold cov. rewrite !set_nth_other by assumption. reflexivity.
Qed.
(** varying the same index twice shows the second value only: the abscissa has no effect *)
Theorem C118_same_index : forall a b b', i1 = i2 -> (b < n)%nat -> (b' < n)%nat -> nth b (nth a vals []) 0 = nth b' (nth a vals []) 0.
Proof.
  intros a b b' e hb hb'. destruct (nth_error vals a) as [r |] eqn:Er.
  - rewrite (nth_error_nth _ _ _ Er). unfold values in Er. rewrite nth_error_map in Er. destruct (nth_error (axis model_cov n factor i2) a) as [p2 |]; [| discriminate]. cbn in Er. injection Er as <-.
    assert (I : forall p l, set_nth i2 (to_param i2 p2) (set_nth i1 (to_param i1 p) l) = set_nth i2 (to_param i2 p2) l).
    { rewrite e. intros p l. generalize (to_param i2 p), (to_param i2 p2). clear. intros u v. revert i2. induction l as [| x l IH]; intros [| i]; cbn; auto. f_equal. apply IH. }
    destruct (axis_nth i1 b hb) as [p [ep _]]. destruct (axis_nth i1 b' hb') as [p' [ep' _]].
    rewrite !(nth_error_nth _ _ 0 (x := nan_to_num fmax (crit (set_nth i2 (to_param i2 p2) info_cov)))); [reflexivity | |]; rewrite nth_error_map, ?ep, ?ep'; cbn; now rewrite I.
  - apply nth_error_None in Er. rewrite (nth_overflow vals) by exact Er. destruct b, b'; reflexivity.
Qed.
(** The window is centred on the parameters of the model, with half-width log10(factor); the marked point of info is inside it
    exactly if it is that close to them. *)
Theorem C118_window : forall shift, (2 <= n)%nat -> 1 <= factor ->
  let xs := fst (fst (prof shift)) in let c := place i1 (nth i1 model_cov 0) in
  (forall x, In x xs -> c - log10 factor <= x <= c + log10 factor) /\ In (c - log10 factor) xs /\ In (c + log10 factor) xs /\
  let ys := snd (fst (prof shift)) in let c' := place i2 (nth i2 model_cov 0) in
  (forall y, In y ys -> c' - log10 factor <= y <= c' + log10 factor) /\ In (c' - log10 factor) ys /\ In (c' + log10 factor) ys.
Proof.
  intros shift hn hf. assert (l0 : 0 <= log10 factor) by (replace 0 with (log10 1) by (unfold log10; rewrite ln_1; unfold Rdiv; ring); apply log10_le; lra).
  assert (A : forall i, map log10 (axis model_cov n factor i) = linspace (place i (nth i model_cov 0) - log10 factor) (place i (nth i model_cov 0) + log10 factor) n).
  { intro i. unfold axis. cbv zeta. rewrite <- place_natural. rewrite map_map. rewrite <- (map_id (linspace _ _ n)) at 2. apply map_ext. intro t. apply log10_pow. }
  cbn [profile fst snd]. rewrite !A. cbv zeta. split; [intros x hx; eapply linspace_in; [| exact hx]; lra |].
  split; [now apply linspace_ends |]. split; [now apply linspace_ends |]. split; [intros x hx; eapply linspace_in; [| exact hx]; lra |]. split; now apply linspace_ends.
Qed.
End Profile.

(** Levels are increasing in the value, but all values at most 1/100 above the minimum (shifted) or at most 1/100 (not
    shifted: any negative criterion) have the level -2. *)
Theorem C118_levels : forall s v v', v <= v' ->
  level s v <= level s v' /\ (level s v = -2 <-> v + s <= 1 / 100) /\ (1 / 100 < v' + s -> v < v' -> level s v < level s v').
Proof.
  intros s v v' h. unfold level. assert (M : forall a, 0 < Rmax (1 / 100) a) by (intro a; pose proof (Rmax_l (1 / 100) a); lra). split; [| split].
  - apply log10_le; [apply M |]. apply Rle_max_compat_l. lra.
  - split; intro e.
    + destruct (Rle_lt_dec (v + s) (1 / 100)) as [| h']; [assumption |]. rewrite Rmax_right in e by lra. assert (log10 (1 / 100) < log10 (v + s)) by (apply log10_lt; lra). rewrite log10_hundredth in H. lra.
    + rewrite Rmax_left by exact e. apply log10_hundredth.
  - intros h1 h2. apply log10_lt; [apply M |]. rewrite (Rmax_right (1 / 100) (v' + s)) by lra. apply Rmax_lub_lt; lra.
Qed.
(** A criterion that is NaN is drawn as 0: if all values are nonnegative it is drawn as the best place of the figure. *)
Theorem C118_nan_is_best : forall fmax crit model_cov info_cov i1 i2 n factor a b,
  let vals := values fmax crit model_cov info_cov i1 i2 n factor in
  (forall r v, In r vals -> In v r -> 0 <= v) ->
  (forall cov, crit cov = NaN -> nan_to_num fmax (crit cov) = 0) /\
  (nth_error (nth a vals []) b = Some 0 -> nth_error (nth a (snd (profile fmax crit model_cov info_cov i1 i2 n factor true)) []) b = Some (-2)).
Proof.
  intros fmax crit model_cov info_cov i1 i2 n factor a b vals hpos. split; [intros cov ->; reflexivity |]. intro e.
  set (s := shift_of fmax crit model_cov info_cov i1 i2 n factor true). cbn [profile snd]. fold vals s.
  assert (er' : nth a (map (map (level s)) vals) [] = map (level s) (nth a vals [])).
  { change [] with (map (level s) []) at 1. apply map_nth. }
  rewrite er', nth_error_map, e. cbn. f_equal. apply (proj2 (C118_levels s 0 0 (Rle_refl 0))).
  assert (s <= 0); [| lra]. unfold s, shift_of. fold vals.
  assert (C : forall v, In v (List.concat vals) -> 0 <= v).
  { intros v hv. apply in_concat in hv as [r [hr hv]]. exact (hpos r v hr hv). }
  destruct (np_min (List.concat vals)) as [m |] eqn:Em; [| lra]. assert (0 <= m); [| lra].
  unfold np_min in Em. destruct (List.concat vals) as [| x l]; [discriminate |]. injection Em as <-. revert x C. induction l as [| y l IH]; intros x C; cbn; [apply C; now left |].
  apply IH. intros v [<- | hv]; [apply Rmin_glb; apply C; cbn; auto | apply C; cbn; auto].
Qed.

(** three PIT values: at 1/2 the curve shows 1/2, the empirical distribution function 1/3 *)
Example C118_pit_case : step_pre (fst (pit_curve [3 / 4; 1 / 4; 1 / 2])) (snd (pit_curve [3 / 4; 1 / 4; 1 / 2])) (1 / 2) = Some (1 / 2).
Proof.
  destruct (proj2 (C118_pit_ecdf [3 / 4; 1 / 4; 1 / 2] (1 / 2) ltac:(intros p [<- | [<- | [<- | []]]]; lra) ltac:(lra)) ltac:(exists (3 / 4); cbn; split; [auto | lra])) as [y [e [h _]]].
  rewrite e. f_equal. rewrite (h ltac:(cbn; lia)). unfold count_below. cbn [filter].
  assert (r1 : rltb (3 / 4) (1 / 2) = false) by (unfold rltb; destruct (Rlt_dec (3 / 4) (1 / 2)); [lra | reflexivity]).
  assert (r2 : rltb (1 / 4) (1 / 2) = true) by (apply rltb_iff; lra).
  assert (r3 : rltb (1 / 2) (1 / 2) = false) by (unfold rltb; destruct (Rlt_dec (1 / 2) (1 / 2)); [lra | reflexivity]).
  rewrite r1, r2, r3. cbn. lra.
Qed.
Example C118_profile_case : let crit := fun c : list R => Fin (nth 0 c 0 + nth 1 c 0) in
  exists x y v, nth_error (fst (fst (profile 1 crit [0; 0; 7] [0; 1; 7] 0 1 3 10 true))) 2 = Some x /\
    nth_error (snd (fst (profile 1 crit [0; 0; 7] [0; 1; 7] 0 1 3 10 true))) 0 = Some y /\
    nth_error (nth 0 (values 1 crit [0; 0; 7] [0; 1; 7] 0 1 3 10) []) 2 = Some v.
Proof.
  intro crit. destruct (C118_profile 1 crit [0; 0; 7] [0; 1; 7] 0 1 3 10 ltac:(cbn; lia) ltac:(cbn; lia) true 0 2 ltac:(lia) ltac:(lia) ltac:(lia)) as [x [y [v [h1 [h2 [h3 _]]]]]].
  exists x, y, v. auto.
Qed.
Print Assumptions C118_pit_ecdf.
Print Assumptions C118_sections.
Print Assumptions C118_succeeds.
Print Assumptions C118_titles.
Print Assumptions C118_reference.
Print Assumptions C118_box_column_refuted.
Print Assumptions C118_labels.
Print Assumptions C118_profile.
Print Assumptions C118_same_index.
Print Assumptions C118_window.
Print Assumptions C118_levels.
Print Assumptions C118_nan_is_best.
