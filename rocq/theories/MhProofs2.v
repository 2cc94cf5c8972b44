(** Scheduler bookkeeping, sliding rates, R-hat, adaptation gains, KS fractions and the box. *)
From Coq Require Import List Arith ZArith Reals Bool Lra Lia.
From Verif Require Import ConfigModel FlModel PriorModel SmcModel SelectProofs SmcProofs MhModel MhProofs.
Import ListNotations.
Local Open Scope R_scope.

Lemma zip2_nth_any {A B C} (g : A -> B -> C) l l' i da db dc : length l = length l' -> (i < length l)%nat ->
  nth i (zip2 g l l') dc = g (nth i l da) (nth i l' db).
Proof.
  intros h hi. rewrite (nth_indep _ dc (g da db)) by (rewrite zip2_length; assumption). now apply zip2_nth.
Qed.
(** * Sliding rates *)
Lemma cumsum_length l : forall a, length (cumsum_from a l) = length l.
Proof. induction l; intro a0; simpl; auto. Qed.
Lemma cumsum_nth l : forall a i, (i < length l)%nat -> nth i (cumsum_from a l) 0 = a + sum_list (firstn (S i) l).
Proof.
  induction l as [| x l ih]; intros a i hi; [simpl in hi; lia |]. simpl in hi. cbn [cumsum_from firstn].
  rewrite sum_cons. destruct i as [| i].
  - cbn. unfold sum_list. simpl. ring.
  - cbn [nth]. rewrite ih by lia. ring.
Qed.
Lemma sum_firstn_slice (i j : nat) (l : list R) : (i <= j)%nat ->
  sum_list (firstn j l) - sum_list (firstn i l) = sum_list (slice i j l).
Proof.
  intro h. unfold slice. rewrite <- (firstn_skipn i (firstn j l)), sum_app, firstn_firstn, Nat.min_l by assumption.
  rewrite skipn_firstn_comm. ring.
Qed.
Lemma slice_length {A} i j (l : list A) : (j <= length l)%nat -> length (slice i j l) = (j - i)%nat.
Proof. intro h. unfold slice. rewrite firstn_length, skipn_length. lia. Qed.
Definition window (b : Z) (n : nat) : nat := Nat.min (Nat.max 1 (Z.to_nat b)) n.
Lemma sliding_length b n acc : (n <= length acc)%nat -> length (sliding_rates b n acc) = n.
Proof.
  intro h. unfold sliding_rates. destruct n as [| n]; [reflexivity |]. cbn [Nat.eqb].
  fold (window b (S n)). set (w := window b (S n)). assert (hw : (w <= S n)%nat) by (unfold w, window; lia).
  assert (hc : length (cumsum_from 0 (firstn (S n) acc)) = S n) by (rewrite cumsum_length, firstn_length; lia).
  rewrite app_length, map_length, !zip2_length; rewrite ?map_length, ?seq_length, ?firstn_length, ?skipn_length, hc; lia.
Qed.
Lemma sliding_nth b n acc i : (n <= length acc)%nat -> (i < n)%nat ->
  nth i (sliding_rates b n acc) 0 = mean_l (slice (S i - window b n) (S i) acc).
Proof.
  intros h hi. unfold sliding_rates. destruct (n =? 0)%nat eqn:e; [apply Nat.eqb_eq in e; lia |].
  fold (window b n). set (w := window b n).
  assert (hw : (1 <= w <= n)%nat) by (unfold w, window; lia).
  set (cs := cumsum_from 0 (firstn n acc)).
  assert (hc : length cs = n) by (unfold cs; rewrite cumsum_length, firstn_length; lia).
  assert (hn : forall k, (k < n)%nat -> nth k cs 0 = sum_list (firstn (S k) acc)).
  { intros k hk. unfold cs. rewrite cumsum_nth by (rewrite firstn_length; lia).
    rewrite firstn_firstn, Nat.min_l by lia. ring. }
  assert (hl1 : length (zip2 Rdiv (firstn w cs) (map (fun k => INR k + 1) (seq 0 w))) = w).
  { rewrite zip2_length; rewrite firstn_length, ?map_length, ?seq_length; lia. }
  unfold mean_l. rewrite slice_length by lia.
  destruct (Nat.lt_ge_cases i w) as [hiw | hiw].
  - rewrite app_nth1 by lia. rewrite (zip2_nth_any Rdiv _ _ i 0 0) by (rewrite ?firstn_length, ?map_length, ?seq_length; lia).
    assert (e1 : nth i (firstn w cs) 0 = nth i cs 0).
    { rewrite <- (firstn_skipn w cs) at 2. rewrite app_nth1; [reflexivity | rewrite firstn_length; lia]. }
    rewrite e1, hn by lia.
    rewrite (nth_indep _ 0 (INR 0 + 1)) by (rewrite map_length, seq_length; lia).
    rewrite (map_nth (fun k => INR k + 1)), seq_nth by lia.
    replace (S i - w)%nat with 0%nat by lia. unfold slice. rewrite skipn_O, !Nat.sub_0_r.
    cbn [Nat.add]. rewrite S_INR. reflexivity.
  - rewrite app_nth2 by lia. rewrite hl1.
    assert (hz : length (zip2 Rminus (skipn w cs) (firstn (length cs - w) cs)) = (n - w)%nat).
    { rewrite zip2_length; rewrite skipn_length, ?firstn_length; lia. }
    rewrite (nth_indep _ 0 (0 / INR w)) by (rewrite map_length; lia).
    rewrite (map_nth (fun d => d / INR w)).
    rewrite (zip2_nth_any Rminus _ _ (i - w) 0 0) by (rewrite ?skipn_length, ?firstn_length; lia).
    assert (e1 : nth (i - w) (skipn w cs) 0 = nth i cs 0).
    { rewrite <- (firstn_skipn w cs) at 2. rewrite app_nth2; rewrite firstn_length, ?Nat.min_l by lia; [reflexivity | lia]. }
    assert (e2 : nth (i - w) (firstn (length cs - w) cs) 0 = nth (i - w) cs 0).
    { rewrite hc. rewrite <- (firstn_skipn (n - w) cs) at 2. rewrite app_nth1; [reflexivity | rewrite firstn_length; lia]. }
    rewrite e1, e2, !hn by lia. rewrite sum_firstn_slice by lia.
    replace (S (i - w)) with (S i - w)%nat by lia. replace (S i - (S i - w))%nat with w by lia. reflexivity.
Qed.
Lemma sum_bounds (l : list R) : (forall v, In v l -> 0 <= v <= 1) -> 0 <= sum_list l <= INR (length l).
Proof.
  induction l as [| a l ih]; intro h; [unfold sum_list; simpl; lra |]. rewrite sum_cons.
  change (length (a :: l)) with (S (length l)). rewrite S_INR.
  pose proof (h a (or_introl eq_refl)). assert (0 <= sum_list l <= INR (length l)) by (apply ih; intros; apply h; now right). lra.
Qed.
Lemma mean_bounds (l : list R) : l <> [] -> (forall v, In v l -> 0 <= v <= 1) -> 0 <= mean_l l <= 1.
Proof.
  intros hn h. pose proof (sum_bounds l h) as [h1 h2]. unfold mean_l.
  assert (hp : 0 < INR (length l)) by (destruct l; [congruence | apply lt_0_INR; simpl; lia]).
  split.
  - apply Rmult_le_pos; [assumption | left; now apply Rinv_0_lt_compat].
  - apply (Rmult_le_reg_r (INR (length l))); [assumption |]. unfold Rdiv. rewrite Rmult_assoc, Rinv_l by lra. lra.
Qed.
Lemma slice_in {A} i j (l : list A) v : In v (slice i j l) -> In v l.
Proof.
  unfold slice. intro h. assert (h2 : In v (skipn i l)).
  { rewrite <- (firstn_skipn (j - i) (skipn i l)). apply in_or_app. now left. }
  rewrite <- (firstn_skipn i l). apply in_or_app. now right.
Qed.
Lemma sliding_range b n acc : (n <= length acc)%nat -> (forall v, In v acc -> 0 <= v <= 1) ->
  forall v, In v (sliding_rates b n acc) -> 0 <= v <= 1.
Proof.
  intros h ha v hv. destruct (In_nth _ _ 0 hv) as [i [hi <-]]. rewrite sliding_length in hi by assumption.
  rewrite sliding_nth by assumption. apply mean_bounds.
  - intro he. assert (hl := slice_length (S i - window b n) (S i) acc). rewrite he in hl. change (length (@nil R)) with 0%nat in hl.
    assert (1 <= window b n)%nat by (unfold window; lia). lia.
  - intros w hw. apply ha. exact (slice_in _ _ _ _ hw).
Qed.

(** * Gelman-Rubin *)
Definition chain_mean (l : list R) (m : R) : Prop := INR (length l) * m = sum_list l.
Lemma mean_spec l : l <> [] -> INR (length l) * mean_l l = sum_list l.
Proof. intro h. unfold mean_l. field. destruct l; [congruence | apply not_0_INR; simpl; lia]. Qed.
Lemma var1_pos l : (2 <= length l)%nat -> 0 <= var1 l /\ (var1 l = 0 <-> forall v, In v l -> v = mean_l l).
Proof.
  intro h. assert (hp : 0 < INR (length l) - 1).
  { assert (INR 2 <= INR (length l)) by (apply le_INR; lia). simpl in H. lra. }
  unfold var1. destruct (sum_list_pos (map (fun v => (v - mean_l l) * (v - mean_l l)) l)) as [h1 h2].
  { intros x hx. apply in_map_iff in hx. destruct hx as [v [<- _]]. apply Rle_0_sqr. }
  split; [apply Rmult_le_pos; [assumption | left; now apply Rinv_0_lt_compat] |].
  split; intro h3.
  - intros v hv. assert (h4 : sum_list (map (fun v => (v - mean_l l) * (v - mean_l l)) l) = 0).
    { apply (Rmult_eq_reg_r (/ (INR (length l) - 1))); [| apply Rinv_neq_0_compat; lra].
      unfold Rdiv in h3. rewrite h3. ring. }
    assert (h5 : (v - mean_l l) * (v - mean_l l) = 0) by (apply h2; [assumption | apply in_map_iff; eauto]).
    apply Rmult_integral in h5. lra.
  - replace (sum_list (map (fun v => (v - mean_l l) * (v - mean_l l)) l)) with 0; [unfold Rdiv; ring |].
    symmetry. apply h2. intros x hx. apply in_map_iff in hx. destruct hx as [v [<- hv]]. rewrite (h3 v hv). ring.
Qed.
Lemma mean_pos (l : list R) : l <> [] -> (forall v, In v l -> 0 <= v) ->
  0 <= mean_l l /\ (mean_l l = 0 <-> forall v, In v l -> v = 0).
Proof.
  intros hn h. destruct (sum_list_pos l h) as [h1 h2].
  assert (hp : 0 < INR (length l)) by (destruct l; [congruence | apply lt_0_INR; simpl; lia]).
  unfold mean_l. split; [apply Rmult_le_pos; [assumption | left; now apply Rinv_0_lt_compat] |].
  rewrite <- h2. split; intro h3.
  - apply (Rmult_eq_reg_r (/ INR (length l))); [| apply Rinv_neq_0_compat; lra].
    unfold Rdiv in h3. rewrite h3. ring.
  - rewrite h3. unfold Rdiv. ring.
Qed.
Definition affine (a b : R) (l : list R) : list R := map (fun v => a * v + b) l.
Lemma sum_affine a b l : sum_list (affine a b l) = a * sum_list l + INR (length l) * b.
Proof.
  unfold affine. induction l as [| v l ih]; [unfold sum_list; simpl; ring |]. cbn [map]. rewrite !sum_cons, ih.
  change (length (v :: l)) with (S (length l)). rewrite S_INR. ring.
Qed.
Lemma affine_length a b l : length (affine a b l) = length l.
Proof. unfold affine. apply map_length. Qed.
Lemma mean_affine a b l : l <> [] -> mean_l (affine a b l) = a * mean_l l + b.
Proof.
  intro h. unfold mean_l. rewrite sum_affine, affine_length. field. destruct l; [congruence | apply not_0_INR; simpl; lia].
Qed.
Lemma var1_affine a b l : l <> [] -> var1 (affine a b l) = a * a * var1 l.
Proof.
  intro h. unfold var1. rewrite mean_affine, affine_length by assumption.
  replace (map (fun v => (v - (a * mean_l l + b)) * (v - (a * mean_l l + b))) (affine a b l))
    with (map (fun v => a * a * v) (map (fun v => (v - mean_l l) * (v - mean_l l)) l)).
  - rewrite sum_map_mul. unfold Rdiv. ring.
  - unfold affine. rewrite !map_map. apply map_ext. intro v. ring.
Qed.
Definition W_of (blocks : list (list R)) : R := mean_l (map var1 blocks).
Definition B_of (n : nat) (blocks : list (list R)) : R := INR n * var1 (map mean_l blocks).
Section Rhat.
Variable n : nat.
Variable blocks : list (list R).
Hypothesis hn : (2 <= n)%nat.
Hypothesis hc : (2 <= length blocks)%nat.
Hypothesis hb : forall l, In l blocks -> length l = n.
Lemma blocks_ne l : In l blocks -> l <> [].
Proof. intros h e. apply hb in h. subst l. simpl in h. lia. Qed.
Lemma W_pos : 0 <= W_of blocks /\ (W_of blocks = 0 <-> forall l v, In l blocks -> In v l -> v = mean_l l).
Proof.
  unfold W_of. destruct (mean_pos (map var1 blocks)) as [h1 h2].
  - intro e. apply (f_equal (@length _)) in e. rewrite map_length in e. simpl in e. lia.
  - intros v hv. apply in_map_iff in hv. destruct hv as [l [<- hl]]. apply var1_pos. rewrite (hb l hl). assumption.
  - split; [assumption |]. rewrite h2. split; intro h.
    + intros l v hl hv. apply var1_pos; auto; [rewrite (hb l hl); assumption |]. apply h, in_map_iff. eauto.
    + intros v hv. apply in_map_iff in hv. destruct hv as [l [<- hl]].
      apply var1_pos; [rewrite (hb l hl); assumption |]. eauto.
Qed.
Lemma B_pos : 0 <= B_of n blocks /\ (B_of n blocks = 0 <-> forall l l', In l blocks -> In l' blocks -> mean_l l = mean_l l').
Proof.
  assert (hp : 0 < INR n) by (apply lt_0_INR; lia).
  unfold B_of. destruct (var1_pos (map mean_l blocks)) as [h1 h2]; [now rewrite map_length |].
  split; [apply Rmult_le_pos; lra |]. split.
  - intros h l l' hl hl'. apply Rmult_integral in h. destruct h as [h | h]; [lra |].
    rewrite h2 in h. rewrite (h (mean_l l)), (h (mean_l l')); auto; now apply in_map.
  - intro h. replace (var1 (map mean_l blocks)) with 0; [ring |]. symmetry. apply h2. intros v hv.
    apply in_map_iff in hv. destruct hv as [l [<- hl]].
    assert (hm : forall l', In l' blocks -> mean_l l' = mean_l l) by (intros; now apply h).
    rewrite (map_in mean_l (fun _ => mean_l l) blocks hm). unfold mean_l at 2.
    rewrite sum_const, map_length. field. apply not_0_INR. lia.
Qed.
Lemma rhat_value : 0 < W_of blocks -> exists r, rhat_blocks n blocks = Fin r /\ 0 <= r /\
  r * r = (INR n - 1) / INR n + B_of n blocks / (INR n * W_of blocks).
Proof.
  intro hw. unfold rhat_blocks. fold (W_of blocks). fold (B_of n blocks).
  assert (hp : 2 <= INR n) by (replace 2 with (INR 2) by reflexivity; apply le_INR; lia).
  destruct B_pos as [hB _].
  set (vp := (INR n - 1) / INR n * W_of blocks + 1 / INR n * B_of n blocks).
  assert (hvp : vp / W_of blocks = (INR n - 1) / INR n + B_of n blocks / (INR n * W_of blocks)).
  { unfold vp. field. lra. }
  assert (hpos : 0 <= vp / W_of blocks).
  { rewrite hvp. apply Rplus_le_le_0_compat; apply Rmult_le_pos; try lra.
    - left; apply Rinv_0_lt_compat; lra.
    - left; apply Rinv_0_lt_compat; nra. }
  unfold fl_div, reqb. destruct (Req_EM_T (W_of blocks) 0); [lra |].
  unfold fl_sqrt, rltb. destruct (Rlt_dec (vp / W_of blocks) 0); [lra |].
  exists (sqrt (vp / W_of blocks)). split; [reflexivity |]. split; [apply sqrt_pos |]. rewrite sqrt_sqrt by assumption. exact hvp.
Qed.
Lemma rhat_degenerate : W_of blocks = 0 ->
  rhat_blocks n blocks = if reqb (B_of n blocks) 0 then NaN else PInf.
Proof.
  intro hw. unfold rhat_blocks. fold (W_of blocks). fold (B_of n blocks). rewrite hw.
  assert (hp : 2 <= INR n) by (replace 2 with (INR 2) by reflexivity; apply le_INR; lia).
  destruct B_pos as [hB _].
  replace ((INR n - 1) / INR n * 0 + 1 / INR n * B_of n blocks) with (B_of n blocks / INR n) by (field; lra).
  unfold fl_div, reqb. destruct (Req_EM_T 0 0); [| congruence].
  destruct (Req_EM_T (B_of n blocks) 0) as [e0 | e0].
  - rewrite e0. unfold rltb. replace (0 / INR n) with 0 by (field; lra).
    destruct (Rlt_dec 0 0); [lra |]. reflexivity.
  - unfold rltb. assert (h : 0 < B_of n blocks / INR n) by (apply Rmult_lt_0_compat; [lra | apply Rinv_0_lt_compat; lra]).
    destruct (Rlt_dec 0 (B_of n blocks / INR n)); [reflexivity | contradiction].
Qed.
Lemma rhat_affine a b : a <> 0 -> rhat_blocks n (map (affine a b) blocks) = rhat_blocks n blocks.
Proof.
  intro ha. assert (haa : 0 < a * a) by (destruct (Rtotal_order a 0) as [h | [h | h]]; [nra | contradiction | nra]).
  assert (ew : W_of (map (affine a b) blocks) = a * a * W_of blocks).
  { unfold W_of. rewrite map_map. rewrite (map_in _ (fun l => a * a * var1 l)).
    - unfold mean_l. rewrite !map_length. rewrite <- (map_map var1 (fun v => a * a * v)), sum_map_mul. unfold Rdiv. ring.
    - intros l hl. apply var1_affine. now apply blocks_ne. }
  assert (eb : B_of n (map (affine a b) blocks) = a * a * B_of n blocks).
  { unfold B_of. rewrite map_map. rewrite (map_in _ (fun l => a * mean_l l + b)).
    - rewrite <- (map_map mean_l (fun v => a * v + b)). fold (affine a b (map mean_l blocks)). rewrite var1_affine; [ring |].
      intro e. apply (f_equal (@length _)) in e. rewrite map_length in e. simpl in e. lia.
    - intros l hl. apply mean_affine. now apply blocks_ne. }
  assert (hp : 2 <= INR n) by (replace 2 with (INR 2) by reflexivity; apply le_INR; lia).
  destruct W_pos as [hW _]. destruct B_pos as [hB _].
  unfold rhat_blocks. fold (W_of blocks). fold (W_of (map (affine a b) blocks)). fold (B_of n blocks). fold (B_of n (map (affine a b) blocks)).
  rewrite ew, eb. f_equal.
  replace ((INR n - 1) / INR n * (a * a * W_of blocks) + 1 / INR n * (a * a * B_of n blocks))
    with (a * a * ((INR n - 1) / INR n * W_of blocks + 1 / INR n * B_of n blocks)) by ring.
  set (vp := (INR n - 1) / INR n * W_of blocks + 1 / INR n * B_of n blocks).
  unfold fl_div, reqb. destruct (Req_EM_T (W_of blocks) 0) as [e | e].
  - rewrite e. destruct (Req_EM_T (a * a * 0) 0) as [_ | k]; [| exfalso; apply k; ring].
    unfold rltb. destruct (Rlt_dec 0 vp), (Rlt_dec 0 (a * a * vp)), (Rlt_dec vp 0), (Rlt_dec (a * a * vp) 0); try reflexivity; exfalso; nra.
  - destruct (Req_EM_T (a * a * W_of blocks) 0) as [k | _]; [exfalso; nra |]. f_equal. field. auto.
Qed.
End Rhat.
