(** Property C134: what the Gelman-Rubin verdict looks at and what it can miss. *)
From Coq Require Import List Arith ZArith Reals Bool Lia Lra Permutation Psatz.
From Verif Require Import ConfigModel FlModel PriorModel SmcModel SelectProofs SmcProofs MhModel MhProofs2 MhThms RhatModel.
Import ListNotations.
Local Open Scope R_scope.

(** the values of coordinate d of chain c from iteration a on, n of them *)
Definition values (s : chains) (a n d c : nat) : list R := map (fun t => x_at s c t d) (seq a n).

Lemma position_in n i : (0 <= i)%Z -> (i <= Z.of_nat n)%Z -> position n i = Z.to_nat i.
Proof. intros h1 h2. unfold position. destruct (Z.ltb_spec i 0); [lia |]. now rewrite Z.min_l. Qed.

(** the first iteration used *)
Definition first_used (s : chains) (burnin last : option Z) : nat :=
  match last with
  | Some n => giter s - Z.to_nat n
  | None => Z.to_nat (match burnin with Some b => b | None => burn s end)
  end.

Theorem C134_rows : forall s burnin last, (giter s <= n_steps s)%nat -> (0 <= burn s)%Z ->
  (forall b, burnin = Some b -> 0 <= b)%Z -> (forall n, last = Some n -> 0 <= n)%Z ->
  compute_rhat s burnin last =
    if (2 <=? n_ch s)%nat && (first_used s burnin last + 2 <=? giter s)%nat then
      let a := first_used s burnin last in
      Some (map (fun d => rhat_blocks (giter s - a) (map (values s a (giter s - a) d) (seq 0 (n_ch s)))) (seq 0 (n_dim s)))
    else None.
Proof.
  intros s burnin last hg hbu hb hl. unfold compute_rhat.
  set (i0 := match last with None => _ | Some _ => _ end).
  assert (e0 : i0 = Z.of_nat (first_used s burnin last)).
  { unfold i0, first_used. destruct last as [n |].
    - specialize (hl n eq_refl). rewrite Nat2Z.inj_sub_max, Z2Nat.id by assumption. reflexivity.
    - destruct burnin as [b |]; rewrite Z2Nat.id; auto. }
  destruct (Nat.ltb_spec (n_ch s) 2) as [h2 | h2]; destruct (Nat.leb_spec 2 (n_ch s)); try lia; [reflexivity |].
  set (a := first_used s burnin last) in *. rewrite e0. clear e0 i0. simpl andb.
  destruct (Z.leb_spec (Z.of_nat (giter s) - Z.of_nat a) 1), (Nat.leb_spec (a + 2) (giter s)); try lia; [reflexivity |].
  cbv zeta. f_equal. apply map_ext. intro d. unfold rhat_rows, positions.
  rewrite !position_in by lia. rewrite !Nat2Z.id, <- Nat2Z.inj_sub, Nat2Z.id by lia. rewrite seq_length.
  destruct (Nat.leb_spec (giter s - a) 1); [lia |]. reflexivity.
Qed.

(** with their default arguments, the check includes the burn-in, the statistic does not; an explicit number of last
    iterations makes burnin_period irrelevant, and reaches into the burn-in exactly when it is larger than the rest *)
Theorem C134_burnin : forall s, (giter s <= n_steps s)%nat -> (0 <= burn s)%Z ->
  first_used s (Some 0%Z) None = 0%nat /\ first_used s None None = Z.to_nat (burn s) /\
  check_default s = check_rhat s (Some 0%Z) None (11 / 10) /\
  (forall b b' n, compute_rhat s b (Some n) = compute_rhat s b' (Some n)) /\
  (forall b n, (0 <= n)%Z -> (Z.to_nat (burn s) <= giter s)%nat ->
    ((first_used s b (Some n) < Z.to_nat (burn s))%nat <-> (giter s - Z.to_nat (burn s) < Z.to_nat n /\ 0 < Z.to_nat (burn s))%nat)).
Proof.
  intros s hg hb. repeat split; try reflexivity; unfold first_used in *; lia.
Qed.

(** the verdict on one coordinate *)
Section Verdict.
Variables (n : nat) (blocks : list (list R)).
Hypothesis hn : (2 <= n)%nat.
Hypothesis hc : (2 <= length blocks)%nat.
Hypothesis hb : forall l, In l blocks -> length l = n.

Lemma hN : 2 <= INR n.
Proof. replace 2 with (INR 2) by reflexivity. apply le_INR. lia. Qed.
Lemma verdict t : 0 < t -> (fl_lt (rhat_blocks n blocks) (Fin t) = true <->
  0 < mean_l (map var1 blocks) /\ var1 (map mean_l blocks) < (t * t - 1 + 1 / INR n) * mean_l (map var1 blocks)).
Proof.
  intro ht. pose proof hN as h2. destruct (W_pos n blocks hn hc hb) as [hW _]. fold (W_of blocks).
  destruct (Req_dec (W_of blocks) 0) as [e | e].
  - rewrite (rhat_degenerate n blocks hn hc e). split; [| intros [h _]; lra].
    unfold reqb. destruct (Req_EM_T (B_of n blocks) 0); simpl; discriminate.
  - assert (hw : 0 < W_of blocks) by lra. destruct (rhat_value n blocks hn hc hw) as [r [hr [r0 r2]]]. rewrite hr. simpl.
    assert (k : fl_lt (Fin r) (Fin t) = true <-> r < t) by (simpl; unfold rltb; destruct (Rlt_dec r t); split; auto; discriminate).
    simpl in k. rewrite k. clear k.
    assert (q : r < t <-> r * r < t * t) by (split; intro; nra). rewrite q, r2. unfold B_of. set (v := var1 (map mean_l blocks)). set (w := W_of blocks) in *.
    replace ((INR n - 1) / INR n + INR n * v / (INR n * w)) with (1 - 1 / INR n + v / w) by (field; lra).
    assert (q2 : v / w < t * t - 1 + 1 / INR n <-> v < (t * t - 1 + 1 / INR n) * w).
    { split; intro h.
      - apply (Rmult_lt_compat_r w) in h; [| lra]. replace (v / w * w) with v in h by (field; lra). exact h.
      - apply (Rmult_lt_reg_r w); [lra |]. replace (v / w * w) with v by (field; lra). exact h. }
    split; [intro h; split; [lra |]; apply q2; lra | intros [_ h]; apply q2 in h; lra].
Qed.
End Verdict.

(** two chain means of a set of chains that passes are close to each other *)
Lemma sum_sq_two (m : R) l a b : (exists l1 l2 l3, l = l1 ++ a :: l2 ++ b :: l3) ->
  (a - b) * (a - b) / 2 <= sum_list (map (fun v => (v - m) * (v - m)) l).
Proof.
  intros [l1 [l2 [l3 ->]]].
  assert (P : forall k, 0 <= sum_list (map (fun v => (v - m) * (v - m)) k)).
  { intro k. apply sum_list_pos. intros z hz. apply in_map_iff in hz. destruct hz as [v [<- _]]. apply Rle_0_sqr. }
  repeat (rewrite ?map_app, ?sum_app; cbn [map]; rewrite ?sum_cons). pose proof (P l1). pose proof (P l2). pose proof (P l3).
  assert ((a - b) * (a - b) / 2 <= (a - m) * (a - m) + (b - m) * (b - m)).
  { pose proof (Rle_0_sqr (a - m + (b - m))) as q. unfold Rsqr in q. lra. } lra.
Qed.

Lemma in_two {A} (l : list A) i j da : (i < j)%nat -> (j < length l)%nat ->
  exists l1 l2 l3, l = l1 ++ nth i l da :: l2 ++ nth j l da :: l3.
Proof.
  intros hij hj. destruct (nth_split l da hj) as [p [q [e hp]]].
  destruct (nth_split p da (n := i) ltac:(lia)) as [p1 [p2 [e2 hp1]]].
  exists p1, p2, q. rewrite e at 1. rewrite e2 at 1. rewrite <- app_assoc. simpl. f_equal. f_equal.
  rewrite e. rewrite app_nth1 by lia. reflexivity.
Qed.

Theorem C134_verdict : forall n blocks t, (2 <= n)%nat -> (2 <= length blocks)%nat -> (forall l, In l blocks -> length l = n) -> 0 < t ->
  (fl_lt (rhat_blocks n blocks) (Fin t) = true <->
    0 < mean_l (map var1 blocks) /\ var1 (map mean_l blocks) < (t * t - 1 + 1 / INR n) * mean_l (map var1 blocks)).
Proof. intros. apply verdict; assumption. Qed.

(** the verdict on all coordinates: every one has to pass, and one whose chains do not move fails *)
Theorem C134_check : forall s burnin last t, (giter s <= n_steps s)%nat -> (0 <= burn s)%Z ->
  (forall b, burnin = Some b -> 0 <= b)%Z -> (forall n, last = Some n -> 0 <= n)%Z -> 0 < t ->
  let a := first_used s burnin last in let n := (giter s - a)%nat in
  let blocks d := map (values s a n d) (seq 0 (n_ch s)) in
  (check_rhat s burnin last t = None <-> (n_ch s < 2 \/ giter s < a + 2)%nat) /\
  (check_rhat s burnin last t = Some true <-> (2 <= n_ch s /\ a + 2 <= giter s)%nat /\
    forall d, (d < n_dim s)%nat ->
      0 < mean_l (map var1 (blocks d)) /\ var1 (map mean_l (blocks d)) < (t * t - 1 + 1 / INR n) * mean_l (map var1 (blocks d))).
Proof.
  intros s burnin last t hg hbu hb hl ht a n blocks. unfold check_rhat. rewrite C134_rows by assumption. fold a n. cbv zeta.
  destruct (Nat.leb_spec 2 (n_ch s)) as [h2 | h2]; destruct (Nat.leb_spec (a + 2) (giter s)) as [h3 | h3]; cbn [andb].
  2, 3, 4: split; split; try discriminate; intros; try reflexivity; try lia; exfalso; intuition lia.
  split; [split; [discriminate | lia] |].
  assert (V : forall d, fl_lt (rhat_blocks n (blocks d)) (Fin t) = true <->
    0 < mean_l (map var1 (blocks d)) /\ var1 (map mean_l (blocks d)) < (t * t - 1 + 1 / INR n) * mean_l (map var1 (blocks d))).
  { intro d. apply C134_verdict; [unfold n; lia | unfold blocks; rewrite map_length, seq_length; lia | | assumption].
    intros l Hl. unfold blocks in Hl. apply in_map_iff in Hl. destruct Hl as [c [<- _]]. unfold values. now rewrite map_length, seq_length. }
  split.
  - intro H. injection H as H. split; [lia |]. intros d hd. apply V.
    rewrite forallb_forall in H. apply H. apply in_map_iff. exists d. split; [reflexivity | apply in_seq; lia].
  - intros [_ H]. f_equal. apply forallb_forall. intros r hr. apply in_map_iff in hr. destruct hr as [d [<- hd]].
    apply in_seq in hd. apply V, H. lia.
Qed.

Theorem C134_close : forall n blocks t i j, (2 <= n)%nat -> (2 <= length blocks)%nat -> (forall l, In l blocks -> length l = n) -> 0 < t ->
  (i < length blocks)%nat -> (j < length blocks)%nat -> i <> j ->
  fl_lt (rhat_blocks n blocks) (Fin t) = true ->
  (mean_l (nth i blocks []) - mean_l (nth j blocks [])) ^ 2
    < 2 * (INR (length blocks) - 1) * (t * t - 1 + 1 / INR n) * mean_l (map var1 blocks).
Proof.
  intros n blocks t i j hn hc hb ht hi hj hij hok. apply (verdict n blocks hn hc hb t ht) in hok. destruct hok as [hw hv].
  set (w := (t * t - 1 + 1 / INR n) * mean_l (map var1 blocks)) in *.
  set (ms := map mean_l blocks) in *. set (m := INR (length blocks)).
  assert (hm : 2 <= m) by (unfold m; replace 2 with (INR 2) by reflexivity; apply le_INR; lia).
  assert (el : length ms = length blocks) by (unfold ms; apply map_length).
  assert (en : forall k, (k < length blocks)%nat -> mean_l (nth k blocks []) = nth k ms 0).
  { intros k hk. unfold ms. rewrite (nth_indep _ 0 (mean_l [])) by (rewrite map_length; assumption). now rewrite map_nth. }
  assert (K : forall a b, (a < b)%nat -> (b < length blocks)%nat ->
    (nth a ms 0 - nth b ms 0) ^ 2 <= 2 * (m - 1) * var1 ms).
  { intros a b hab hb'. pose proof (sum_sq_two (mean_l ms) ms (nth a ms 0) (nth b ms 0) (in_two ms a b 0 hab ltac:(lia))) as h.
    unfold var1. rewrite el. fold m.
    replace (2 * (m - 1) * (sum_list (map (fun v => (v - mean_l ms) * (v - mean_l ms)) ms) / (m - 1)))
      with (2 * sum_list (map (fun v => (v - mean_l ms) * (v - mean_l ms)) ms)) by (field; lra). simpl pow. lra. }
  rewrite !en by assumption.
  replace (2 * (m - 1) * (t * t - 1 + 1 / INR n) * mean_l (map var1 blocks)) with (2 * (m - 1) * w) by (unfold w; ring).
  assert (H : (nth i ms 0 - nth j ms 0) ^ 2 <= 2 * (m - 1) * var1 ms).
  { destruct (Nat.lt_trichotomy i j) as [h | [h | h]]; [now apply K | contradiction |].
    replace ((nth i ms 0 - nth j ms 0) ^ 2) with ((nth j ms 0 - nth i ms 0) ^ 2) by ring. now apply K. }
  apply Rle_lt_trans with (1 := H). apply Rmult_lt_compat_l; lra.
Qed.

(** the order of the iterations within a chain plays no role: a drift is not seen *)
Lemma sum_perm l l' : Permutation l l' -> sum_list l = sum_list l'.
Proof.
  induction 1; [reflexivity | rewrite !sum_cons; congruence | rewrite !sum_cons; ring | congruence].
Qed.
Lemma mean_perm l l' : Permutation l l' -> mean_l l = mean_l l'.
Proof. intro h. unfold mean_l. now rewrite (sum_perm _ _ h), (Permutation_length h). Qed.
Lemma var_perm l l' : Permutation l l' -> var1 l = var1 l'.
Proof.
  intro h. unfold var1. rewrite (mean_perm _ _ h), (Permutation_length h).
  now rewrite (sum_perm _ _ (Permutation_map (fun v => (v - mean_l l') * (v - mean_l l')) h)).
Qed.
Theorem C134_order : forall n blocks blocks', Forall2 (@Permutation R) blocks blocks' -> rhat_blocks n blocks' = rhat_blocks n blocks.
Proof.
  intros n blocks blocks' h. unfold rhat_blocks.
  assert (e1 : map mean_l blocks' = map mean_l blocks) by (induction h; simpl; [reflexivity | rewrite IHh; f_equal; symmetry; now apply mean_perm]).
  assert (e2 : map var1 blocks' = map var1 blocks) by (clear e1; induction h; simpl; [reflexivity | rewrite IHh; f_equal; symmetry; now apply var_perm]).
  now rewrite e1, e2.
Qed.

(** chains that are copies of each other pass, wherever they go *)
Lemma repeat_var (l : list R) m : (2 <= length l)%nat -> (1 <= m)%nat -> mean_l (map var1 (repeat l m)) = var1 l.
Proof.
  intros _ hm. unfold mean_l. rewrite map_length, repeat_length.
  assert (e : sum_list (map var1 (repeat l m)) = INR m * var1 l).
  { clear hm. induction m as [| m ih]; [simpl; unfold sum_list; simpl; ring |].
    cbn [repeat map]. rewrite sum_cons, ih, S_INR. ring. }
  rewrite e. field. apply not_0_INR. lia.
Qed.
Theorem C134_copies : forall (l : list R) m v w, (2 <= m)%nat -> In v l -> In w l -> v <> w ->
  let n := length l in
  exists r, rhat_blocks n (repeat l m) = Fin r /\ 0 <= r /\ r * r = 1 - 1 / INR n /\ r < 1.
Proof.
  intros l m v w hm hv hw hne n.
  assert (hn : (2 <= n)%nat) by (unfold n; destruct l as [| a [| b l]]; simpl in *; try lia; exfalso; intuition congruence).
  destruct (C60_lower_bound n (repeat l m) hn) as [r [h1 [h2 [h3 h4]]]].
  - now rewrite repeat_length.
  - intros k hk. apply repeat_spec in hk. now subst k.
  - exists l, v, w. repeat split; auto. destruct m as [| m]; [lia | now left].
  - assert (hN' : 2 <= INR n) by (replace 2 with (INR 2) by reflexivity; apply le_INR; lia).
    assert (e : r * r = (INR n - 1) / INR n).
    { apply h4. intros k k' hk hk'. apply repeat_spec in hk. apply repeat_spec in hk'. now subst. }
    exists r. split; [exact h1 |]. split; [exact h2 |].
    assert (e2 : r * r = 1 - 1 / INR n) by (rewrite e; field; lra). split; [exact e2 |].
    assert (0 < 1 / INR n) by (apply Rmult_lt_0_compat; [lra | apply Rinv_0_lt_compat; lra]). nra.
Qed.

(** a negative burnin_period counts from the end of the array, but the formula counts n_steps + k iterations *)
Theorem C134_negative : forall s k, giter s = n_steps s -> (2 <= k <= n_steps s)%nat -> (2 <= n_ch s)%nat ->
  compute_rhat s (Some (- Z.of_nat k)%Z) None =
    Some (map (fun d => rhat_blocks (n_steps s + k) (map (values s (n_steps s - k) k d) (seq 0 (n_ch s)))) (seq 0 (n_dim s))).
Proof.
  intros s k hg hk hc. unfold compute_rhat. destruct (Nat.ltb_spec (n_ch s) 2); [lia |]. rewrite hg.
  destruct (Z.leb_spec (Z.of_nat (n_steps s) - - Z.of_nat k) 1); [lia |]. f_equal. apply map_ext. intro d.
  unfold rhat_rows, positions.
  assert (e1 : position (n_steps s) (- Z.of_nat k) = (n_steps s - k)%nat).
  { unfold position. destruct (Z.ltb_spec (- Z.of_nat k) 0); lia. }
  rewrite e1, position_in by lia. rewrite Nat2Z.id, seq_length.
  replace (n_steps s - (n_steps s - k))%nat with k by lia. destruct (Nat.leb_spec k 1); [lia |].
  replace (Z.to_nat (Z.of_nat (n_steps s) - - Z.of_nat k)) with (n_steps s + k)%nat by lia. reflexivity.
Qed.

(** two chains that go from 0 to 9 together *)
Definition drift : chains := Chains 2 10 1 (fun _ t _ => INR t) 10 4.
Example C134_case : check_default drift = Some true /\
  compute_default drift = Some [rhat_blocks 6 (map (values drift 4 6 0) [0; 1]%nat)] /\
  compute_rhat drift None (Some 8%Z) = Some [rhat_blocks 8 (map (values drift 2 8 0) [0; 1]%nat)].
Proof.
  split; [| split; [reflexivity | reflexivity]].
  unfold check_default, check_rhat. rewrite C134_rows; [| simpl; lia | simpl; lia | intros b [= <-]; lia | discriminate].
  cbn [n_ch n_dim giter n_steps burn drift first_used]. replace ((2 <=? 2)%nat && (Z.to_nat 0 + 2 <=? 10)%nat) with true by reflexivity.
  cbv zeta. cbn [seq map]. change (10 - Z.to_nat 0)%nat with 10%nat.
  assert (hl : values drift (Z.to_nat 0) 10 0 1 = values drift (Z.to_nat 0) 10 0 0) by reflexivity. rewrite hl.
  set (l := values drift (Z.to_nat 0) 10 0 0).
  destruct (C134_copies l 2 (INR 0) (INR 1)) as [r [h1 [h2 [h3 h4]]]]; [lia | now left | right; now left | simpl; lra |].
  change (length l) with 10%nat in h1. cbn [repeat] in h1. rewrite h1. cbn [forallb fl_lt]. unfold rltb.
  destruct (Rlt_dec r (11 / 10)); [reflexivity | lra].
Qed.

Print Assumptions C134_rows.
Print Assumptions C134_burnin.
Print Assumptions C134_verdict.
Print Assumptions C134_check.
Print Assumptions C134_close.
Print Assumptions C134_order.
Print Assumptions C134_copies.
Print Assumptions C134_negative.
