(** Proofs about QuantModel. *)
From Coq Require Import List Arith Reals ZArith Bool Lra Lia Permutation Sorted.
From Verif Require Import ReduceModel QuantModel.
Import ListNotations.
Local Open Scope R_scope.

(** ** sorting *)
Definition sorted (s : list R) : Prop := StronglySorted Rle s.
Lemma insert_perm x l : Permutation (x :: l) (insert x l).
Proof. induction l as [| y l IH]; cbn; auto. destruct (Rle_dec x y); auto. rewrite perm_swap. constructor. exact IH. Qed.
Lemma insert_sorted x l : sorted l -> sorted (insert x l).
Proof.
  induction 1 as [| y l S IH F]; cbn; [repeat constructor |]. destruct (Rle_dec x y) as [h | h].
  - constructor; [constructor; auto | constructor; auto]. rewrite Forall_forall in *. intros z Hz. specialize (F z Hz). lra.
  - constructor; auto. eapply Permutation_Forall; [apply insert_perm |]. constructor; [lra | exact F].
Qed.
Lemma sort_perm l : Permutation l (sort l).
Proof. induction l as [| x l IH]; cbn; auto. rewrite <- insert_perm. constructor. exact IH. Qed.
Lemma sort_sorted l : sorted (sort l).
Proof. induction l; cbn; [constructor | apply insert_sorted; auto]. Qed.
Lemma sorted_unique s : forall t, sorted s -> sorted t -> Permutation s t -> s = t.
Proof.
  induction s as [| x s IH]; intros t hs ht P; [apply Permutation_nil in P; auto |].
  destruct t as [| y t]; [symmetry in P; apply Permutation_nil in P; discriminate |].
  inversion hs as [| ? ? hs' Fs]; inversion ht as [| ? ? ht' Ft]; subst. rewrite Forall_forall in *.
  assert (x = y).
  { apply Rle_antisym.
    - assert (I : In y (x :: s)) by (eapply Permutation_in; [symmetry; exact P | left; auto]). destruct I as [-> | I]; [lra | apply Fs; auto].
    - assert (I : In x (y :: t)) by (eapply Permutation_in; [exact P | left; auto]). destruct I as [-> | I]; [lra | apply Ft; auto]. }
  subst y. f_equal. apply IH; auto. eapply Permutation_cons_inv; eauto.
Qed.
Lemma sort_unique s l : sorted s -> Permutation s l -> sort l = s.
Proof. intros h P. symmetry. apply sorted_unique; auto; [apply sort_sorted |]. rewrite P. apply sort_perm. Qed.
Lemma sorted_nth s i k : sorted s -> (i <= k < length s)%nat -> nth i s 0 <= nth k s 0.
Proof.
  intros h. revert i k. induction h as [| x s h IH F]; intros i k [h1 h2]; cbn in h2; [lia |].
  destruct k as [| k]; [replace i with 0%nat by lia; lra |]. destruct i as [| i].
  - cbn. rewrite Forall_forall in F. apply F. apply nth_In. lia.
  - cbn. apply IH. lia.
Qed.

(** ** interpolation *)
Definition lin (s : list R) (h : R) (k : nat) : R := nth k s 0 + (h - INR k) * (nth (k + 1) s 0 - nth k s 0).
Lemma floor_nat h : 0 <= h -> INR (Z.to_nat (Int_part h)) <= h < INR (Z.to_nat (Int_part h)) + 1.
Proof.
  intros h0. destruct (base_Int_part h) as [a c]. rewrite INR_IZR_INZ.
  assert (z : (0 <= Int_part h)%Z).
  { assert (IZR (-1) < IZR (Int_part h)) by lra. apply lt_IZR in H. lia. }
  rewrite Z2Nat.id by exact z. lra.
Qed.
Lemma perc_lin q l k : let n := length l in let h := q * (INR n - 1) in
  (k + 1 < n)%nat -> INR k <= h <= INR k + 1 -> percentile_col q l = lin (sort l) h k.
Proof.
  intros n h hk hh. unfold percentile_col. fold n. fold h. set (s := sort l). set (j := Z.to_nat (Int_part h)).
  assert (F : INR j <= h < INR j + 1) by (apply floor_nat; assert (0 <= INR k) by apply pos_INR; lra).
  assert (j = k \/ (j = k + 1)%nat).
  { assert (j < k + 2)%nat by (apply INR_lt; rewrite plus_INR; cbn [INR]; lra).
    assert (k < j + 1)%nat by (apply INR_lt; rewrite plus_INR; cbn [INR]; lra). lia. }
  unfold lin. destruct H as [-> | ->].
  - rewrite Nat.min_l by lia. reflexivity.
  - assert (e : h = INR (k + 1)) by (rewrite plus_INR in *; cbn [INR] in *; lra). rewrite e at 1 2. rewrite plus_INR; cbn [INR]. ring.
Qed.
Lemma perc_single q x : percentile_col q [x] = x.
Proof.
  unfold percentile_col. cbn [length INR]. replace (q * (1 - 1)) with 0 by ring.
  assert (F := floor_nat 0 (Rle_refl 0)). set (j := Z.to_nat (Int_part 0)) in *.
  assert (j = 0%nat). { assert (j < 1)%nat by (apply INR_lt; cbn [INR]; lra). lia. } rewrite H. cbn. ring.
Qed.
Lemma segment q n : (2 <= n)%nat -> 0 <= q <= 1 -> exists k, (k + 1 < n)%nat /\ INR k <= q * (INR n - 1) <= INR k + 1.
Proof.
  intros hn hq. set (h := q * (INR n - 1)). assert (n1 : INR n - 1 = INR (n - 1)) by (rewrite minus_INR by lia; reflexivity).
  assert (p : 0 <= INR (n - 1)) by apply pos_INR.
  assert (h0 : 0 <= h) by (unfold h; rewrite n1; apply Rmult_le_pos; lra).
  assert (h1 : h <= INR (n - 1)) by (unfold h; rewrite n1; nra).
  assert (F := floor_nat h h0). set (j := Z.to_nat (Int_part h)) in *.
  destruct (lt_dec (j + 1) n) as [L | L]; [exists j; split; [exact L | lra] |].
  exists (n - 2)%nat. split; [lia |].
  assert (j <= n - 1)%nat by (apply INR_le; lra). assert (j = n - 1)%nat by lia. subst j. rewrite H0 in F.
  rewrite (minus_INR n 2) by lia. rewrite (minus_INR n 1) in * by lia. cbn [INR] in *. lra.
Qed.
Lemma two_or_one (l : list R) : l <> [] -> (exists x, l = [x]) \/ (2 <= length l)%nat.
Proof. destruct l as [| x [| y l]]; intros; [congruence | left; eauto | right; cbn; lia]. Qed.
Lemma sort_length l : length (sort l) = length l.
Proof. apply Permutation_length. symmetry. apply sort_perm. Qed.
Lemma lin_bounds s h k : sorted s -> (k + 1 < length s)%nat -> INR k <= h <= INR k + 1 -> nth k s 0 <= lin s h k <= nth (k + 1) s 0.
Proof. intros S hk hh. assert (nth k s 0 <= nth (k + 1) s 0) by (apply sorted_nth; [auto | lia]). unfold lin. nra. Qed.
Lemma perc_mono q q' l : l <> [] -> 0 <= q -> q <= q' -> q' <= 1 -> percentile_col q l <= percentile_col q' l.
Proof.
  intros hl h0 h1 h2. destruct (two_or_one l hl) as [[x ->] | hn]; [rewrite !perc_single; lra |].
  destruct (segment q (length l) hn) as (k & hk & hh); [lra |]. destruct (segment q' (length l) hn) as (k' & hk' & hh'); [lra |].
  rewrite (perc_lin q l k) by assumption. rewrite (perc_lin q' l k') by assumption.
  assert (le : q * (INR (length l) - 1) <= q' * (INR (length l) - 1)).
  { apply Rmult_le_compat_r; [| lra]. assert (INR 2 <= INR (length l)) by (apply le_INR; lia). cbn [INR] in H. lra. }
  set (h := q * _) in *. set (h' := q' * _) in *. assert (SS := sort_sorted l). assert (L := sort_length l).
  destruct (lt_eq_lt_dec k k') as [[c | c] | c].
  - apply Rle_trans with (nth (k + 1) (sort l) 0); [apply lin_bounds; auto; lia |].
    apply Rle_trans with (nth k' (sort l) 0); [apply sorted_nth; auto; lia | apply lin_bounds; auto; lia].
  - subst k'. unfold lin. assert (nth k (sort l) 0 <= nth (k + 1) (sort l) 0) by (apply sorted_nth; auto; lia). nra.
  - assert (INR k' + 1 <= INR k) by (rewrite <- S_INR; apply le_INR; lia). assert (e : h = h') by lra. rewrite <- e in *.
    assert (INR k = INR k' + 1) by lra. unfold lin. rewrite <- S_INR in H0. apply INR_eq in H0. subst k.
    replace (k' + 1)%nat with (S k') by lia.
    assert (h = INR (S k')) by (rewrite S_INR in *; lra). rewrite H0. rewrite S_INR. lra.
Qed.
Lemma perc_bounds q l x : In x l -> 0 <= q <= 1 -> (forall y, In y l -> x <= y) -> x <= percentile_col q l.
Proof.
  intros hx hq hm. assert (hl : l <> []) by (intro; subst; destruct hx).
  destruct (two_or_one l hl) as [[y ->] | hn]; [rewrite perc_single; apply hm; left; auto |].
  destruct (segment q (length l) hn hq) as (k & hk & hh). rewrite (perc_lin q l k) by assumption.
  apply Rle_trans with (nth k (sort l) 0); [| apply lin_bounds; auto; [apply sort_sorted | rewrite sort_length; auto]].
  apply hm. eapply Permutation_in; [symmetry; apply sort_perm |]. apply nth_In. rewrite sort_length. lia.
Qed.
Lemma perc_zero l : l <> [] -> percentile_col 0 l = nth 0 (sort l) 0.
Proof.
  intros hl. destruct (two_or_one l hl) as [[x ->] | hn]; [rewrite perc_single; reflexivity |].
  rewrite (perc_lin 0 l 0) by (cbn [INR]; lia || lra). unfold lin. cbn [INR]. ring.
Qed.
Lemma perc_one l : l <> [] -> percentile_col 1 l = nth (length l - 1) (sort l) 0.
Proof.
  intros hl. destruct (two_or_one l hl) as [[x ->] | hn]; [rewrite perc_single; reflexivity |].
  assert (e : INR (length l) - 1 = INR (length l - 2) + 1) by (rewrite minus_INR by lia; cbn [INR]; ring).
  rewrite (perc_lin 1 l (length l - 2)) by (lia || lra). unfold lin. rewrite Rmult_1_l, e.
  replace (length l - 2 + 1)%nat with (length l - 1)%nat by lia. ring.
Qed.
Lemma perc_perm q l l' : Permutation l l' -> percentile_col q l = percentile_col q l'.
Proof.
  intros P. unfold percentile_col. rewrite (Permutation_length P).
  rewrite (sort_unique (sort l') l); [reflexivity | apply sort_sorted |]. rewrite P. symmetry. apply sort_perm.
Qed.
Lemma map_sorted f s : (forall x y, x <= y -> f x <= f y) -> sorted s -> sorted (map f s).
Proof.
  intros hf. induction 1 as [| x s h IH F]; cbn; constructor; auto. rewrite Forall_map. rewrite Forall_forall in *. auto.
Qed.
Lemma perc_affine q l a b : 0 <= a -> l <> [] -> 0 <= q <= 1 -> percentile_col q (map (fun x => a * x + b) l) = a * percentile_col q l + b.
Proof.
  intros ha hl hq. assert (E : sort (map (fun x => a * x + b) l) = map (fun x => a * x + b) (sort l)).
  { apply sort_unique; [apply map_sorted; [intros; nra | apply sort_sorted] |]. apply Permutation_map. symmetry. apply sort_perm. }
  destruct (two_or_one l hl) as [[x ->] | hn]; [cbn [map]; rewrite !perc_single; reflexivity |].
  destruct (segment q (length l) hn hq) as (k & hk & hh).
  rewrite (perc_lin q (map _ l) k); rewrite ?map_length; auto. rewrite (perc_lin q l k) by assumption. rewrite E. unfold lin.
  rewrite !(nth_indep (map _ _) 0 (a * 0 + b)) by (rewrite map_length, sort_length; lia).
  rewrite !(map_nth (fun x => a * x + b)). ring.
Qed.
Lemma app_sorted s x : sorted s -> (forall y, In y s -> y <= x) -> sorted (s ++ [x]).
Proof.
  induction 1 as [| y s h IH F]; intros hx; cbn; [repeat constructor |]. constructor; [apply IH; intros; apply hx; right; auto |].
  apply Forall_app. split; auto. constructor; auto. apply hx. left; auto.
Qed.
Lemma rev_opp_sorted s : sorted s -> sorted (rev (map Ropp s)).
Proof.
  induction 1 as [| x s h IH F]; cbn; [constructor |]. apply app_sorted; auto.
  intros y Hy. apply in_rev in Hy. apply in_map_iff in Hy as (z & <- & Hz). rewrite Forall_forall in F. specialize (F z Hz). lra.
Qed.
Lemma perc_opp q l : l <> [] -> 0 <= q <= 1 -> percentile_col q (map Ropp l) = - percentile_col (1 - q) l.
Proof.
  intros hl hq. assert (E : sort (map Ropp l) = rev (map Ropp (sort l))).
  { apply sort_unique; [apply rev_opp_sorted, sort_sorted |]. rewrite <- Permutation_rev. apply Permutation_map. symmetry. apply sort_perm. }
  destruct (two_or_one l hl) as [[x ->] | hn]; [cbn [map]; rewrite !perc_single; reflexivity |].
  destruct (segment q (length l) hn hq) as (k & hk & hh). set (k' := (length l - 2 - k)%nat).
  assert (ek : INR k' = INR (length l) - 2 - INR k) by (unfold k'; rewrite !minus_INR by lia; cbn [INR]; ring).
  rewrite (perc_lin q (map _ l) k); rewrite ?map_length; auto.
  rewrite (perc_lin (1 - q) l k'); [| unfold k'; lia | rewrite ek; lra]. rewrite E. unfold lin.
  rewrite !rev_nth by (rewrite map_length, sort_length; lia). rewrite map_length, sort_length.
  rewrite !(nth_indep (map _ _) 0 (- 0)) by (rewrite map_length, sort_length; lia). rewrite !(map_nth Ropp).
  replace (length l - S k)%nat with (k' + 1)%nat by (unfold k'; lia). replace (length l - S (k + 1))%nat with k' by (unfold k'; lia).
  rewrite ek. ring.
Qed.

(** ** counting *)
Definition below (v : R) (l : list R) : nat := length (filter (fun x => if Rle_dec x v then true else false) l).
Definition above (v : R) (l : list R) : nat := length (filter (fun x => if Rle_dec v x then true else false) l).
Lemma filter_perm {A} (f : A -> bool) l l' : Permutation l l' -> Permutation (filter f l) (filter f l').
Proof.
  induction 1 as [| x l l' P IH | x y l | l l' l'' P1 IH1 P2 IH2]; cbn; auto.
  - destruct (f x); auto.
  - destruct (f x), (f y); auto. apply perm_swap.
  - rewrite IH1. exact IH2.
Qed.
Lemma count_first (f : R -> bool) s m : (m <= length s)%nat -> (forall i, (i < m)%nat -> f (nth i s 0) = true) -> (m <= length (filter f s))%nat.
Proof.
  revert s. induction m as [| m IH]; intros s hm hf; [lia |]. destruct s as [| x s]; [cbn in hm; lia |]. cbn [filter].
  assert (e := hf 0%nat ltac:(lia)). cbn in e. rewrite e. cbn. apply le_n_S. apply IH; [cbn in hm; lia |]. intros i hi. apply (hf (S i)). lia.
Qed.
Lemma count_last (f : R -> bool) s m : (m <= length s)%nat -> (forall i, (m <= i < length s)%nat -> f (nth i s 0) = true) ->
  (length s - m <= length (filter f s))%nat.
Proof.
  revert m. induction s as [| x s IH]; intros m hm hf; [cbn; lia |]. cbn [filter]. destruct m as [| m].
  - assert (e := hf 0%nat ltac:(cbn; lia)). cbn in e. rewrite e. cbn. specialize (IH 0%nat ltac:(lia)).
    assert (length s - 0 <= length (filter f s))%nat by (apply IH; intros i hi; apply (hf (S i)); cbn; lia). lia.
  - assert (length s - m <= length (filter f s))%nat by (apply IH; [cbn in hm; lia |]; intros i hi; apply (hf (S i)); cbn; lia).
    destruct (f x); cbn; lia.
Qed.
Lemma perc_counts q l : l <> [] -> 0 <= q <= 1 ->
  q * (INR (length l) - 1) < INR (below (percentile_col q l) l) /\ (1 - q) * (INR (length l) - 1) < INR (above (percentile_col q l) l).
Proof.
  intros hl hq. unfold below, above. rewrite (Permutation_length (filter_perm _ _ _ (sort_perm l))).
  rewrite (Permutation_length (filter_perm (fun x => if Rle_dec (percentile_col q l) x then true else false) _ _ (sort_perm l))).
  destruct (two_or_one l hl) as [[x ->] | hn].
  - rewrite perc_single. cbn. destruct (Rle_dec x x); [cbn; lra | lra].
  - destruct (segment q (length l) hn hq) as (k & hk & hh). rewrite (perc_lin q l k) by assumption.
    replace ((1 - q) * (INR (length l) - 1)) with (INR (length l) - 1 - q * (INR (length l) - 1)) by ring.
    set (h := q * (INR (length l) - 1)) in *. set (s := sort l). assert (S := sort_sorted l). fold s in S.
    assert (L : length s = length l) by apply sort_length. clearbody h s. rewrite <- L in *. clear L hl.
    assert (bd := lin_bounds s h k S hk hh).
    assert (c1 : forall m, (m <= k + 1)%nat -> nth m s 0 <= lin s h k -> (m + 1 <= length (filter (fun x => if Rle_dec x (lin s h k) then true else false) s))%nat).
    { intros m hm hv. apply count_first; [lia |]. intros i hi. destruct (Rle_dec (nth i s 0) (lin s h k)) as [| n]; auto. exfalso. apply n.
      eapply Rle_trans; [| exact hv]. apply sorted_nth; auto; lia. }
    assert (c2 : forall m, (m <= k + 1)%nat -> lin s h k <= nth m s 0 -> (length s - m <= length (filter (fun x => if Rle_dec (lin s h k) x then true else false) s))%nat).
    { intros m hm hv. apply count_last; [lia |]. intros i hi. destruct (Rle_dec (lin s h k) (nth i s 0)) as [| n]; auto. exfalso. apply n.
      eapply Rle_trans; [exact hv |]. apply sorted_nth; auto; lia. }
    split.
    + destruct (Req_dec h (INR k + 1)) as [e | e].
      * assert (m := c1 (k + 1)%nat ltac:(lia)). apply le_INR in m; [rewrite !plus_INR in m; cbn [INR] in m; lra |].
        unfold lin. rewrite e. lra.
      * assert (m := c1 k ltac:(lia) (proj1 bd)). apply le_INR in m. rewrite plus_INR in m; cbn [INR] in m. lra.
    + destruct (Req_dec h (INR k)) as [e | e].
      * assert (m := c2 k ltac:(lia)). apply le_INR in m; [rewrite minus_INR in m by lia; lra |]. unfold lin. rewrite e. lra.
      * assert (m := c2 (k + 1)%nat ltac:(lia) (proj2 bd)). apply le_INR in m. rewrite minus_INR, plus_INR in m by lia. cbn [INR] in m. lra.
Qed.

(** ** the reducers *)
Definition inunit (q : R) : Prop := 0 <= q <= 1.
Lemma quantile_ok lst q : inunit q -> concat lst <> [] ->
  reduce_quantile lst q = Arr (fun j => percentile_col q (column j (concat lst))).
Proof.
  intros [h0 h1] hn. unfold reduce_quantile. destruct (Rle_dec 0 q); [| lra]. destruct (Rle_dec q 1); [| lra].
  unfold np_percentile. destruct (concat lst); congruence.
Qed.
Lemma quantile_bad lst q : ~ inunit q -> reduce_quantile lst q = Raise.
Proof.
  intros h. unfold reduce_quantile. destruct (Rle_dec 0 q) as [a |]; auto. destruct (Rle_dec q 1) as [b |]; auto. destruct h. split; auto.
Qed.
Lemma column_nonempty j d : d <> [] -> column j d <> [].
Proof. destruct d; cbn; congruence. Qed.
Lemma column_length j d : length (column j d) = length d.
Proof. apply map_length. Qed.
Definition fair (choice : nat -> nat -> nat -> list nat) : Prop :=
  forall k n m, (m <= n)%nat -> length (choice k n m) = m /\ NoDup (choice k n m) /\ forall i, In i (choice k n m) -> (i < n)%nat.
Lemma full_draw choice k n : fair choice -> Permutation (choice k n n) (seq 0 n).
Proof.
  intros h. destruct (h k n n (le_n n)) as (a & b & c). apply NoDup_Permutation_bis; auto.
  - rewrite a, seq_length. lia.
  - intros i Hi. apply in_seq. specialize (c i Hi). lia.
Qed.
Lemma take_all (d : list row) : take_rows d (seq 0 (length d)) = d.
Proof.
  unfold take_rows. apply nth_ext with (d := rzero) (d' := rzero); [rewrite map_length, seq_length; auto |].
  intros i hi. rewrite map_length, seq_length in hi.
  rewrite (nth_indep _ rzero (nth 0 d rzero)) by (rewrite map_length, seq_length; auto).
  rewrite (map_nth (fun k => nth k d rzero)). rewrite seq_nth by auto. reflexivity.
Qed.
Definition drawn choice (cap k : nat) (data : list row) : list row := take_rows data (choice k (length data) (Nat.min (length data) cap)).
Lemma drawn_full choice cap k d : fair choice -> (length d <= cap)%nat -> Permutation (drawn choice cap k d) d.
Proof.
  intros h c. unfold drawn. rewrite Nat.min_l by auto. apply perm_trans with (take_rows d (seq 0 (length d))); [apply Permutation_map, full_draw; auto | rewrite take_all; reflexivity].
Qed.
Lemma drawn_in choice cap k d x : fair choice -> In x (drawn choice cap k d) -> In x d.
Proof.
  intros h Hx. unfold drawn, take_rows in Hx. apply in_map_iff in Hx as (i & <- & Hi).
  destruct (h k (length d) (Nat.min (length d) cap) (Nat.le_min_l _ _)) as (_ & _ & c). apply nth_In. apply c. exact Hi.
Qed.
Lemma drawn_length choice cap k d : fair choice -> length (drawn choice cap k d) = Nat.min (length d) cap.
Proof.
  intros h. unfold drawn, take_rows. rewrite map_length. apply h. apply Nat.le_min_l.
Qed.
Definition sample choice cap lst := concat (map (fun kd : nat * list row => drawn choice cap (fst kd) (snd kd)) (combine (seq 0 (length lst)) lst)).
Lemma sample_gen choice cap (lst : list (list row)) s : fair choice -> (forall d, In d lst -> (length d <= cap)%nat) ->
  Permutation (concat (map (fun kd : nat * list row => drawn choice cap (fst kd) (snd kd)) (combine (seq s (length lst)) lst))) (concat lst).
Proof.
  intros h. revert s. induction lst as [| d lst IH]; intros s hc; cbn; auto.
  apply Permutation_app; [apply drawn_full; auto; apply hc; left; auto | apply IH; intros; apply hc; right; auto].
Qed.
Lemma sample_in choice cap (lst : list (list row)) s x : fair choice ->
  In x (concat (map (fun kd : nat * list row => drawn choice cap (fst kd) (snd kd)) (combine (seq s (length lst)) lst))) -> In x (concat lst).
Proof.
  intros h. revert s. induction lst as [| d lst IH]; intros s; cbn; auto. rewrite !in_app_iff. intros [H | H].
  - left. eapply drawn_in; eauto.
  - right. eapply IH; eauto.
Qed.
Lemma sample_len choice cap (lst : list (list row)) s : fair choice ->
  length (concat (map (fun kd : nat * list row => drawn choice cap (fst kd) (snd kd)) (combine (seq s (length lst)) lst)))
  = fold_right (fun d a => (Nat.min (length d) cap + a)%nat) 0%nat lst.
Proof.
  intros h. revert s. induction lst as [| d lst IH]; intros s; cbn; auto. rewrite app_length, IH, drawn_length; auto.
Qed.
Lemma approx_unfold choice lst q m : inunit q -> lst <> [] ->
  reduce_quantile_approx choice lst q m = np_percentile q (sample choice (m / length lst) lst).
Proof.
  intros [h0 h1] hl. unfold reduce_quantile_approx. destruct (Rle_dec 0 q); [| lra]. destruct (Rle_dec q 1); [| lra].
  destruct lst; [congruence | reflexivity].
Qed.
Lemma np_perc_perm q d d' : Permutation d d' -> d <> [] -> np_percentile q d = Arr (fun j => percentile_col q (column j d)) /\
  (forall j, percentile_col q (column j d) = percentile_col q (column j d')).
Proof.
  intros P hd. split; [destruct d; [congruence | reflexivity] |]. intros j. apply perc_perm. apply Permutation_map. exact P.
Qed.

Lemma transform_affine c s l : 0 < s -> map (transform (mkScaler c s)) l = map (fun x => / s * x + - c / s) l.
Proof. intros h. apply map_ext. intros x. unfold transform. cbn. field. lra. Qed.
Lemma perc_transform q c s l : 0 < s -> l <> [] -> inunit q ->
  percentile_col q (map (transform (mkScaler c s)) l) = (percentile_col q l - c) / s.
Proof.
  intros h hl hq. rewrite transform_affine by auto. rewrite perc_affine; auto; [field; lra |]. apply Rlt_le, Rinv_0_lt_compat. auto.
Qed.
