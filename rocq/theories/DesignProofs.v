(** Spec vocabulary and lemmas for DesignModel. *)
From Coq Require Import Reals Lra Lia List Bool Arith.
From Verif Require Import FlModel DesignModel NutsProofs.
Import ListNotations.
Local Open Scope R_scope.

(** k-th of n equally spaced levels of [a,b] (the single level is a) *)
Definition lev (a b : R) (n k : nat) : R := a + (b - a) * INR k / INR (n - 1).
(** lexicographic position of a multi-index *)
Fixpoint rank (m k : list nat) : nat :=
  match m, k with _ :: m', k0 :: k' => (k0 * prod m' + rank m' k')%nat | _, _ => 0%nat end.
Definition in_range (m k : list nat) : Prop := Forall2 lt k m.
Definition grid_point (xmin xmax : list R) (m k : list nat) : list R :=
  map (fun i => lev (nth i xmin 0) (nth i xmax 0) (nth i m 0%nat) (nth i k 0%nat)) (seq 0 (length m)).

Lemma in_range_length m k : in_range m k -> length k = length m.
Proof. intro h. induction h; cbn; congruence. Qed.
Lemma in_range_nth m k : in_range m k -> forall i, (i < length m)%nat -> (nth i k 0 < nth i m 0)%nat.
Proof. intro h. induction h as [| a b k m h hs IH]; intros i hi; cbn in hi; [lia |]. destruct i; cbn; [exact h | apply IH; lia]. Qed.
Lemma rank_lt m : forall k, in_range m k -> (rank m k < prod m)%nat.
Proof.
  induction m as [| c m IH]; intros k h; inversion h as [| a b k' m' h1 h2]; subst; cbn; [lia |].
  specialize (IH _ h2). assert ((a * prod m + prod m <= c * prod m)%nat); [| lia]. nia.
Qed.
Lemma prod_split m : forall i, (i < length m)%nat -> (prod m = prod (firstn i m) * nth i m 0 * prod (skipn (S i) m))%nat.
Proof.
  induction m as [| c m IH]; intros i h; [cbn in h; lia |]. destruct i; [cbn; lia |].
  cbn [firstn skipn nth prod]. cbn in h. rewrite (IH i) by lia. cbn [skipn]. lia.
Qed.
Lemma flat_shift m i q s : (i < length m)%nat -> (0 < prod m)%nat -> flat_index m i (q * prod m + s) = flat_index m i s.
Proof.
  intros h hp. unfold flat_index. set (p := prod (skipn (S i) m)). assert (e := prod_split m i h). fold p in e. set (c := nth i m 0%nat) in *.
  assert (p <> 0%nat) by (intro z; rewrite z in e; lia). assert (c <> 0%nat) by (intro z; rewrite z in e; lia).
  rewrite e. replace (q * (prod (firstn i m) * c * p) + s)%nat with ((q * prod (firstn i m) * c) * p + s)%nat by ring.
  rewrite Nat.div_add_l by assumption. rewrite Nat.add_comm. now rewrite Nat.mod_add by assumption.
Qed.
Lemma flat_cons c m i r : flat_index (c :: m) (S i) r = flat_index m i r.
Proof. reflexivity. Qed.
Lemma flat_rank m : forall k i, in_range m k -> (i < length m)%nat -> flat_index m i (rank m k) = nth i k 0%nat.
Proof.
  induction m as [| c m IH]; intros k i h hi; inversion h as [| a b k' m' h1 h2]; subst; cbn in hi; [lia |].
  assert (l := rank_lt m _ h2). destruct i.
  - unfold flat_index. cbn [rank skipn nth]. rewrite Nat.div_add_l, (Nat.div_small _ _ l), Nat.add_0_r by lia. now apply Nat.mod_small.
  - rewrite flat_cons. cbn [rank nth]. rewrite flat_shift by lia. apply IH; [assumption | lia].
Qed.
Definition unrank (m : list nat) (r : nat) : list nat := map (fun i => flat_index m i r) (seq 0 (length m)).
Lemma unrank_cons c m r : unrank (c :: m) r = flat_index (c :: m) 0 r :: unrank m r.
Proof. unfold unrank. cbn [length seq map]. f_equal. rewrite <- seq_shift, map_map. reflexivity. Qed.
Lemma unrank_shift m q s : (0 < prod m)%nat -> unrank m (q * prod m + s) = unrank m s.
Proof. intro hp. apply map_ext_in. intros i hi. apply in_seq in hi. apply flat_shift; lia. Qed.
Lemma unrank_ok m : forall r, (r < prod m)%nat -> in_range m (unrank m r) /\ rank m (unrank m r) = r.
Proof.
  induction m as [| c m IH]; intros r h; cbn in h; [cbn; split; [constructor | lia] |].
  assert (hp : (0 < prod m)%nat) by (destruct (prod m); lia). rewrite unrank_cons.
  assert (d := Nat.div_mod r (prod m) ltac:(lia)). assert (ml := Nat.mod_upper_bound r (prod m) ltac:(lia)).
  assert (eu : unrank m r = unrank m (r mod prod m)).
  { rewrite d at 1. rewrite (Nat.mul_comm (prod m)). now apply unrank_shift. }
  destruct (IH _ ml) as [i1 i2]. assert (q : (r / prod m < c)%nat) by (apply Nat.div_lt_upper_bound; lia).
  assert (e0 : flat_index (c :: m) 0 r = (r / prod m)%nat) by (unfold flat_index; cbn [skipn nth]; now apply Nat.mod_small).
  rewrite e0, eu. split; [constructor; assumption |]. cbn [rank]. rewrite i2. lia.
Qed.
Lemma rank_inj m k k' : in_range m k -> in_range m k' -> rank m k = rank m k' -> k = k'.
Proof.
  intros h h' e. apply (nth_ext _ _ 0%nat 0%nat); [rewrite (in_range_length m k h), (in_range_length m k' h'); reflexivity |]. intros i hi. rewrite (in_range_length m) in hi by exact h.
  rewrite <- (flat_rank m k i h hi), <- (flat_rank m k' i h' hi). now rewrite e.
Qed.

Lemma nth_map_seq (f : nat -> R) n i : (i < n)%nat -> nth i (map f (seq 0 n)) 0 = f i.
Proof.
  intro h. rewrite (nth_indep _ 0 (f 0%nat)) by (now rewrite map_length, seq_length). rewrite map_nth. now rewrite seq_nth by exact h.
Qed.
Lemma linspace_nth a b n k : (k < n)%nat -> nth k (linspace a b n) 0 = lev a b n k.
Proof.
  intro h. unfold lev. destruct n as [| [| n]]; [lia | |].
  - assert (k = 0%nat) by lia. subst. cbn. lra.
  - unfold linspace. rewrite nth_map_seq by exact h. unfold Rdiv. ring.
Qed.
Lemma lev_box a b n k : a <= b -> (k < n)%nat -> a <= lev a b n k <= b.
Proof.
  intros h hk. unfold lev. destruct n as [| [| n]]; [lia | |].
  - assert (k = 0%nat) by lia. subst. cbn. unfold Rdiv. rewrite Rmult_0_r, Rmult_0_l. lra.
  - replace (S (S n) - 1)%nat with (S n) by lia. assert (hp : 0 < INR (S n)) by (apply lt_0_INR; lia).
    assert (hk2 : INR k <= INR (S n)) by (apply le_INR; lia). assert (hk3 : 0 <= INR k) by apply pos_INR.
    set (q := INR k / INR (S n)). assert (q0 : 0 <= q) by (unfold q; apply Rmult_le_pos; [exact hk3 | left; now apply Rinv_0_lt_compat]).
    assert (q1 : q <= 1) by (unfold q; apply Rmult_le_reg_r with (INR (S n)); [exact hp |]; unfold Rdiv; rewrite Rmult_assoc, Rinv_l by lra; lra).
    replace ((b - a) * INR k / INR (S n)) with ((b - a) * q) by (unfold q, Rdiv; ring). nra.
Qed.
Lemma lev_inj a b n k k' : a < b -> (k < n)%nat -> (k' < n)%nat -> lev a b n k = lev a b n k' -> k = k'.
Proof.
  intros h hk hk' e. destruct n as [| [| n]]; [lia | lia |]. unfold lev in e. replace (S (S n) - 1)%nat with (S n) in e by lia.
  assert (hp : 0 < INR (S n)) by (apply lt_0_INR; lia). apply INR_eq. apply Rmult_eq_reg_l with ((b - a) / INR (S n)).
  - unfold Rdiv in *. lra.
  - apply Rgt_not_eq. apply Rdiv_lt_0_compat; lra.
Qed.

(** the rows *)
Lemma grid_row xmin xmax m k : in_range m k ->
  map (fun i => nth (flat_index m i (rank m k)) (linspace (nth i xmin 0) (nth i xmax 0) (nth i m 0%nat)) 0) (seq 0 (length m)) = grid_point xmin xmax m k.
Proof.
  intro h. apply map_ext_in. intros i hi. apply in_seq in hi. rewrite (flat_rank m k i h) by lia. apply linspace_nth. apply in_range_nth; [assumption | lia].
Qed.
Lemma grid_point_inj xmin xmax m k k' : in_range m k -> in_range m k' -> (forall i, (i < length m)%nat -> nth i xmin 0 < nth i xmax 0) ->
  grid_point xmin xmax m k = grid_point xmin xmax m k' -> k = k'.
Proof.
  intros h h' hb e. apply (nth_ext _ _ 0%nat 0%nat); [rewrite (in_range_length m k h), (in_range_length m k' h'); reflexivity |]. intros i hi. rewrite (in_range_length m) in hi by exact h.
  apply (f_equal (fun l => nth i l 0)) in e. unfold grid_point in e. rewrite !nth_map_seq in e by assumption.
  apply lev_inj in e; [assumption | now apply hb | now apply in_range_nth | now apply in_range_nth].
Qed.

(** distances *)
Lemma fold_min_spec l : forall a, (fold_left Rmin l a = a \/ In (fold_left Rmin l a) l) /\ fold_left Rmin l a <= a /\ (forall b, In b l -> fold_left Rmin l a <= b).
Proof.
  induction l as [| c l IH]; intro a; cbn; [split; [now left | split; [lra | tauto]] |].
  destruct (IH (Rmin a c)) as [h1 [h2 h3]]. pose proof (Rmin_l a c). pose proof (Rmin_r a c). split; [| split].
  - destruct h1 as [-> | h1]; [| right; now right]. unfold Rmin. destruct (Rle_dec a c); [now left | right; now left].
  - lra.
  - intros b [<- | hb]; [lra | now apply h3].
Qed.
Lemma fold_max_spec l : forall a, (fold_left Rmax l a = a \/ In (fold_left Rmax l a) l) /\ a <= fold_left Rmax l a /\ (forall b, In b l -> b <= fold_left Rmax l a).
Proof.
  induction l as [| c l IH]; intro a; cbn; [split; [now left | split; [lra | tauto]] |].
  destruct (IH (Rmax a c)) as [h1 [h2 h3]]. pose proof (Rmax_l a c). pose proof (Rmax_r a c). split; [| split].
  - destruct h1 as [-> | h1]; [| right; now right]. unfold Rmax. destruct (Rle_dec a c); [right; now left | now left].
  - lra.
  - intros b [<- | hb]; [lra | now apply h3].
Qed.
Lemma np_min_spec l v : np_min l = Some v -> In v l /\ forall b, In b l -> v <= b.
Proof.
  destruct l as [| a l]; [discriminate |]. cbn [np_min]. intro h. assert (e : fold_left Rmin l a = v) by congruence. clear h. subst v.
  destruct (fold_min_spec l a) as [h1 [h2 h3]]. split; [destruct h1 as [h1 | h1]; [left; now symmetry | now right] |]. intros b [<- | hb]; [exact h2 | now apply h3].
Qed.
Lemma np_max_spec l v : np_max l = Some v -> In v l /\ forall b, In b l -> b <= v.
Proof.
  destruct l as [| a l]; [discriminate |]. cbn [np_max]. intro h. assert (e : fold_left Rmax l a = v) by congruence. clear h. subst v.
  destruct (fold_max_spec l a) as [h1 [h2 h3]]. split; [destruct h1 as [h1 | h1]; [left; now symmetry | now right] |]. intros b [<- | hb]; [exact h2 | now apply h3].
Qed.
Lemma in_cdist s x v : In v (cdist s x) <-> exists p q, In p s /\ In q x /\ v = dist p q.
Proof.
  unfold cdist. rewrite in_flat_map. split.
  - intros [p [hp h]]. apply in_map_iff in h as [q [e hq]]. exists p, q. now repeat split.
  - intros [p [q [hp [hq e]]]]. exists p. split; [exact hp |]. apply in_map_iff. exists q. now split.
Qed.
Lemma dist_nonneg p q : 0 <= dist p q.
Proof. apply sqrt_pos. Qed.
Lemma filldist_loop_fix s x d : 0 <= d -> np_min (cdist s x) = Some d -> forall n, filldist_loop s x n d = Some d.
Proof.
  intros hd e. induction n as [| n IH]; cbn; [reflexivity |]. rewrite e. assert (f : rltb d d = false) by (apply rltb_false; lra). now rewrite f.
Qed.
Lemma filldist_value s x d : x <> [] -> np_min (cdist s x) = Some d -> filldist_approx s x = Some d.
Proof.
  intros hx e. assert (hd : 0 <= d). { destruct (np_min_spec _ _ e) as [h _]. apply in_cdist in h as [p [q [_ [_ ->]]]]. apply dist_nonneg. }
  unfold filldist_approx. destruct x as [| q x]; [contradiction |]. cbn [length filldist_loop]. rewrite e.
  destruct (rltb 0 d) eqn:f; [now apply filldist_loop_fix |]. apply rltb_false in f. assert (d = 0) by lra. subst. now apply filldist_loop_fix.
Qed.
Lemma cdist_nonempty s x : s <> [] -> x <> [] -> exists d, np_min (cdist s x) = Some d.
Proof. destruct s as [| p s], x as [| q x]; try contradiction. intros _ _. cbn. eexists. reflexivity. Qed.

(** candidate search *)
Lemma mm_loop_spec draws : forall m best r, mm_loop draws m best = Some r ->
  (forall s d, In s draws -> mindist s = Some d -> d <= m) /\ r = best \/
  exists pre s post d, draws = pre ++ s :: post /\ r = Some s /\ mindist s = Some d /\ m < d /\
    (forall s' d', In s' pre -> mindist s' = Some d' -> d' < d) /\ (forall s' d', In s' post -> mindist s' = Some d' -> d' <= d).
Proof.
  induction draws as [| s draws IH]; intros m best r; cbn [mm_loop]; [intro h; left; split; [intros ? ? [] | congruence] |].
  destruct (mindist s) as [d |] eqn:e; [| discriminate]. destruct (rltb m d) eqn:f.
  - apply rltb_iff in f. intro h. destruct (IH _ _ _ h) as [[h1 h2] | [pre [s1 [post [d1 [e1 [e2 [e3 [h1 [h2 h3]]]]]]]]]].
    + right. exists [], s, draws, d. split; [reflexivity |]. split; [exact h2 |]. split; [exact e |]. split; [exact f |]. split; [intros ? ? [] | exact h1].
    + right. exists (s :: pre), s1, post, d1. split; [cbn; congruence |]. split; [exact e2 |]. split; [exact e3 |]. split; [lra |]. split; [| exact h3].
      intros s' d' [<- | hin] e'; [assert (d' = d) by congruence; lra | now apply (h2 s')].
  - apply rltb_false in f. intro h. destruct (IH _ _ _ h) as [[h1 h2] | [pre [s1 [post [d1 [e1 [e2 [e3 [h1 [h2 h3]]]]]]]]]].
    + left. split; [| exact h2]. intros s' d' [<- | hin] e'; [assert (d' = d) by congruence; lra | now apply (h1 s')].
    + right. exists (s :: pre), s1, post, d1. split; [cbn; congruence |]. split; [exact e2 |]. split; [exact e3 |]. split; [lra |]. split; [| exact h3].
      intros s' d' [<- | hin] e'; [assert (d' = d) by congruence; lra | now apply (h2 s')].
Qed.
Lemma ld_loop_spec disc draws : forall m best,
  (forall s, In s draws -> m <= disc s) /\ ld_loop disc draws m best = best \/
  exists pre s post, draws = pre ++ s :: post /\ ld_loop disc draws m best = Some s /\ disc s < m /\
    (forall s', In s' pre -> disc s < disc s') /\ (forall s', In s' post -> disc s <= disc s').
Proof.
  induction draws as [| s draws IH]; intros m best; cbn [ld_loop]; [left; split; [intros ? [] | reflexivity] |]. cbv zeta.
  destruct (rltb (disc s) m) eqn:f.
  - apply rltb_iff in f. destruct (IH (disc s) (Some s)) as [[h1 h2] | [pre [s1 [post [e1 [e2 [h1 [h2 h3]]]]]]]].
    + right. exists [], s, draws. split; [reflexivity |]. split; [exact h2 |]. split; [exact f |]. split; [intros ? [] | exact h1].
    + right. exists (s :: pre), s1, post. split; [cbn; congruence |]. split; [exact e2 |]. split; [lra |]. split; [| exact h3].
      intros s' [<- | hin]; [exact h1 | now apply h2].
  - apply rltb_false in f. destruct (IH m best) as [[h1 h2] | [pre [s1 [post [e1 [e2 [h1 [h2 h3]]]]]]]].
    + left. split; [| exact h2]. intros s' [<- | hin]; [lra | now apply h1].
    + right. exists (s :: pre), s1, post. split; [cbn; congruence |]. split; [exact e2 |]. split; [lra |]. split; [| exact h3].
      intros s' [<- | hin]; [lra | now apply h2].
Qed.

(** box scaling *)
Definition in_box (l u r : list R) : Prop := length r = length l /\ forall i, (i < length l)%nat -> nth i l 0 <= nth i r 0 <= nth i u 0.
Lemma scale_row_nth l u r : length u = length l -> length r = length l ->
  length (scale_row l u r) = length l /\ forall i, (i < length l)%nat -> nth i (scale_row l u r) 0 = nth i r 0 * (nth i u 0 - nth i l 0) + nth i l 0.
Proof.
  revert u r. induction l as [| a l IH]; intros [| b u] [| x r] h1 h2; cbn in h1, h2; try discriminate; cbn; [split; [reflexivity | intros; lia] |].
  destruct (IH u r) as [e1 e2]; [congruence | congruence |]. split; [congruence |]. intros [| i] hi; [reflexivity | apply e2; lia].
Qed.
Lemma all_lt_nth l u : length u = length l -> all_lt l u = true -> forall i, (i < length l)%nat -> nth i l 0 < nth i u 0.
Proof.
  revert u. induction l as [| a l IH]; intros [| b u] h1 h i hi; cbn in *; try discriminate; [lia |].
  apply andb_true_iff in h as [h2 h3]. destruct i; [now apply rltb_iff | apply IH; [congruence | assumption | lia]].
Qed.
