(** Lemmas for NutsModel, part 3: bookkeeping of the tree and of the transition. *)
From Coq Require Import List Arith ZArith Reals Bool Lra Lia FunctionalExtensionality.
From Verif Require Import ConfigModel FlModel PriorModel SmcModel NutsModel NutsProofs.
Import ListNotations.
Local Open Scope R_scope.

Lemma alpha_range H0 H1 : 0 <= alpha_of H0 H1 <= 1.
Proof.
  unfold alpha_of. cbv zeta. destruct (rltb 1 _) eqn:h; [lra |]. apply rltb_false in h. split; [left; apply exp_pos | exact h].
Qed.

Section C.
Variable d : nat.
Variable pot : vec -> option (R * vec).
Variable im : vec.
Variable eps : R.
Variable delta_max log_u H0 : R.
Notation build_tree := (build_tree d pot im eps delta_max).
Notation nuts_loop := (nuts_loop d pot im eps delta_max).
Notation leaf := (leaf d pot im eps delta_max).

(** counters of a subtree of depth j *)
Definition tree_counts (j : nat) (t : tree) : Prop :=
  (1 <= t_nlf t <= 2 ^ j)%nat /\ (t_n t <= t_nalpha t <= t_nlf t)%nat /\ 0 <= t_alpha t <= INR (t_nalpha t) /\
  (t_s t = true -> t_div t = false /\ t_nlf t = (2 ^ j)%nat).
Lemma leaf_counts z v : tree_counts 0 (leaf z log_u v H0).
Proof.
  unfold NutsModel.leaf, tree_counts. destruct (leapfrog pot im z _) as [[z1 U1] |].
  - cbv zeta. cbn [t_nlf t_n t_nalpha t_alpha t_s t_div Nat.pow]. split; [lia |]. split; [destruct (rleb _ _); lia |].
    split; [apply alpha_range |]. intro h. apply andb_true_iff in h. destruct h as [_ h]. apply negb_true_iff in h. now split.
  - cbn [t_nlf t_n t_nalpha t_alpha t_s t_div Nat.pow INR]. repeat split; try lia; try lra; discriminate.
Qed.
Lemma build_counts j : forall z v, always (build_tree j z log_u v H0) (tree_counts j).
Proof.
  induction j as [| j ih]; intros z v; cbn [NutsModel.build_tree]; [apply leaf_counts |].
  apply always_bind with (P := tree_counts j); [apply ih |]. intros t1 h1.
  destruct (t_s t1 && negb (t_div t1)) eqn:hs.
  - apply andb_true_iff in hs. destruct hs as [hs hd]. apply negb_true_iff in hd.
    apply always_bind with (P := tree_counts j); [apply ih |]. intros t2 h2. cbv zeta.
    apply always_bind with (P := fun _ => True); [apply always_true; exact (fun _ => I) |]. intros q _. cbn [always].
    destruct h1 as [a1 [b1 [c1 d1]]]. destruct h2 as [a2 [b2 [c2 d2]]]. unfold tree_counts. cbn [t_nlf t_n t_nalpha t_alpha t_s t_div Nat.pow].
    split; [lia |]. split; [lia |]. split; [rewrite plus_INR; lra |]. intro h. apply andb_true_iff in h. destruct h as [h _].
    destruct (d1 hs) as [_ e1]. destruct (d2 h) as [e2 e3]. rewrite hd, e2. split; [reflexivity | lia].
  - cbn [always]. destruct h1 as [a1 [b1 [c1 d1]]]. unfold tree_counts. cbn [Nat.pow].
    split; [lia |]. split; [lia |]. split; [lra |]. intro h. destruct (d1 h) as [e _]. rewrite h, e in hs. discriminate.
Qed.
Definition walk_counts (w : walk) : Prop :=
  (w_nlf w <= 2 ^ w_depth w - 1)%nat /\ (w_nalpha w <= w_nlf w)%nat /\ 0 <= w_alpha w <= INR (w_nalpha w).
Lemma loop_counts m : forall w, walk_counts w -> always (nuts_loop m log_u H0 w)
  (fun w' => walk_counts w' /\ (w_depth w' <= w_depth w + m)%nat).
Proof.
  induction m as [| m ih]; intros w hw; cbn [NutsModel.nuts_loop]; [cbn [always]; split; [exact hw | lia] |].
  cbn [always]. intros r _. set (v := negb (rltb r (1 / 2))).
  apply always_bind with (P := tree_counts (w_depth w)); [apply build_counts |]. intros t [a [b [c _]]]. cbv zeta.
  apply always_bind with (P := fun _ => True); [apply always_true; exact (fun _ => I) |]. intros q _.
  set (w' := Walk _ _ q _ _ _ _ _ _). destruct hw as [h1 [h2 h3]].
  assert (hw' : walk_counts w').
  { unfold walk_counts, w'. cbn [w_nlf w_depth w_nalpha w_alpha Nat.pow]. split; [lia |]. split; [lia |]. rewrite plus_INR. lra. }
  destruct (t_s t && _).
  - apply always_mono with (P := fun w'' => walk_counts w'' /\ (w_depth w'' <= w_depth w' + m)%nat); [| now apply ih].
    intros w'' [e1 e2]. split; [exact e1 |]. unfold w' in e2. cbn [w_depth] in e2. lia.
  - cbn [always]. split; [exact hw' |]. unfold w'. cbn [w_depth]. lia.
Qed.

(** where candidates come from *)
Variable o : Z -> option phase.
Hypothesis o_step : forall i z v, o i = Some z -> step pot im eps v z = o (if v then i + 1 else i - 1)%Z.
Notation valid := (valid d pot im log_u o).
Notation tree_fact := (tree_fact d pot im delta_max log_u H0 o).
(** q is the position of a state of the slice with index in [lo, hi) *)
Definition from_slice (lo hi : Z) (q : vec) : Prop :=
  exists k z, (lo <= k < hi)%Z /\ o k = Some z /\ valid k = true /\ q = pq z.
Lemma from_slice_mono lo hi lo' hi' q : (lo' <= lo)%Z -> (hi <= hi')%Z -> from_slice lo hi q -> from_slice lo' hi' q.
Proof. intros h1 h2 [k [z [h3 h4]]]. exists k, z. split; [lia | exact h4]. Qed.
Lemma pick_range n1 n2 q1 q2 b (Q : vec -> Prop) : ((0 < n1)%nat \/ b = false \/ n2 = 0%nat -> Q q1) -> ((0 < n2)%nat -> b = true -> Q q2) ->
  always (pick b n1 n2 q1 q2) Q.
Proof.
  intros h1 h2. unfold pick. destruct b; [| cbn [andb always]; apply h1; auto].
  destruct (Nat.ltb_spec 0 (n1 + n2)); cbn [andb always].
  - intros u hu. destruct (rltb u (INR n2 / INR (n1 + n2))) eqn:e.
    + apply h2; [| reflexivity]. destruct n2; [| lia]. apply rltb_iff in e. cbn [INR] in e. unfold Rdiv in e. rewrite Rmult_0_l in e. lra.
    + apply h1. destruct n1; [| left; lia]. apply rltb_false in e. destruct n2; [right; right; reflexivity |]. exfalso.
      cbn [Nat.add] in e. unfold Rdiv in e. rewrite Rinv_r in e; [lra |]. apply not_0_INR. lia.
  - apply h1. right; right. lia.
Qed.
Lemma build_from j : forall i z v, o i = Some z -> always (build_tree j z log_u v H0)
  (fun t => (0 < t_n t)%nat -> from_slice (lo v i j) (lo v i j + P j) (t_prop t)).
Proof.
  induction j as [| j ih]; intros i z v hz; cbn [NutsModel.build_tree].
  - cbn [always]. unfold NutsModel.leaf, signed. assert (hs := o_step i z v hz). unfold step in hs.
    destruct (leapfrog pot im z (if v then eps else - eps)) as [[z1 U1] |] eqn:hl; cbn [option_map fst] in hs.
    + cbv zeta. cbn [t_n t_prop]. rewrite (leapfrog_energy d pot im _ _ _ _ hl).
      destruct (rleb log_u (- energy d pot im z1)) eqn:e; [| lia]. intros _.
      exists (if v then i + 1 else i - 1)%Z, z1. split; [unfold lo; rewrite P_0; destruct v; lia |]. split; [now symmetry |].
      split; [unfold NutsProofs.valid; now rewrite <- hs | reflexivity].
    + cbn [t_n]. lia.
  - assert (hall := build_always d pot im eps delta_max log_u H0 o o_step j i z v hz). pose proof (P_pos j) as pj.
    apply always_bind with (P := fun t => tree_fact j (lo v i j) t /\ ((0 < t_n t)%nat -> from_slice (lo v i j) (lo v i j + P j) (t_prop t)));
      [apply always_and; [exact hall | now apply ih] |].
    intros t1 [[hs1 hd1] hf1].
    assert (W1 : (0 < t_n t1)%nat -> from_slice (lo v i (S j)) (lo v i (S j) + P (S j)) (t_prop t1)).
    { intro h. apply (from_slice_mono (lo v i j) (lo v i j + P j)); [| | now apply hf1]; unfold lo; rewrite P_S; destruct v; lia. }
    destruct (t_s t1 && negb (t_div t1)) eqn:e; [| exact W1]. apply andb_true_iff in e. destruct e as [e _].
    destruct (hd1 e) as [_ [hm [hp _]]].
    set (i' := (if v then i + P j else i - P j)%Z) in *.
    assert (hz' : o i' = Some (if v then t_plus t1 else t_minus t1)).
    { unfold i', lo in *. destruct v; [replace (i + P j)%Z with (i + 1 + P j - 1)%Z by ring |]; assumption. }
    apply always_bind with (P := fun t => (0 < t_n t)%nat -> from_slice (lo v i' j) (lo v i' j + P j) (t_prop t)); [now apply ih |].
    intros t2 hf2. cbv zeta.
    assert (W2 : (0 < t_n t2)%nat -> from_slice (lo v i (S j)) (lo v i (S j) + P (S j)) (t_prop t2)).
    { intro h. apply (from_slice_mono (lo v i' j) (lo v i' j + P j)); [| | now apply hf2]; unfold i', lo; rewrite P_S; destruct v; lia. }
    apply always_bind with (P := fun q => (0 < t_n t1 + t_n t2)%nat -> from_slice (lo v i (S j)) (lo v i (S j) + P (S j)) q).
    + apply pick_range.
      * intros h h0. apply W1. destruct h as [h | [h | h]]; [exact h | discriminate | lia].
      * intros h _ _. now apply W2.
    + intros q hq. cbn [always t_n t_prop]. exact hq.
Qed.
(** the loop: the candidate is the first one or comes from the slice *)
Lemma loop_from q0 lo' hi' m : forall a w, o a = Some (w_minus w) -> o (a + P (w_depth w) - 1)%Z = Some (w_plus w) -> (0 < w_n w)%nat ->
  (w_prop w = q0 \/ from_slice lo' hi' (w_prop w)) ->
  (lo' <= a - P (w_depth w) * (P m - 1))%Z -> (a + P (w_depth w) * P m <= hi')%Z ->
  always (nuts_loop m log_u H0 w) (fun w' => w_prop w' = q0 \/ from_slice lo' hi' (w_prop w')).
Proof.
  induction m as [| m ih]; intros a w hm hp hn hq h1 h2; cbn [NutsModel.nuts_loop]; [exact hq |].
  cbn [always]. intros r _. set (v := negb (rltb r (1 / 2))). set (j := w_depth w) in *.
  pose proof (P_pos j) as pj. pose proof (P_pos m) as pm. rewrite P_S in h1, h2.
  set (i := (if v then a + P j - 1 else a)%Z). set (b := (if v then a + P j else a - P j)%Z).
  assert (hz : o i = Some (if v then w_plus w else w_minus w)) by (unfold i; destruct v; assumption).
  assert (hb : lo v i j = b) by (unfold lo, i, b; destruct v; ring).
  apply always_bind with (P := fun t => tree_fact j b t /\ ((0 < t_n t)%nat -> from_slice b (b + P j) (t_prop t))).
  { apply always_and; [rewrite <- hb; now apply build_always |]. rewrite <- hb. now apply build_from. }
  intros t [[hs ht] hf]. cbv zeta.
  apply always_bind with (P := fun q => q = q0 \/ from_slice lo' hi' q).
  { apply pick_range; [intros _; exact hq |]. intros hpos _. right.
    apply (from_slice_mono b (b + P j)); [| | now apply hf]; unfold b; destruct v; nia. }
  intros q hq'. destruct (t_s t) eqn:es; cbn [andb]; [| cbn [always w_prop]; exact hq'].
  destruct (ht eq_refl) as [hdiv [t1 [t2 _]]].
  destruct (is_uturn d im _ _); cbn [negb]; [cbn [always w_prop]; exact hq' |].
  apply (ih (if v then a else a - P j)%Z); cbn [w_minus w_plus w_n w_prop w_depth]; fold j; rewrite ?P_S; try exact hq'; try lia.
  - unfold b in *. destruct v; assumption.
  - unfold b in *. destruct v.
    + replace (a + 2 * P j - 1)%Z with (a + P j + P j - 1)%Z by ring. assumption.
    + replace (a - P j + 2 * P j - 1)%Z with (a + P j - 1)%Z by ring. assumption.
  - destruct v; nia.
  - destruct v; nia.
Qed.
End C.
