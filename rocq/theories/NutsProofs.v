(** Spec vocabulary and lemmas for NutsModel, part 1: random programs, the leapfrog map and its orbit, the tree. *)
From Coq Require Import List Arith ZArith Reals Bool Lra Lia FunctionalExtensionality.
From Verif Require Import ConfigModel FlModel PriorModel SmcModel NutsModel.
Import ListNotations.
Local Open Scope R_scope.

(** [expects m E p]: the expectation of E over the independent uniform draws of the program m is p.  Every draw
    is used through one threshold test, so the expectation is that of a two-valued step function *)
Fixpoint expects {A} (m : rnd A) (E : A -> R) (p : R) : Prop :=
  match m with
  | Ret a => p = E a
  | Draw k => exists t p1 p2, 0 <= t <= 1 /\
      (forall u, 0 <= u < t -> expects (k u) E p1) /\
      (forall u, t <= u < 1 -> expects (k u) E p2) /\ p = t * p1 + (1 - t) * p2
  end.
(** every possible result satisfies P *)
Fixpoint always {A} (m : rnd A) (P : A -> Prop) : Prop :=
  match m with Ret a => P a | Draw k => forall u, 0 <= u < 1 -> always (k u) P end.

Lemma expects_unique {A} (m : rnd A) E p p' : expects m E p -> expects m E p' -> p = p'.
Proof.
  revert p p'. induction m as [a | k ih]; intros p p'; cbn [expects]; [congruence |].
  intros [t [p1 [p2 [ht [h1 [h2 ->]]]]]] [s [q1 [q2 [hs [g1 [g2 ->]]]]]].
  assert (a1 : forall u, 0 <= u < t -> 0 <= u < s -> p1 = q1) by (intros u hu hu'; apply (ih u); auto).
  assert (a2 : forall u, 0 <= u < t -> s <= u < 1 -> p1 = q2) by (intros u hu hu'; apply (ih u); auto).
  assert (a3 : forall u, t <= u < 1 -> 0 <= u < s -> p2 = q1) by (intros u hu hu'; apply (ih u); auto).
  assert (a4 : forall u, t <= u < 1 -> s <= u < 1 -> p2 = q2) by (intros u hu hu'; apply (ih u); auto).
  assert (b1 : t = 0 \/ s = 0 \/ p1 = q1).
  { destruct (Req_dec t 0); [now left |]. destruct (Req_dec s 0); [now right; left |]. right; right. apply (a1 0); lra. }
  assert (b2 : t = 1 \/ s = 1 \/ p2 = q2).
  { destruct (Req_dec t 1); [now left |]. destruct (Req_dec s 1); [now right; left |]. right; right.
    destruct (Rle_or_lt t s); [apply (a4 s) | apply (a4 t)]; lra. }
  destruct (Rtotal_order t s) as [h | [-> | h]].
  - assert (e : p2 = q1) by (apply (a3 t); lra).
    destruct b1 as [x | [x | x]]; destruct b2 as [y | [y | y]]; ((exfalso; lra) || (subst; lra)).
  - destruct b1 as [x | [x | x]]; destruct b2 as [y | [y | y]]; ((exfalso; lra) || (subst; lra)).
  - assert (e : p1 = q2) by (apply (a2 s); lra).
    destruct b1 as [x | [x | x]]; destruct b2 as [y | [y | y]]; ((exfalso; lra) || (subst; lra)).
Qed.
Lemma always_mono {A} (m : rnd A) (P Q : A -> Prop) : (forall a, P a -> Q a) -> always m P -> always m Q.
Proof. intro h. induction m as [a | k ih]; cbn [always]; auto. Qed.
Lemma always_and {A} (m : rnd A) (P Q : A -> Prop) : always m P -> always m Q -> always m (fun a => P a /\ Q a).
Proof. induction m as [a | k ih]; cbn [always]; auto. Qed.
Lemma always_true {A} (m : rnd A) (P : A -> Prop) : (forall a, P a) -> always m P.
Proof. intro h. induction m as [a | k ih]; cbn [always]; auto. Qed.
Lemma always_bind {A B} (m : rnd A) (f : A -> rnd B) (P : A -> Prop) (Q : B -> Prop) :
  always m P -> (forall a, P a -> always (f a) Q) -> always (bind m f) Q.
Proof. intros h hf. induction m as [a | k ih]; cbn [always bind] in *; auto. Qed.
Lemma expects_const {A} (m : rnd A) c : expects m (fun _ => c) c.
Proof.
  induction m as [a | k ih]; cbn [expects]; [reflexivity |]. exists 0, c, c. repeat split; try lra; intros; apply ih.
Qed.
Lemma expects_affine {A} (m : rnd A) E a b p : expects m E p -> expects m (fun x => a + b * E x) (a + b * p).
Proof.
  revert p. induction m as [x | k ih]; intros p; cbn [expects]; [now intros -> |].
  intros [t [p1 [p2 [ht [h1 [h2 ->]]]]]]. exists t, (a + b * p1), (a + b * p2). repeat split; try lra; auto.
Qed.
Lemma expects_ext {A} (m : rnd A) P E E' p : always m P -> (forall a, P a -> E a = E' a) -> expects m E p -> expects m E' p.
Proof.
  intros hm hE. revert p. induction m as [x | k ih]; intros p; cbn [expects always] in *; [intros ->; auto |].
  intros [t [p1 [p2 [ht [h1 [h2 ->]]]]]]. exists t, p1, p2. repeat split; try lra; intros u hu; (apply ih; [apply hm; lra |]); auto.
Qed.
Lemma expects_bind {A B} (m : rnd A) (f : A -> rnd B) (P : A -> Prop) E (h : A -> R) p :
  always m P -> (forall a, P a -> expects (f a) E (h a)) -> expects m h p -> expects (bind m f) E p.
Proof.
  intros hm hf. revert p. induction m as [x | k ih]; intros p; cbn [expects always bind] in *; [intros ->; auto |].
  intros [t [p1 [p2 [ht [h1 [h2 ->]]]]]]. exists t, p1, p2. repeat split; try lra; intros u hu; (apply ih; [apply hm; lra |]); auto.
Qed.

(** * reals *)
Lemma rltb_iff a b : rltb a b = true <-> a < b.
Proof. unfold rltb. destruct (Rlt_dec a b); split; intros; try assumption; try reflexivity; try discriminate; contradiction. Qed.
Lemma rltb_false a b : rltb a b = false <-> b <= a.
Proof. unfold rltb. destruct (Rlt_dec a b); split; intros; try reflexivity; try discriminate; lra. Qed.
Lemma rleb_iff a b : rleb a b = true <-> a <= b.
Proof. unfold rleb. destruct (Rle_dec a b); split; intros; try assumption; try reflexivity; try discriminate; contradiction. Qed.
Lemma rleb_false a b : rleb a b = false <-> b < a.
Proof. unfold rleb. destruct (Rle_dec a b); split; intros; try reflexivity; try discriminate; lra. Qed.

Section P.
Variable d : nat.
Variable pot : vec -> option (R * vec).
Variable im : vec.
Variable eps : R.
Variable delta_max : R.
Notation leapfrog := (leapfrog pot im).
Notation kinetic := (kinetic d im).
Notation is_uturn := (is_uturn d im).
Notation leaf := (leaf d pot im eps delta_max).
Notation build_tree := (build_tree d pot im eps delta_max).
Notation nuts_loop := (nuts_loop d pot im eps delta_max).

(** the stored gradient is that of the stored position, which has finite potential *)
Definition consistent (z : phase) : Prop := exists U, pot (pq z) = Some (U, pg z).
(** total energy of a state *)
Definition energy (z : phase) : R := match pot (pq z) with Some (U, _) => U + kinetic (pp z) | None => 0 end.

Lemma leapfrog_pot z e z1 U1 : leapfrog z e = Some (z1, U1) -> pot (pq z1) = Some (U1, pg z1).
Proof.
  unfold NutsModel.leapfrog. cbv zeta. destruct (pot _) as [[U g] |] eqn:h; [| discriminate].
  intro e1. injection e1 as <- <-. cbn [pq pg]. exact h.
Qed.
Lemma leapfrog_energy z e z1 U1 : leapfrog z e = Some (z1, U1) -> U1 + kinetic (pp z1) = energy z1.
Proof. intro h. unfold energy. now rewrite (leapfrog_pot _ _ _ _ h). Qed.
Lemma leapfrog_reverse z e z1 U1 U : pot (pq z) = Some (U, pg z) -> leapfrog z e = Some (z1, U1) ->
  leapfrog z1 (- e) = Some (z, U).
Proof.
  intros hz h. assert (h1 := leapfrog_pot _ _ _ _ h). unfold NutsModel.leapfrog in h. cbv zeta in h.
  destruct (pot _) as [[V g] |] eqn:hp in h; [| discriminate]. injection h as <- <-. cbn [pq pp pg] in h1.
  unfold NutsModel.leapfrog. cbn [pq pp pg]. cbv zeta.
  assert (eq : (fun i => pq z i + e * ((pp z i - 1 / 2 * e * pg z i) * im i) +
                 - e * ((pp z i - 1 / 2 * e * pg z i - 1 / 2 * e * g i - 1 / 2 * - e * g i) * im i)) = pq z)
    by (apply functional_extensionality; intro i; ring).
  rewrite eq, hz. f_equal. f_equal. destruct z as [q p gr]. cbn [pq pp pg]. f_equal. apply functional_extensionality. intro i. ring.
Qed.

(** one step of size eps forward or backward *)
Definition step (fwd : bool) (z : phase) : option phase := option_map fst (leapfrog z (if fwd then eps else - eps)).
Lemma step_consistent v z z1 : step v z = Some z1 -> consistent z1.
Proof.
  unfold step. destruct (leapfrog z _) as [[y U] |] eqn:h; [| discriminate]. cbn. intro e. injection e as <-.
  exists U. exact (leapfrog_pot _ _ _ _ h).
Qed.
Lemma step_reverse v z z1 : consistent z -> step v z = Some z1 -> step (negb v) z1 = Some z.
Proof.
  intros [U hz]. unfold step. destruct (leapfrog z _) as [[y V] |] eqn:h; [| discriminate]. cbn. intro e. injection e as <-.
  assert (hr := leapfrog_reverse _ _ _ _ _ hz h).
  destruct v; cbn [negb] in *; [now rewrite hr |]. replace (- - eps) with eps in hr by ring. now rewrite hr.
Qed.
Fixpoint steps (n : nat) (v : bool) (z : phase) : option phase :=
  match n with O => Some z | S n => match steps n v z with Some z' => step v z' | None => None end end.
(** the trajectory through z0 *)
Definition orbit (z0 : phase) (i : Z) : option phase :=
  if (0 <=? i)%Z then steps (Z.to_nat i) true z0 else steps (Z.to_nat (- i)) false z0.
Lemma steps_consistent n v z z1 : consistent z -> steps n v z = Some z1 -> consistent z1.
Proof.
  intro hz. destruct n as [| n]; cbn [steps]; [now intros [= <-] |].
  destruct (steps n v z) as [y |]; [| discriminate]. apply step_consistent.
Qed.
Lemma orbit_consistent z0 i z : consistent z0 -> orbit z0 i = Some z -> consistent z.
Proof. intros h0. unfold orbit. destruct (0 <=? i)%Z; intro h; eapply steps_consistent; eassumption. Qed.
Lemma orbit_step z0 i z v : consistent z0 -> orbit z0 i = Some z ->
  step v z = orbit z0 (if v then i + 1 else i - 1)%Z.
Proof.
  intros h0 h. destruct v.
  - destruct (Z_le_gt_dec 0 i) as [hi | hi].
    + unfold orbit in *. destruct (Z.leb_spec 0 i); [| lia]. destruct (Z.leb_spec 0 (i + 1)); [| lia].
      replace (Z.to_nat (i + 1)) with (S (Z.to_nat i)) by lia. cbn [steps]. now rewrite h.
    + unfold orbit in h. destruct (Z.leb_spec 0 i); [lia |]. replace (Z.to_nat (- i)) with (S (Z.to_nat (- (i + 1)))) in h by lia.
      cbn [steps] in h. destruct (steps (Z.to_nat (- (i + 1))) false z0) as [y |] eqn:hy; [| discriminate].
      assert (hs := step_reverse false y z (steps_consistent _ _ _ _ h0 hy) h). cbn [negb] in hs. rewrite hs.
      unfold orbit. destruct (Z.leb_spec 0 (i + 1)); [| now rewrite hy].
      assert (i = -1)%Z by lia. subst i. cbn in hy |- *. now rewrite hy.
  - destruct (Z_le_gt_dec i 0) as [hi | hi].
    + assert (e : orbit z0 i = steps (Z.to_nat (- i)) false z0).
      { unfold orbit. destruct (Z.leb_spec 0 i); [| reflexivity]. assert (i = 0)%Z by lia. now subst. }
      rewrite e in h. unfold orbit. destruct (Z.leb_spec 0 (i - 1)); [lia |].
      replace (Z.to_nat (- (i - 1))) with (S (Z.to_nat (- i))) by lia. cbn [steps]. now rewrite h.
    + unfold orbit in h. destruct (Z.leb_spec 0 i); [| lia]. replace (Z.to_nat i) with (S (Z.to_nat (i - 1))) in h by lia.
      cbn [steps] in h. destruct (steps (Z.to_nat (i - 1)) true z0) as [y |] eqn:hy; [| discriminate].
      assert (hs := step_reverse true y z (steps_consistent _ _ _ _ h0 hy) h). cbn [negb] in hs. rewrite hs.
      unfold orbit. destruct (Z.leb_spec 0 (i - 1)); [now rewrite hy | lia].
Qed.

(** * the tree over an indexed trajectory *)
Variable log_u H0 : R.
Variable o : Z -> option phase.
Hypothesis o_step : forall i z v, o i = Some z -> step v z = o (if v then i + 1 else i - 1)%Z.

Definition P (j : nat) : Z := Z.of_nat (2 ^ j).
Lemma P_S j : P (S j) = (2 * P j)%Z.
Proof. unfold P. cbn [Nat.pow]. lia. Qed.
Lemma P_pos j : (0 < P j)%Z.
Proof. unfold P. assert (2 ^ j <> 0)%nat by (apply Nat.pow_nonzero; lia). lia. Qed.
Lemma P_0 : P 0 = 1%Z. Proof. reflexivity. Qed.

Definition valid (i : Z) : bool := match o i with Some z => rleb log_u (- energy z) | None => false end.
Definition ok (i : Z) : bool :=
  match o i with Some z => rltb log_u (delta_max - energy z) && negb (rltb delta_max (energy z - H0)) | None => false end.
Definition uturn (i j : Z) : bool := match o i, o j with Some a, Some b => is_uturn a b | _, _ => true end.
(** the block of 2^j states starting at a can be part of a tree *)
Fixpoint good (j : nat) (a : Z) : bool :=
  match j with
  | O => ok a
  | S j => good j a && good j (a + P j) && negb (uturn a (a + P (S j) - 1))
  end.
Fixpoint nval (j : nat) (a : Z) : nat :=
  match j with O => if valid a then 1 else 0 | S j => nval j a + nval j (a + P j) end%nat.
Fixpoint vtot (W : Z -> R) (j : nat) (a : Z) : R :=
  match j with O => if valid a then W a else 0 | S j => vtot W j a + vtot W j (a + P j) end.
Definition lo (v : bool) (i : Z) (j : nat) : Z := if v then (i + 1)%Z else (i - P j)%Z.

Lemma leaf_spec i z v : o i = Some z ->
  let t := leaf z log_u v H0 in let k := (if v then i + 1 else i - 1)%Z in
  t_s t = ok k /\ (t_s t = true -> t_div t = false /\ o k = Some (t_minus t) /\ o k = Some (t_plus t) /\
    t_n t = (if valid k then 1 else 0)%nat /\ t_prop t = pq (t_minus t)).
Proof.
  intros h t k. assert (hs := o_step i z v h). fold k in hs. unfold step in hs. unfold t, NutsModel.leaf, signed.
  destruct (leapfrog z (if v then eps else - eps)) as [[z1 U1] |] eqn:hl; cbn [option_map fst] in hs.
  - cbv zeta. rewrite (leapfrog_energy _ _ _ _ hl). unfold ok, valid. rewrite <- hs. cbn [t_s t_div t_minus t_plus t_n t_prop].
    split; [reflexivity |]. intro e. apply andb_true_iff in e. destruct e as [_ e]. apply negb_true_iff in e.
    repeat split; assumption || reflexivity.
  - unfold ok. rewrite <- hs. cbn [t_s]. split; [reflexivity | discriminate].
Qed.

Lemma pick_always b n1 n2 q1 q2 (Q : vec -> Prop) : Q q1 -> Q q2 -> always (pick b n1 n2 q1 q2) Q.
Proof.
  intros h1 h2. unfold pick. destruct (b && _); cbn [always]; [| exact h1]. intros u _. destruct (rltb u _); assumption.
Qed.
Lemma pick_expects n1 n2 q1 q2 (E : vec -> R) : (0 < n1 + n2)%nat ->
  expects (pick true n1 n2 q1 q2) E ((INR n1 * E q1 + INR n2 * E q2) / INR (n1 + n2)).
Proof.
  intro h. unfold pick. destruct (Nat.ltb_spec 0 (n1 + n2)); [| lia]. cbn [andb expects].
  assert (hp : 0 < INR (n1 + n2)) by (apply lt_0_INR; lia). pose proof (pos_INR n1); pose proof (pos_INR n2).
  assert (e : INR (n1 + n2) = INR n1 + INR n2) by apply plus_INR.
  assert (hr : 0 <= INR n2 / INR (n1 + n2) <= 1).
  { split; [apply Rmult_le_pos; [assumption | left; now apply Rinv_0_lt_compat] |].
    apply Rmult_le_reg_r with (INR (n1 + n2)); [assumption |]. field_simplify; lra. }
  exists (INR n2 / INR (n1 + n2)), (E q2), (E q1). split; [exact hr |]. split; [| split].
  - intros u hu. assert (e1 : rltb u (INR n2 / INR (n1 + n2)) = true) by (apply rltb_iff; lra). now rewrite e1.
  - intros u hu. assert (e1 : rltb u (INR n2 / INR (n1 + n2)) = false) by (apply rltb_false; lra). now rewrite e1.
  - rewrite e in *. field. lra.
Qed.

Definition tree_fact (j : nat) (a : Z) (t : tree) : Prop :=
  t_s t = good j a /\
  (t_s t = true -> t_div t = false /\ o a = Some (t_minus t) /\ o (a + P j - 1) = Some (t_plus t) /\ t_n t = nval j a).

Lemma build_always j : forall i z v, o i = Some z -> always (build_tree j z log_u v H0) (tree_fact j (lo v i j)).
Proof.
  induction j as [| j ih]; intros i z v hz; cbn [NutsModel.build_tree].
  - cbn [always]. destruct (leaf_spec i z v hz) as [h1 h2]. cbv zeta in h1, h2. unfold tree_fact.
    assert (e : lo v i 0 = (if v then i + 1 else i - 1)%Z) by (unfold lo; destruct v; rewrite ?P_0; reflexivity).
    rewrite e. split; [exact h1 |]. intro hs. destruct (h2 hs) as [a [b [c [e1 _]]]]. rewrite P_0.
    replace ((if v then i + 1 else i - 1) + 1 - 1)%Z with (if v then i + 1 else i - 1)%Z by (destruct v; lia).
    repeat split; assumption.
  - apply always_bind with (P := tree_fact j (lo v i j)); [now apply ih |]. intros t1 [hs1 hd1].
    assert (eg : good (S j) (lo v i (S j)) = good j (lo v i j) && good j (lo v (if v then i + P j else i - P j)%Z j) &&
              negb (uturn (lo v i (S j)) (lo v i (S j) + P (S j) - 1))).
    { cbn [good]. unfold lo. rewrite P_S. destruct v.
      - replace (i + P j + 1)%Z with (i + 1 + P j)%Z by ring. reflexivity.
      - replace (i - 2 * P j + P j)%Z with (i - P j)%Z by ring. replace (i - P j - P j)%Z with (i - 2 * P j)%Z by ring.
        now rewrite (andb_comm (good j (i - 2 * P j))). }
    destruct (t_s t1) eqn:es1; cbn [andb].
    2: { cbn [always]. split; [rewrite es1, eg, <- hs1; reflexivity | rewrite es1; discriminate]. }
    destruct (hd1 eq_refl) as [hdiv [hm [hp hn]]]. rewrite hdiv. cbn [negb].
    set (i' := (if v then i + P j else i - P j)%Z) in *.
    assert (hz' : o i' = Some (if v then t_plus t1 else t_minus t1)).
    { unfold i', lo in *. destruct v; [replace (i + P j)%Z with (i + 1 + P j - 1)%Z by ring |]; assumption. }
    apply always_bind with (P := tree_fact j (lo v i' j)); [now apply ih |]. intros t2 [hs2 hd2].
    apply always_bind with (P := fun _ => True); [apply always_true; exact (fun _ => I) |]. intros q _. cbn [always].
    unfold tree_fact. cbn [t_s t_div t_minus t_plus t_n]. rewrite eg, <- hs1, <- hs2. cbn [andb].
    destruct (t_s t2) eqn:es2; cbn [andb]; [| split; [reflexivity | discriminate]].
    destruct (hd2 eq_refl) as [hdiv2 [hm2 [hp2 hn2]]].
    assert (hM : o (lo v i (S j)) = Some (if v then t_minus t1 else t_minus t2)).
    { unfold lo, i' in *. rewrite P_S. destruct v; [assumption |]. replace (i - 2 * P j)%Z with (i - P j - P j)%Z by ring. assumption. }
    assert (hP : o (lo v i (S j) + P (S j) - 1)%Z = Some (if v then t_plus t2 else t_plus t1)).
    { unfold lo, i' in *. rewrite P_S. destruct v.
      - replace (i + 1 + 2 * P j - 1)%Z with (i + P j + 1 + P j - 1)%Z by ring. assumption.
      - replace (i - 2 * P j + 2 * P j - 1)%Z with (i - P j + P j - 1)%Z by ring. assumption. }
    split; [unfold uturn; now rewrite hM, hP |]. intros _. split; [now rewrite hdiv2 |].
    split; [exact hM |]. split; [exact hP |]. rewrite hn, hn2. cbn [nval]. unfold lo, i'. rewrite P_S. destruct v.
    + replace (i + P j + 1)%Z with (i + 1 + P j)%Z by ring. reflexivity.
    + replace (i - 2 * P j + P j)%Z with (i - P j)%Z by ring. replace (i - P j - P j)%Z with (i - 2 * P j)%Z by ring. lia.
Qed.

(** the test function at index k *)
Definition at_index (E : vec -> R) (k : Z) : R := match o k with Some z => E (pq z) | None => 0 end.
Lemma vtot_zero W j a : nval j a = 0%nat -> vtot W j a = 0.
Proof.
  revert a. induction j as [| j ih]; intros a; cbn [nval vtot]; [destruct (valid a); [discriminate | reflexivity] |].
  intro h. rewrite (ih a), (ih (a + P j)%Z) by lia. ring.
Qed.
Lemma build_expects E j : forall i z v, o i = Some z -> good j (lo v i j) = true -> (0 < nval j (lo v i j))%nat ->
  expects (build_tree j z log_u v H0) (fun t => E (t_prop t)) (vtot (at_index E) j (lo v i j) / INR (nval j (lo v i j))).
Proof.
  induction j as [| j ih]; intros i z v hz hg hn; cbn [NutsModel.build_tree].
  - cbn [expects]. destruct (leaf_spec i z v hz) as [h1 h2]. cbv zeta in h1, h2.
    assert (e : lo v i 0 = (if v then i + 1 else i - 1)%Z) by (unfold lo; destruct v; rewrite ?P_0; reflexivity).
    rewrite e in *. cbn [good] in hg. rewrite h1 in h2. destruct (h2 hg) as [_ [b [_ [_ c]]]]. cbn [nval vtot] in *.
    destruct (valid _); [| lia]. unfold at_index. rewrite b, c. cbn. field.
  - set (i' := (if v then i + P j else i - P j)%Z) in *.
    assert (eg : good (S j) (lo v i (S j)) = good j (lo v i j) && good j (lo v i' j) &&
              negb (uturn (lo v i (S j)) (lo v i (S j) + P (S j) - 1))).
    { unfold i'. cbn [good]. unfold lo. rewrite P_S. destruct v.
      - replace (i + P j + 1)%Z with (i + 1 + P j)%Z by ring. reflexivity.
      - replace (i - 2 * P j + P j)%Z with (i - P j)%Z by ring. replace (i - P j - P j)%Z with (i - 2 * P j)%Z by ring.
        now rewrite (andb_comm (good j (i - 2 * P j))). }
    rewrite eg in hg. apply andb_true_iff in hg. destruct hg as [hg _]. apply andb_true_iff in hg. destruct hg as [g1 g2].
    assert (en : nval (S j) (lo v i (S j)) = (nval j (lo v i j) + nval j (lo v i' j))%nat).
    { cbn [nval]. unfold i', lo. rewrite P_S. destruct v.
      - replace (i + P j + 1)%Z with (i + 1 + P j)%Z by ring. reflexivity.
      - replace (i - 2 * P j + P j)%Z with (i - P j)%Z by ring. replace (i - P j - P j)%Z with (i - 2 * P j)%Z by ring. lia. }
    assert (ev : forall W, vtot W (S j) (lo v i (S j)) = vtot W j (lo v i j) + vtot W j (lo v i' j)).
    { intro W. cbn [vtot]. unfold i', lo. rewrite P_S. destruct v.
      - replace (i + P j + 1)%Z with (i + 1 + P j)%Z by ring. reflexivity.
      - replace (i - 2 * P j + P j)%Z with (i - P j)%Z by ring. replace (i - P j - P j)%Z with (i - 2 * P j)%Z by ring. ring. }
    rewrite en in *. rewrite ev. set (n1 := nval j (lo v i j)) in *. set (n2 := nval j (lo v i' j)) in *.
    set (V1 := vtot (at_index E) j (lo v i j)). set (V2 := vtot (at_index E) j (lo v i' j)).
    assert (hN : 0 < INR (n1 + n2)) by (apply lt_0_INR; lia).
    apply expects_bind with (P := tree_fact j (lo v i j)) (h := fun t1 => V2 / INR (n1 + n2) + INR n1 / INR (n1 + n2) * E (t_prop t1)).
    + now apply build_always.
    + intros t1 [hs1 hd1]. rewrite g1 in hs1. destruct (hd1 hs1) as [hdiv [hm [hp hn1]]]. rewrite hs1, hdiv. cbn [andb negb].
      assert (hz' : o i' = Some (if v then t_plus t1 else t_minus t1)).
      { unfold i', lo in *. destruct v; [replace (i + P j)%Z with (i + 1 + P j - 1)%Z by ring |]; assumption. }
      apply expects_bind with (P := tree_fact j (lo v i' j))
        (h := fun t2 => INR n1 * E (t_prop t1) / INR (n1 + n2) + INR n2 / INR (n1 + n2) * E (t_prop t2)).
      * now apply build_always.
      * intros t2 [hs2 hd2]. rewrite g2 in hs2. destruct (hd2 hs2) as [_ [_ [_ hn2]]]. fold n1 in hn1. fold n2 in hn2.
        apply expects_bind with (P := fun _ => True) (h := E); [apply always_true; exact (fun _ => I) | |].
        -- intros q _. cbn [expects t_prop]. reflexivity.
        -- rewrite hn1, hn2. assert (hx := pick_expects n1 n2 (t_prop t1) (t_prop t2) E hn).
           replace (INR n1 * E (t_prop t1) / INR (n1 + n2) + INR n2 / INR (n1 + n2) * E (t_prop t2))
             with ((INR n1 * E (t_prop t1) + INR n2 * E (t_prop t2)) / INR (n1 + n2)) by (field; lra). exact hx.
      * destruct (Nat.eq_dec n2 0) as [e0 | e0].
        -- assert (hV : V2 = 0) by (apply vtot_zero; exact e0). rewrite hV, e0.
           apply expects_ext with (P := fun _ => True) (E := fun _ => 0 / INR (n1 + 0) + INR n1 / INR (n1 + 0) * E (t_prop t1)).
           ++ apply always_true; exact (fun _ => I).
           ++ intros t2 _. cbn [INR]. unfold Rdiv. ring.
           ++ apply expects_const.
        -- assert (h0 : INR n2 <> 0) by (apply not_0_INR; exact e0).
           replace (V2 / INR (n1 + n2) + INR n1 / INR (n1 + n2) * E (t_prop t1))
             with (INR n1 * E (t_prop t1) / INR (n1 + n2) + INR n2 / INR (n1 + n2) * (V2 / INR n2)) by (field; split; lra).
           apply expects_affine. apply ih; [exact hz' | exact g2 | fold n2; lia].
    + destruct (Nat.eq_dec n1 0) as [e0 | e0].
      * assert (hV : V1 = 0) by (apply vtot_zero; exact e0). rewrite hV, e0.
        apply expects_ext with (P := fun _ => True) (E := fun _ => (0 + V2) / INR (0 + n2)).
        -- apply always_true; exact (fun _ => I).
        -- intros t2 _. cbn [INR]. unfold Rdiv. ring.
        -- apply expects_const.
      * assert (h0 : INR n1 <> 0) by (apply not_0_INR; exact e0).
        replace ((V1 + V2) / INR (n1 + n2)) with (V2 / INR (n1 + n2) + INR n1 / INR (n1 + n2) * (V1 / INR n1)) by (field; split; lra).
        apply expects_affine. apply ih; [exact hz | exact g1 | fold n1; lia].
Qed.

(** * the doubling loop *)
Fixpoint val (W : Z -> R) (m : nat) (a : Z) (j : nat) (e : R) : R :=
  match m with
  | O => e
  | S m =>
      let dir (b u : Z) :=
        if good j b then
          let e' := (INR (nval j a) * e + vtot W j b) / INR (nval j a + nval j b) in
          if uturn u (u + P (S j) - 1) then e' else val W m u (S j) e'
        else e in
      1 / 2 * dir (a - P j)%Z (a - P j)%Z + (1 - 1 / 2) * dir (a + P j)%Z a
  end.
Lemma val_affine W m : forall a j, exists c k, forall e, val W m a j e = c + k * e.
Proof.
  induction m as [| m ih]; intros a j; [exists 0, 1; intro e; cbn; ring |].
  assert (H : forall b u, exists c k, forall e, (if good j b then
      let e' := (INR (nval j a) * e + vtot W j b) / INR (nval j a + nval j b) in
      if uturn u (u + P (S j) - 1) then e' else val W m u (S j) e' else e) = c + k * e).
  { intros b u. destruct (good j b); [| exists 0, 1; intro; ring]. cbv zeta. destruct (uturn _ _).
    - exists (vtot W j b / INR (nval j a + nval j b)), (INR (nval j a) / INR (nval j a + nval j b)). intro e. unfold Rdiv. ring.
    - destruct (ih u (S j)) as [c [k h]].
      exists (c + k * (vtot W j b / INR (nval j a + nval j b))), (k * (INR (nval j a) / INR (nval j a + nval j b))). intro e.
      rewrite h. unfold Rdiv. ring. }
  destruct (H (a - P j)%Z (a - P j)%Z) as [c1 [k1 h1]]. destruct (H (a + P j)%Z a) as [c2 [k2 h2]].
  exists (1 / 2 * c1 + (1 - 1 / 2) * c2), (1 / 2 * k1 + (1 - 1 / 2) * k2). intro e. cbn [val]. rewrite h1, h2. ring.
Qed.
Definition walk_fact (j : nat) (a : Z) (w : walk) : Prop :=
  o a = Some (w_minus w) /\ o (a + P j - 1)%Z = Some (w_plus w) /\ w_n w = nval j a /\ (0 < w_n w)%nat /\ w_depth w = j.

Lemma loop_expects E m : forall a j w, walk_fact j a w ->
  expects (nuts_loop m log_u H0 w) (fun w => E (w_prop w)) (val (at_index E) m a j (E (w_prop w))).
Proof.
  induction m as [| m ih]; intros a j w hw; [reflexivity |]. cbn [NutsModel.nuts_loop val]. cbn [expects].
  destruct hw as [hm [hp [hn [hpos hd]]]].
  set (dir := fun b u : Z => if good j b then
      let e' := (INR (nval j a) * E (w_prop w) + vtot (at_index E) j b) / INR (nval j a + nval j b) in
      if uturn u (u + P (S j) - 1) then e' else val (at_index E) m u (S j) e' else E (w_prop w)).
  exists (1 / 2), (dir (a - P j)%Z (a - P j)%Z), (dir (a + P j)%Z a).
  assert (K : forall r v, negb (rltb r (1 / 2)) = v ->
    expects (bind (build_tree (w_depth w) (if negb (rltb r (1 / 2)) then w_plus w else w_minus w) log_u (negb (rltb r (1 / 2))) H0) (fun t =>
      let zm := if negb (rltb r (1 / 2)) then w_minus w else t_minus t in
      let zp := if negb (rltb r (1 / 2)) then t_plus t else w_plus w in
      bind (pick (t_s t && negb (t_div t)) (w_n w) (t_n t) (w_prop w) (t_prop t)) (fun q =>
      let w' := Walk zm zp q (w_n w + t_n t) (w_alpha w + t_alpha t) (w_nalpha w + t_nalpha t)
                  (w_nlf w + t_nlf t) (w_div w || t_div t) (S (w_depth w)) in
      if t_s t && negb (is_uturn zm zp) then nuts_loop m log_u H0 w' else Ret w')))
    (fun w => E (w_prop w)) (dir (if v then a + P j else a - P j)%Z (if v then a else a - P j)%Z)).
  { intros r v ->. rewrite hd.
    set (i := (if v then a + P j - 1 else a)%Z). set (b := (if v then a + P j else a - P j)%Z). set (u := (if v then a else a - P j)%Z).
    assert (hz : o i = Some (if v then w_plus w else w_minus w)) by (unfold i; destruct v; assumption).
    assert (hb : lo v i j = b) by (unfold lo, i, b; destruct v; ring).
    assert (hB := build_always j i _ v hz). rewrite hb in hB.
    destruct (good j b) eqn:hg.
    2: { (* the new half is rejected *)
      unfold dir. rewrite hg.
      apply expects_bind with (P := tree_fact j b) (h := fun _ => E (w_prop w)); [exact hB | | apply expects_const].
      intros t [hs _]. rewrite hg in hs. cbv zeta. rewrite hs. cbn [andb]. unfold pick. cbn [andb bind expects w_prop]. reflexivity. }
    set (n1 := nval j a) in *. set (n2 := nval j b). set (V := vtot (at_index E) j b).
    assert (hN : 0 < INR (n1 + n2)) by (apply lt_0_INR; lia).
    assert (hu : forall t, tree_fact j b t -> is_uturn (if v then w_minus w else t_minus t) (if v then t_plus t else w_plus w) = uturn u (u + P (S j) - 1)).
    { intros t [hs ht]. rewrite hg in hs. destruct (ht hs) as [_ [t1 [t2 _]]]. unfold uturn, u. rewrite P_S. unfold b in *. destruct v.
      - rewrite hm. replace (a + 2 * P j - 1)%Z with (a + P j + P j - 1)%Z by ring. now rewrite t2.
      - rewrite t1. replace (a - P j + 2 * P j - 1)%Z with (a + P j - 1)%Z by ring. now rewrite hp. }
    assert (L : exists c k, dir b u = c + k * ((INR n1 * E (w_prop w) + V) / INR (n1 + n2)) /\
      forall t q w', tree_fact j b t -> w' = Walk (if v then w_minus w else t_minus t) (if v then t_plus t else w_plus w) q (w_n w + t_n t)
         (w_alpha w + t_alpha t) (w_nalpha w + t_nalpha t) (w_nlf w + t_nlf t) (w_div w || t_div t) (S j) ->
        expects (if uturn u (u + P (S j) - 1) then Ret w' else nuts_loop m log_u H0 w') (fun w => E (w_prop w)) (c + k * E q)).
    { unfold dir. rewrite hg. cbv zeta. fold n2 V. destruct (uturn u (u + P (S j) - 1)).
      - exists 0, 1. split; [ring |]. intros t q w' _ ->. cbn [expects w_prop]. ring.
      - destruct (val_affine (at_index E) m u (S j)) as [c [k hc]]. exists c, k. split; [apply hc |].
        intros t q w' [hs ht] ->. rewrite <- hc. rewrite hg in hs. destruct (ht hs) as [_ [t1 [t2 t3]]].
        match goal with |- expects (nuts_loop m log_u H0 ?w') _ _ => apply (ih u (S j) w') end.
        split; [| split; [| split; [| split]]]; cbn [w_minus w_plus w_n w_depth].
        + unfold u, b in *. destruct v; assumption.
        + rewrite P_S. unfold u, b in *. destruct v.
          * replace (a + 2 * P j - 1)%Z with (a + P j + P j - 1)%Z by ring. assumption.
          * replace (a - P j + 2 * P j - 1)%Z with (a + P j - 1)%Z by ring. assumption.
        + rewrite hn, t3. cbn [nval]. unfold u, b, n1. destruct v; [reflexivity |].
          replace (a - P j + P j)%Z with a by ring. lia.
        + lia.
        + reflexivity. }
    destruct L as [c [k [hdir hL]]]. rewrite hdir.
    apply expects_bind with (P := tree_fact j b)
      (h := fun t => c + k * (INR n1 * E (w_prop w) / INR (n1 + n2)) + k * (INR n2 / INR (n1 + n2)) * E (t_prop t)); [exact hB | |].
    - intros t ht. assert (hf := ht). destruct ht as [hs ht]. rewrite hg in hs. destruct (ht hs) as [hdiv [t1 [t2 t3]]]. cbv zeta.
      rewrite hs, hdiv. cbn [andb negb].
      apply expects_bind with (P := fun _ => True) (h := fun q => c + k * E q); [apply always_true; exact (fun _ => I) | |].
      + intros q _. rewrite (hu t hf).
        assert (hq := hL t q _ hf eq_refl). destruct (uturn u (u + P (S j) - 1)); cbn [negb]; rewrite <- hdiv; exact hq.
      + rewrite hn, t3. fold n1 n2.
        replace (c + k * (INR n1 * E (w_prop w) / INR (n1 + n2)) + k * (INR n2 / INR (n1 + n2)) * E (t_prop t))
          with (c + k * ((INR n1 * E (w_prop w) + INR n2 * E (t_prop t)) / INR (n1 + n2))) by (field; lra).
        apply expects_affine. apply pick_expects. lia.
    - destruct (Nat.eq_dec n2 0) as [e0 | e0].
      + assert (hV : V = 0) by (apply vtot_zero; exact e0). rewrite hV, e0.
        apply expects_ext with (P := fun _ => True) (E := fun _ => c + k * ((INR n1 * E (w_prop w) + 0) / INR (n1 + 0))).
        * apply always_true; exact (fun _ => I).
        * intros t _. cbn [INR]. unfold Rdiv. ring.
        * apply expects_const.
      + assert (h0 : INR n2 <> 0) by (apply not_0_INR; exact e0).
        replace (c + k * ((INR n1 * E (w_prop w) + V) / INR (n1 + n2)))
          with (c + k * (INR n1 * E (w_prop w) / INR (n1 + n2)) + k * (INR n2 / INR (n1 + n2)) * (V / INR n2)) by (field; split; lra).
        apply expects_affine. unfold V, n2. rewrite <- hb. apply build_expects; rewrite ?hb; [exact hz | exact hg | fold n2; lia]. }
  split; [lra |]. split; [| split; [| reflexivity]].
  - intros r hr. apply (K r false). apply negb_false_iff, rltb_iff. lra.
  - intros r hr. apply (K r true). apply negb_true_iff, rltb_false. lra.
Qed.
End P.
