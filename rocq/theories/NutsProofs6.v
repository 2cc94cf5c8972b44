(** Lemmas for NutsModel, part 6: kernel of the transition, a counterexample, the search, the overflow. *)
From Coq Require Import List Arith ZArith Reals Bool Lra Lia FunctionalExtensionality.
From Coquelicot Require Import Coquelicot.
From Verif Require Import ConfigModel FlModel PriorModel SelectProofs SmcModel SmcProofs NutsModel NutsProofs NutsProofs2 NutsProofs3 NutsProofs4 NutsProofs5.
Import ListNotations.
Local Open Scope R_scope.

(** state number i of the trajectory through z0 exists and lies in the slice *)
Definition in_slice (d : nat) (pot : vec -> option (R * vec)) (im : vec) (eps log_u : R) (z0 : phase) (i : Z) : Prop :=
  exists z, orbit pot im eps z0 i = Some z /\ log_u <= - energy d pot im z.
Lemma in_slice_valid d pot im eps log_u z0 i : in_slice d pot im eps log_u z0 i <-> valid d pot im log_u (orbit pot im eps z0) i = true.
Proof.
  unfold in_slice, valid. destruct (orbit pot im eps z0 i) as [z |].
  - rewrite rleb_iff. split; [intros [z' [e h]]; assert (z' = z) by congruence; now subst | intro h; now exists z].
  - split; [intros [z [e _]]; discriminate | discriminate].
Qed.

Section Kernel.
Variable d : nat.
Variable pot : vec -> option (R * vec).
Variable im : vec.
Variable eps delta_max log_u : R.
Variable z0 : phase.
Variable M : nat.
Notation o := (orbit pot im eps z0).
Notation energy := (energy d pot im).
Notation slice := (in_slice d pot im eps log_u z0).
Hypothesis hc : consistent pot z0.
Hypothesis hd : 0 < delta_max.
Hypothesis h0 : log_u <= - energy z0.
Hypothesis hsame : forall i z s zs, o i = Some z -> o s = Some zs -> log_u <= - energy zs -> log_u < delta_max - energy z ->
  energy z - energy zs <= delta_max.
Definition ker (s x : Z) : R := kern d pot im delta_max log_u (energy z0) o M s x.
Lemma orb0 : o 0%Z = Some z0. Proof. reflexivity. Qed.
Lemma same_ok s zs : o s = Some zs -> log_u <= - energy zs -> forall i,
  ok d pot im delta_max log_u (energy zs) o i = ok d pot im delta_max log_u (energy z0) o i.
Proof.
  intros hs hl i. unfold ok. destruct (o i) as [z |] eqn:e; [| reflexivity].
  destruct (rltb log_u (delta_max - energy z)) eqn:e1; [cbn [andb] | reflexivity]. apply rltb_iff in e1.
  assert (a1 := hsame i z s zs e hs hl e1). assert (a2 := hsame i z 0 z0 e orb0 h0 e1). f_equal.
  transitivity false; [| symmetry]; apply rltb_false; assumption.
Qed.
Lemma slice_ok s : slice s -> ok d pot im delta_max log_u (energy z0) o s = true.
Proof.
  intros [z [e h]]. unfold ok. rewrite e. assert (h1 : log_u < delta_max - energy z) by lra.
  assert (h2 := hsame s z 0 z0 e orb0 h0 h1). apply andb_true_intro. split; [now apply rltb_iff |].
  apply negb_true_iff, rltb_false, h2.
Qed.
Lemma slice_nval s : slice s -> (0 < nval d pot im log_u o 0 s)%nat.
Proof. intro h. apply in_slice_valid in h. cbn [nval]. rewrite h. lia. Qed.
Lemma ker_pos s x : slice s -> 0 <= ker s x.
Proof. intro h. apply g_pos; [| now apply slice_nval]. intro i. unfold delta. destruct (i =? x)%Z; lra. Qed.
Lemma ker_range s x : slice s -> (Z.of_nat (2 ^ M) <= Z.abs (x - s))%Z -> ker s x = 0.
Proof.
  intros h hx. apply g_range; [now apply slice_nval |]. rewrite P_0. unfold P. lia.
Qed.
Lemma ker_support s x : slice s -> ~ slice x -> ker s x = 0.
Proof.
  intros h hx. apply g_support; [now apply slice_nval |]. rewrite in_slice_valid in hx. destruct (valid _ _ _ _ _ _); [now elim hx | reflexivity].
Qed.
Lemma ker_sym s x : slice s -> slice x -> ker s x = ker x s.
Proof.
  intros hs hx. apply kern_sym; try (now apply in_slice_valid); now apply slice_ok.
Qed.
Lemma ker_lin W s : slice s -> g d pot im delta_max log_u (energy z0) o W M s 0 =
  zsum (2 * 2 ^ M) (s - Z.of_nat (2 ^ M)) (fun x => ker s x * W x).
Proof.
  intro h. rewrite (g_lin _ _ _ _ _ _ _ W M 0 s (2 * 2 ^ M) (s - Z.of_nat (2 ^ M))).
  - apply zsum_ext. intros i _. unfold ker, kern. ring.
  - now apply slice_nval.
  - rewrite P_0. unfold P. lia.
  - rewrite P_0. unfold P. lia.
Qed.
Lemma ker_one s : slice s -> zsum (2 * 2 ^ M) (s - Z.of_nat (2 ^ M)) (ker s) = 1.
Proof.
  intro h. rewrite <- (g_one d pot im delta_max log_u (energy z0) o M s 0 (slice_nval s h)), ker_lin by exact h.
  apply zsum_ext. intros. ring.
Qed.
Lemma ker_expects vfin s zs E : o s = Some zs -> log_u <= - energy zs ->
  expects (nuts_slice d pot im eps delta_max vfin M (pq zs) (pp zs) log_u) (fun r => E (o_q r))
    (zsum (2 * 2 ^ M) (s - Z.of_nat (2 ^ M)) (fun x => ker s x * at_index o E x)).
Proof.
  intros hs hl. assert (hsl : slice s) by (exists zs; auto). rewrite <- ker_lin by exact hsl.
  assert (eg : g d pot im delta_max log_u (energy z0) o (at_index o E) M s 0 = g d pot im delta_max log_u (energy zs) o (at_index o E) M s 0).
  { unfold g. symmetry. apply val_ext. now apply (same_ok s zs). }
  rewrite eg. apply slice_expects; [| | exact hs |].
  - intros i z v hi. now apply orbit_step.
  - now apply (orbit_consistent pot im eps z0 s).
  - now apply in_slice_valid.
Qed.
Lemma ker_column x : slice x -> zsum (2 * 2 ^ M) (x - Z.of_nat (2 ^ M))
  (fun s => if valid d pot im log_u o s then ker s x else 0) = 1.
Proof.
  intro h. rewrite <- (ker_one x h). apply zsum_ext. intros s _. destruct (valid d pot im log_u o s) eqn:e.
  - apply ker_sym; [now apply in_slice_valid | exact h].
  - symmetry. apply ker_support; [exact h |]. rewrite in_slice_valid. congruence.
Qed.
End Kernel.

(** * the divergence test is relative to the starting energy *)
(** free motion at unit speed over four states with energies 0, -8, 5, 5, and no other *)
Definition four_pot (q : vec) : option (R * vec) :=
  let x := q 0%nat in
  if rltb x (- 1 / 2) then None else if rltb x (1 / 2) then Some (- 1 / 2, fun _ => 0)
  else if rltb x (3 / 2) then Some (- 8 - 1 / 2, fun _ => 0) else if rltb x (7 / 2) then Some (5 - 1 / 2, fun _ => 0) else None.
Definition one_v : vec := fun _ => 1.
Definition four_state (i : Z) : phase := Phase (fun _ => IZR i) one_v (fun _ => 0).
Definition four_orbit (i : Z) : option phase := if (0 <=? i)%Z && (i <=? 3)%Z then Some (four_state i) else None.
Definition four_energy (i : Z) : R := if (i =? 0)%Z then 0 else if (i =? 1)%Z then - 8 else 5.

Ltac rl := repeat match goal with
  | |- context [rltb ?a ?b] => first [ replace (rltb a b) with true by (symmetry; apply rltb_iff; lra)
                                     | replace (rltb a b) with false by (symmetry; apply rltb_false; lra) ] end.
Lemma four_pot_at (i : Z) q : q 0%nat = IZR i -> four_pot q = if (0 <=? i)%Z && (i <=? 3)%Z then Some (four_energy i - 1 / 2, fun _ => 0) else None.
Proof.
  intro e. unfold four_pot. cbv zeta. rewrite e.
  destruct (Z_lt_le_dec i 0) as [h | h].
  { assert (hi : IZR i <= -1) by (apply IZR_le; lia). rl.
    destruct (Z.leb_spec 0 i); [lia |]. reflexivity. }
  destruct (Z_lt_le_dec 3 i) as [h3 | h3].
  { assert (hi : 4 <= IZR i) by (apply IZR_le; lia). rl. destruct (Z.leb_spec 0 i); [| lia]. destruct (Z.leb_spec i 3); [lia |]. reflexivity. }
  assert (hcase : (i = 0 \/ i = 1 \/ i = 2 \/ i = 3)%Z) by lia.
  destruct hcase as [-> | [-> | [-> | ->]]]; cbn [Z.leb Z.compare andb Pos.compare Pos.compare_cont]; unfold four_energy; cbn [Z.eqb Pos.eqb]; rl; f_equal; f_equal; lra.
Qed.
Lemma four_kin : kinetic 1 one_v one_v = 1 / 2.
Proof. unfold kinetic, vsum, one_v. cbn. unfold sum_list. cbn. field. Qed.
Lemma four_step i z v : four_orbit i = Some z -> step four_pot one_v 1 v z = four_orbit (if v then i + 1 else i - 1)%Z.
Proof.
  unfold four_orbit at 1. destruct ((0 <=? i)%Z && (i <=? 3)%Z); [| discriminate]. intro h. assert (ez : z = four_state i) by congruence. subst z. clear h.
  set (k := (if v then i + 1 else i - 1)%Z). unfold step, leapfrog, four_state. cbn [pq pp pg].
  rewrite (four_pot_at k).
  - unfold four_orbit. destruct ((0 <=? k)%Z && (k <=? 3)%Z); [| reflexivity]. cbn [option_map fst]. f_equal. unfold four_state, one_v, k.
    f_equal; apply functional_extensionality; intro x; destruct v; rewrite ?plus_IZR, ?minus_IZR; ring.
  - unfold k, one_v. destruct v; rewrite ?plus_IZR, ?minus_IZR; ring.
Qed.
Lemma four_en i : (0 <= i <= 3)%Z -> energy 1 four_pot one_v (four_state i) = four_energy i.
Proof.
  intro h. unfold energy. rewrite (four_pot_at i) by reflexivity. replace ((0 <=? i)%Z && (i <=? 3)%Z) with true by (symmetry; apply andb_true_iff; rewrite !Z.leb_le; lia).
  unfold four_state. cbn [pp]. rewrite four_kin. ring.
Qed.
Definition in03 (i : Z) : bool := (0 <=? i)%Z && (i <=? 3)%Z.
Lemma four_valid : valid 1 four_pot one_v (- 6) four_orbit = in03.
Proof.
  apply functional_extensionality. intro i. unfold valid, four_orbit. fold (in03 i). destruct (in03 i) eqn:e; [| reflexivity].
  unfold in03 in e. apply andb_true_iff in e. rewrite !Z.leb_le in e. rewrite four_en by lia. apply rleb_iff.
  assert (hcase : (i = 0 \/ i = 1 \/ i = 2 \/ i = 3)%Z) by lia. destruct hcase as [-> | [-> | [-> | ->]]]; unfold four_energy; cbn; lra.
Qed.
Lemma four_ok (H0 : R) (b : bool) : (b = true /\ H0 = - 8) \/ (b = false /\ H0 = 0) ->
  ok 1 four_pot one_v 10 (- 6) H0 four_orbit = fun i => in03 i && (negb b || (i <=? 1)%Z).
Proof.
  intro hb. apply functional_extensionality. intro i. unfold ok, four_orbit. fold (in03 i). destruct (in03 i) eqn:e; [| reflexivity].
  unfold in03 in e. apply andb_true_iff in e. rewrite !Z.leb_le in e. rewrite four_en by lia.
  assert (hcase : (i = 0 \/ i = 1 \/ i = 2 \/ i = 3)%Z) by lia.
  destruct hb as [[-> ->] | [-> ->]]; destruct hcase as [-> | [-> | [-> | ->]]]; unfold four_energy; cbn [Z.eqb Pos.eqb]; rl; reflexivity.
Qed.
Lemma four_uturn : uturn 1 one_v four_orbit = fun i j => negb (in03 i && in03 j && (i <=? j)%Z).
Proof.
  apply functional_extensionality. intro i. apply functional_extensionality. intro j. unfold uturn, four_orbit. fold (in03 i). fold (in03 j).
  destruct (in03 i); [| reflexivity]. destruct (in03 j); [| reflexivity]. cbn [andb]. unfold is_uturn, vsum, four_state, one_v. cbn [pq pp map seq].
  cbv zeta. unfold sum_list. cbn [fold_left]. destruct (Z.leb_spec i j) as [h | h]; cbn [negb].
  - apply IZR_le in h. rl. reflexivity.
  - apply IZR_lt in h. rl. reflexivity.
Qed.

(** indicator of the position i *)
Definition at_pos (x : R) (q : vec) : R := if reqb (q 0%nat) x then 1 else 0.
(** * search *)
Lemma find_step_total a init target base mn mx : 1 < base -> 0 < mn -> mn <= init <= mx ->
  exists fuel r, find_step fuel a init target base mn mx = Some r /\ mn / base <= r <= mx * base /\
   ((alpha_gt (a init) target = true /\ init < r /\ (alpha_lt (a r) target = true \/ mx < r)) \/
    (alpha_gt (a init) target = false /\ r < init /\ (alpha_gt (a r) target = true \/ r < mn))).
Proof.
  intros hb hmn hi. unfold find_step. assert (hib : 0 < / base < 1) by (split; [apply Rinv_0_lt_compat; lra | rewrite <- Rinv_1; apply Rinv_lt_contravar; lra]).
  destruct (alpha_gt (a init) target) eqn:e.
  - destruct (pow_unbounded base (mx / init) hb) as [n hn].
    destruct (search_up n a target base mn mx init) as [r [h1 [h2 h3]]]; try lra.
    { apply Rmult_lt_reg_r with (/ init); [apply Rinv_0_lt_compat; lra |]. rewrite (Rmult_comm init), Rmult_assoc, Rinv_r by lra. unfold Rdiv in hn. lra. }
    exists n, r. split; [exact h1 |]. split; [unfold Rdiv; nra |]. left. repeat split; try lra. exact h3.
  - destruct (pow_unbounded base (init / mn) hb) as [n hn].
    destruct (search_down n a target base mn mx init) as [r [h1 [h2 h3]]]; try lra.
    { apply Rmult_lt_reg_r with (/ mn); [apply Rinv_0_lt_compat; lra |]. rewrite (Rmult_comm mn), Rmult_assoc, Rinv_r by lra. unfold Rdiv in hn. lra. }
    exists n, r. split; [exact h1 |]. split; [nra |]. right. repeat split; try lra. exact h3.
Qed.
Lemma search_more fuel : forall a target base mn mx up e r k, search_loop fuel a target base mn mx up e = Some r ->
  search_loop (fuel + k) a target base mn mx up e = Some r.
Proof.
  induction fuel as [| fuel ih]; intros a target base mn mx up e r k h; [discriminate |]. cbn [search_loop Nat.add] in *.
  set (e' := if up then _ else _) in *. destruct (_ || _); [exact h |]. destruct (_ || _); [exact h |]. now apply ih.
Qed.
Lemma search_stuck fuel e target mn mx a : mn <= e <= mx -> (forall x, alpha_lt (a x) target = false) ->
  search_loop fuel a target 1 mn mx true e = None.
Proof.
  intros he ha. induction fuel as [| fuel ih]; [reflexivity |]. cbn [search_loop]. rewrite Rmult_1_r, ha, andb_false_r. cbn [orb andb].
  assert (e1 : rltb e mn = false) by (apply rltb_false; lra). assert (e2 : rltb mx e = false) by (apply rltb_false; lra).
  now rewrite e1, e2.
Qed.

(** * overflow *)
Local Opaque da_update clamp.
Lemma warm_no_windows o outs : forall t s s', warm_loop o [] t s outs = Some s' ->
  m_da s' = da_run (m_da s) (map (fun out => sum_list (map snd out) / INR (length out)) outs) (a_target o) (a_gamma o) (a_t0 o) (a_kappa o) /\
  (outs <> [] -> da_log_eps (m_da s') < 1024 * ln 2).
Proof.
  induction outs as [| out outs ih]; intros t s s' h; cbn [warm_loop] in h; [injection h as <-; split; [reflexivity | now intros []] |].
  unfold warm_iter in h. cbv zeta in h. set (da1 := da_update _ _ _ _ _ _) in *. destruct (math_exp (da_log_eps da1)) as [e |] eqn:he; [| discriminate].
  cbn [at_end existsb in_window] in h. destruct (ih _ _ _ h) as [h1 h2]. cbn [m_da] in h1. split.
  - rewrite h1. reflexivity.
  - intros _. destruct outs as [| out2 outs]; [| now apply h2]. cbn [map] in h1. cbn in h1. rewrite h1.
    unfold math_exp in he. destruct (rltb (da_log_eps da1) (1024 * ln 2)) eqn:e1; [now apply rltb_iff | discriminate].
Qed.
Lemma sum_repeat_c (c : R) n : sum_list (repeat c n) = INR n * c.
Proof. induction n as [| n ih]; [unfold sum_list; cbn; ring |]. cbn [repeat]. rewrite sum_cons, ih, S_INR. ring. Qed.
Lemma ln2_lt_1 : ln 2 < 1.
Proof. rewrite <- (ln_exp 1). apply ln_increasing; [lra |]. assert (h := exp_ineq1 1 ltac:(lra)). lra. Qed.
Lemma warm_overflows (o : adapt_opts) n s : da_t (m_da s) = 0%nat -> da_h (m_da s) = 0 -> 0 <= da_mu (m_da s) -> 0 <= a_t0 o -> 0 < a_gamma o ->
  (0 < n)%nat -> 1024 <= sqrt (INR n) / a_gamma o * ((1 - a_target o) * (INR n / (INR n + a_t0 o))) ->
  warm_loop o [] 0 s (repeat [(one_v, 1)] n) = None.
Proof.
  intros h1 h2 h3 h4 h5 hn hbig. destruct (warm_loop o [] 0 s _) as [s' |] eqn:e; [| reflexivity]. exfalso.
  destruct (warm_no_windows _ _ _ _ _ e) as [e1 e2]. assert (hne : repeat [(one_v, 1)] n <> []) by (destruct n; [lia | discriminate]).
  specialize (e2 hne). rewrite e1 in e2.
  assert (em : map (fun out : list (vec * R) => sum_list (map snd out) / INR (length out)) (repeat [(one_v, 1)] n) = repeat 1 n).
  { clear. induction n as [| n ih]; [reflexivity |]. cbn [repeat map]. rewrite ih. f_equal. unfold sum_list. cbn. field. }
  rewrite em in e2. destruct (da_run_closed (m_da s) (repeat 1 n) (a_target o) (a_gamma o) (a_t0 o) (a_kappa o) h1 h2 h4) as [_ [_ [c1 c2]]].
  cbv zeta in *. rewrite repeat_length in *. set (r := da_run (m_da s) (repeat 1 n) _ _ _ _) in *.
  assert (em2 : map (fun a => a_target o - a) (repeat 1 n) = repeat (a_target o - 1) n) by (clear; induction n as [| n ih]; [reflexivity |]; cbn; now rewrite ih).
  rewrite em2, sum_repeat_c in c1. rewrite c2 in e2 by (destruct n; [lia | discriminate]).
  assert (hN : 0 < INR n) by now apply lt_0_INR.
  assert (eh : da_h r = - ((1 - a_target o) * (INR n / (INR n + a_t0 o)))).
  { apply Rmult_eq_reg_l with (INR n + a_t0 o); [rewrite c1; field; lra | lra]. }
  rewrite eh in e2. pose proof ln2_lt_1. lra.
Qed.
Lemma at_pos_same x q : q 0%nat = x -> at_pos x q = 1.
Proof. intros <-. unfold at_pos, reqb. destruct (Req_EM_T _ _); [reflexivity | congruence]. Qed.
Lemma at_pos_other x q : q 0%nat <> x -> at_pos x q = 0.
Proof. intro h. unfold at_pos, reqb. destruct (Req_EM_T _ _); [congruence | reflexivity]. Qed.
Definition wtab (x i : Z) : R := if in03 i && (i =? x)%Z then 1 else 0.
Lemma four_at x : at_index four_orbit (at_pos (IZR x)) = wtab x.
Proof.
  apply functional_extensionality. intro i. unfold at_index, four_orbit, wtab. fold (in03 i). destruct (in03 i); [| reflexivity].
  cbn [andb]. destruct (Z.eqb_spec i x) as [-> | h]; [now apply at_pos_same |]. apply at_pos_other. unfold four_state. cbn [pq]. intro e. apply eq_IZR in e. contradiction.
Qed.
Lemma four_g (b : bool) H0 x s : (b = true /\ H0 = - 8) \/ (b = false /\ H0 = 0) ->
  (b = false -> x = 1%Z -> s = 0%Z -> g 1 four_pot one_v 10 (- 6) H0 four_orbit (wtab x) 2 s 0 = 3 / 16) /\
  (b = true -> x = 0%Z -> s = 1%Z -> g 1 four_pot one_v 10 (- 6) H0 four_orbit (wtab x) 2 s 0 = 1 / 4).
Proof.
  intro hb. split; intros -> -> ->; unfold g, mean; cbn [val good nval vtot]; rewrite !four_valid, !(four_ok H0 _ hb), !four_uturn;
   unfold wtab, in03, P; cbn -[INR Rplus Rmult Rdiv IZR Rinv Rminus]; cbn [INR]; field.
Qed.
