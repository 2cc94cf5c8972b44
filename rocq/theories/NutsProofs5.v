(** Lemmas for NutsModel, part 5: reversibility of the transition, quadratic potentials, overflow of the adaptation. *)
From Coq Require Import List Arith ZArith Reals Bool Lra Lia FunctionalExtensionality.
From Verif Require Import ConfigModel FlModel PriorModel SelectProofs SmcModel SmcProofs NutsModel NutsProofs NutsProofs2 NutsProofs3 NutsProofs4.
Import ListNotations.
Local Open Scope R_scope.

(** * shears *)
(** momentum kick by h times the gradient; drift of the position *)
Definition kick (grad : vec -> vec) (h : R) (qp : vec * vec) : vec * vec := (fst qp, fun i => snd qp i - h * grad (fst qp) i).
Definition drift (im : vec) (e : R) (qp : vec * vec) : vec * vec := (fun i => fst qp i + e * (snd qp i * im i), snd qp).
Lemma kick_inv grad h qp : kick grad (- h) (kick grad h qp) = qp.
Proof. destruct qp as [q p]. unfold kick. cbn [fst snd]. f_equal. apply functional_extensionality. intro i. ring. Qed.
Lemma drift_inv im e qp : drift im (- e) (drift im e qp) = qp.
Proof. destruct qp as [q p]. unfold drift. cbn [fst snd]. f_equal. apply functional_extensionality. intro i. ring. Qed.
Lemma leapfrog_shears U grad im q p e :
  leapfrog (fun x => Some (U x, grad x)) im (Phase q p (grad q)) e =
  let qp := kick grad (1 / 2 * e) (drift im e (kick grad (1 / 2 * e) (q, p))) in Some (Phase (fst qp) (snd qp) (grad (fst qp)), U (fst qp)).
Proof. reflexivity. Qed.

(** * the selection kernel of the transition *)
Section Rev.
Variable d : nat.
Variable pot : vec -> option (R * vec).
Variable im : vec.
Variable eps delta_max log_u : R.
Variable o : Z -> option phase.
Notation valid := (valid d pot im log_u o).
Notation ok := (ok d pot im delta_max log_u).
Notation energy := (energy d pot im).
Lemma good_ext H H' : (forall i, ok H o i = ok H' o i) -> forall j a, good d pot im delta_max log_u H o j a = good d pot im delta_max log_u H' o j a.
Proof. intros h j. induction j as [| j ih]; intro a; cbn [good]; [apply h |]. now rewrite !ih. Qed.
Lemma val_ext W H H' : (forall i, ok H o i = ok H' o i) -> forall m a j e,
  val d pot im delta_max log_u H o W m a j e = val d pot im delta_max log_u H' o W m a j e.
Proof.
  intros h m. induction m as [| m ih]; intros a j e; cbn [val]; [reflexivity |].
  rewrite !(good_ext H H' h). now rewrite !ih.
Qed.
Lemma val_const W m a H e : valid a = true -> e = W a ->
  val d pot im delta_max log_u H o W m a 0 e = g d pot im delta_max log_u H o W m a 0.
Proof.
  intros hv ->. unfold g. f_equal. unfold mean. cbn [vtot nval]. rewrite hv. cbn [INR]. field.
Qed.
Hypothesis o_step : forall i z v, o i = Some z -> step pot im eps v z = o (if v then i + 1 else i - 1)%Z.
Lemma slice_expects vfin E M s z : consistent pot z -> o s = Some z -> valid s = true ->
  expects (nuts_slice d pot im eps delta_max vfin M (pq z) (pp z) log_u) (fun r => E (o_q r))
    (g d pot im delta_max log_u (energy z) o (at_index o E) M s 0).
Proof.
  intros [U hU] hs hv. unfold nuts_slice. rewrite hU.
  assert (ez : Phase (pq z) (pp z) (pg z) = z) by now destruct z. rewrite ez.
  assert (eh : U + kinetic d im (pp z) = energy z) by (unfold NutsProofs.energy; now rewrite hU). rewrite eh.
  apply expects_bind with (P := fun _ => True) (h := fun w => E (w_prop w)).
  - now apply always_true.
  - intros w _. reflexivity.
  - rewrite <- (val_const _ _ _ _ (E (pq z)) hv).
    + assert (hw : walk_fact d pot im log_u o 0 s (start_walk z)).
      { unfold walk_fact, start_walk. cbn [w_minus w_plus w_n w_depth nval]. rewrite hv, P_0.
        replace (s + 1 - 1)%Z with s by lia. repeat split; try assumption; lia. }
      exact (loop_expects d pot im eps delta_max log_u (energy z) o o_step E M s 0 (start_walk z) hw).
    + unfold at_index. now rewrite hs.
Qed.
End Rev.

(** * quadratic potentials *)
Definition quad_pot (d : nat) (lam : vec) (q : vec) : option (R * vec) :=
  Some (1 / 2 * vsum d (fun i => lam i * (q i * q i)), fun i => lam i * q i).
Definition quad_state (lam q p : vec) : phase := Phase q p (fun i => lam i * q i).
(** n leapfrog steps of size e *)
Definition quad_run (d : nat) (lam im : vec) (e : R) (n : nat) (z : phase) : option phase := steps (quad_pot d lam) im e n true z.
Definition modified_energy (lam im : vec) (e : R) (z : phase) (i : nat) : R :=
  im i * (pp z i * pp z i) + lam i * (1 - e * e * (im i * lam i) / 4) * (pq z i * pq z i).
Lemma quad_step d lam im e z : (forall i, pg z i = lam i * pq z i) -> exists z1, step (quad_pot d lam) im e true z = Some z1 /\
  (forall i, pg z1 i = lam i * pq z1 i) /\
  (forall i, pq z1 i = pq z i + e * ((pp z i - 1 / 2 * e * (lam i * pq z i)) * im i)) /\
  (forall i, pp z1 i = pp z i - 1 / 2 * e * (lam i * pq z i) - 1 / 2 * e * (lam i * pq z1 i)).
Proof.
  intro hg. unfold step, leapfrog, quad_pot. cbn. eexists. split; [reflexivity |]. cbn [pg pq pp]. repeat split; intro i; now rewrite ?hg.
Qed.
Lemma quad_conserved d lam im e z z1 : (forall i, pg z i = lam i * pq z i) -> step (quad_pot d lam) im e true z = Some z1 ->
  (forall i, pg z1 i = lam i * pq z1 i) /\ forall i, modified_energy lam im e z1 i = modified_energy lam im e z i.
Proof.
  intros hg h. destruct (quad_step d lam im e z hg) as [z1' [h1 [h2 [h3 h4]]]]. assert (z1' = z1) by congruence. subst z1'.
  split; [exact h2 |]. intro i. unfold modified_energy. rewrite h4, h3. field.
Qed.
Lemma quad_run_spec d lam im e z : (forall i, pg z i = lam i * pq z i) -> forall n, exists zn, quad_run d lam im e n z = Some zn /\
  (forall i, pg zn i = lam i * pq zn i) /\ forall i, modified_energy lam im e zn i = modified_energy lam im e z i.
Proof.
  intro hg. induction n as [| n [zn [h1 [h2 h3]]]]; [exists z; repeat split; auto |].
  unfold quad_run in *. cbn [steps]. rewrite h1. destruct (quad_step d lam im e zn h2) as [z1 [k1 [k2 _]]]. exists z1.
  split; [exact k1 |]. split; [exact k2 |]. intro i. rewrite <- h3. now apply (quad_conserved d lam im e zn z1 h2 k1).
Qed.
Lemma quad_bounded d lam im e z i : (forall i, pg z i = lam i * pq z i) -> 0 < im i -> 0 < lam i -> e * e * (im i * lam i) < 4 ->
  forall n zn, quad_run d lam im e n z = Some zn ->
  pq zn i * pq zn i <= modified_energy lam im e z i / (lam i * (1 - e * e * (im i * lam i) / 4)).
Proof.
  intros hg h1 h2 h3 n zn hn. destruct (quad_run_spec d lam im e z hg n) as [zn' [k1 [_ k3]]]. assert (zn' = zn) by congruence. subst zn'.
  rewrite <- (k3 i). unfold modified_energy. set (c := lam i * (1 - e * e * (im i * lam i) / 4)).
  assert (hc : 0 < c) by (unfold c; apply Rmult_lt_0_compat; lra).
  apply Rmult_le_reg_r with c; [exact hc |]. unfold Rdiv. rewrite (Rmult_assoc _ (/ c) c), Rinv_l by lra. rewrite Rmult_1_r.
  assert (0 <= im i * (pp zn i * pp zn i)) by (apply Rmult_le_pos; [lra | apply Rle_0_sqr]). lra.
Qed.
(** from rest, above the stability limit *)
Lemma quad_unstable d lam im e z i : (forall i, pg z i = lam i * pq z i) -> pp z i = 0 -> 4 < e * e * (im i * lam i) ->
  forall n, exists zn, quad_run d lam im e n z = Some zn /\
  Rabs (pq zn i) >= Rabs (pq z i) * (1 + INR n * ((e * e * (im i * lam i) - 4) / 2)).
Proof.
  intros hg hp hc. set (c := e * e * (im i * lam i)) in *.
  assert (G : forall n, exists zn zm, quad_run d lam im e n z = Some zn /\ quad_run d lam im e (S n) z = Some zm /\
     (forall i, pg zn i = lam i * pq zn i) /\ step (quad_pot d lam) im e true zn = Some zm /\
     Rabs (pq zn i) >= Rabs (pq z i) * (1 + INR n * ((c - 4) / 2)) /\
     Rabs (pq zm i) - Rabs (pq zn i) >= Rabs (pq z i) * ((c - 4) / 2)).
  { induction n as [| n [zn [zm [h1 [h2 [h3 [h4 [h5 h6]]]]]]]].
    - destruct (quad_step d lam im e z hg) as [z1 [k1 [k2 [k3 k4]]]]. exists z, z1.
      split; [reflexivity |]. split; [exact k1 |]. split; [exact hg |]. split; [exact k1 |]. cbn [INR]. split; [lra |].
      assert (eq1 : pq z1 i = pq z i * (1 - c / 2)) by (rewrite k3, hp; unfold c; field).
      rewrite eq1, Rabs_mult, (Rabs_left (1 - c / 2)) by lra. pose proof (Rabs_pos (pq z i)). lra.
    - assert (hgm : forall i, pg zm i = lam i * pq zm i) by exact (proj1 (quad_conserved d lam im e zn zm h3 h4)).
      destruct (quad_step d lam im e zm hgm) as [z2 [k1 [k2 [k3 k4]]]]. destruct (quad_step d lam im e zn h3) as [zm' [l1 [l2 [l3 l4]]]].
      assert (zm' = zm) by congruence. subst zm'. exists zm, z2. split; [exact h2 |].
      split; [unfold quad_run in *; cbn [steps] in *; rewrite h1; rewrite h4; exact k1 |].
      split; [exact hgm |]. split; [exact k1 |].
      assert (rec : pq z2 i = (2 - c) * pq zm i - pq zn i) by (rewrite k3, (l4 i), (l3 i); unfold c; field).
      pose proof (Rabs_pos (pq z i)). pose proof (Rabs_pos (pq zm i)). pose proof (Rabs_pos (pq zn i)).
      split; [rewrite S_INR; nra |].
      assert (t : Rabs (pq z2 i) >= (c - 2) * Rabs (pq zm i) - Rabs (pq zn i)).
      { rewrite rec. assert (e1 : (c - 2) * Rabs (pq zm i) = Rabs ((2 - c) * pq zm i)) by (rewrite Rabs_mult, (Rabs_left (2 - c)) by lra; ring).
        rewrite e1. apply Rle_ge. apply Rabs_triang_inv. }
      nra. }
  intro n. destruct (G n) as [zn [zm [h1 [_ [_ [_ [h5 _]]]]]]]. now exists zn.
Qed.

(** * no overflow of the adaptation *)
Section Over.
Variable o : adapt_opts.
Variable ws : list (Z * Z).
Variable N : nat.
Hypothesis hb : 0 < a_min o <= a_max o.
Hypothesis htarget : 0 <= a_target o <= 1.
Hypothesis hgamma : 0 < a_gamma o.
Hypothesis ht0 : 0 <= a_t0 o.
Hypothesis hkappa : 0 <= a_kappa o.
Hypothesis hfactor : 1 <= a_factor o.
Let M := ln (a_factor o * a_max o).
Let B := M + sqrt (INR N) * ((1 - a_target o) / a_gamma o).
Hypothesis hB : B < 1024 * ln 2.
Definition da_inv (k : nat) (s : da) : Prop :=
  (da_t s <= k)%nat /\ da_mu s <= M /\ a_target o - 1 <= da_h s <= a_target o /\ da_log_bar s <= B.
Lemma ln_le a b : 0 < a -> a <= b -> ln a <= ln b.
Proof. intros h [h1 | ->]; [left; now apply ln_increasing | lra]. Qed.
Lemma B_ge : M <= B.
Proof.
  unfold B. assert (0 <= sqrt (INR N) * ((1 - a_target o) / a_gamma o)); [| lra]. apply Rmult_le_pos; [apply sqrt_pos |].
  apply Rmult_le_pos; [lra | left; now apply Rinv_0_lt_compat].
Qed.
Lemma da_start_inv k e : a_min o <= e <= a_max o -> da_inv k (da_start (a_min o) (a_factor o) e).
Proof.
  intro he. unfold da_inv, da_start. cbn [da_t da_mu da_h da_log_bar]. split; [lia |].
  assert (h1 : ln e <= M) by (unfold M; apply ln_le; nra). split.
  - unfold M. apply ln_le; [apply Rlt_le_trans with (a_min o); [lra | apply Rmax_l] |]. apply Rmax_lub; nra.
  - pose proof B_ge. lra.
Qed.
Lemma da_update_inv k s a : (S k <= N)%nat -> 0 <= a <= 1 -> da_inv k s ->
  let r := da_update s a (a_target o) (a_gamma o) (a_t0 o) (a_kappa o) in da_inv (S k) r /\ da_log_eps r <= B.
Proof.
  intros hk ha [h1 [h2 [h3 h4]]] r. unfold r, da_update, da_inv. cbn [da_t da_mu da_h da_log_bar da_log_eps].
  set (t := S (da_t s)). assert (ht : 1 <= INR t) by (unfold t; rewrite S_INR; pose proof (pos_INR (da_t s)); lra).
  set (eta := 1 / (INR t + a_t0 o)). assert (he : 0 < eta <= 1).
  { unfold eta, Rdiv. rewrite Rmult_1_l. split; [apply Rinv_0_lt_compat; lra |]. rewrite <- Rinv_1. apply Rinv_le_contravar; lra. }
  set (h := (1 - eta) * da_h s + eta * (a_target o - a)). assert (hh : a_target o - 1 <= h <= a_target o) by (unfold h; split; nra).
  assert (hst : sqrt (INR t) <= sqrt (INR N)) by (apply sqrt_le_1_alt, le_INR; unfold t; lia).
  assert (hg : 0 < / a_gamma o) by now apply Rinv_0_lt_compat.
  assert (hl : da_mu s - sqrt (INR t) / a_gamma o * h <= B).
  { unfold B, Rdiv. pose proof (sqrt_pos (INR t)). assert (- h <= 1 - a_target o) by lra.
    assert (sqrt (INR t) * / a_gamma o * (- h) <= sqrt (INR N) * ((1 - a_target o) * / a_gamma o)); [| lra].
    apply Rle_trans with (sqrt (INR t) * / a_gamma o * (1 - a_target o)).
    - apply Rmult_le_compat_l; [apply Rmult_le_pos; lra | lra].
    - replace (sqrt (INR N) * ((1 - a_target o) * / a_gamma o)) with (sqrt (INR N) * / a_gamma o * (1 - a_target o)) by ring.
      apply Rmult_le_compat_r; [lra |]. apply Rmult_le_compat_r; lra. }
  assert (w := weight_range t (a_kappa o) ltac:(unfold t; lia) hkappa).
  split; [| exact hl]. split; [unfold t; lia |]. split; [exact h2 |]. split; [exact hh |]. nra.
Qed.
Definition outs_ok (out : list (vec * R)) : Prop := out <> [] /\ forall x, In x out -> 0 <= snd x <= 1.
Lemma mean_accept_range out : outs_ok out -> 0 <= sum_list (map snd out) / INR (length out) <= 1.
Proof.
  intros [hne h]. assert (b := sum_bounds (map snd out) 0 1). rewrite map_length in b.
  assert (hn : 0 < INR (length out)) by (apply lt_0_INR; destruct out; [now elim hne | cbn; lia]).
  destruct b as [b1 b2]; [intros v hv; apply in_map_iff in hv; destruct hv as [x [<- hx]]; now apply h |].
  split; apply Rmult_le_reg_r with (INR (length out)); try exact hn; unfold Rdiv; rewrite Rmult_assoc, Rinv_l by lra; lra.
Qed.
Local Opaque clamp da_start da_update.
Lemma warm_no_overflow outs : forall k t s, (k + length outs <= N)%nat -> (forall out, In out outs -> outs_ok out) -> da_inv k (m_da s) ->
  exists s', warm_loop o ws t s outs = Some s' /\ da_inv N (m_da s').
Proof.
  induction outs as [| out outs ih]; intros k t s hk ho hi; cbn [warm_loop].
  - exists s. split; [reflexivity |]. destruct hi as [h1 h2]. split; [cbn in hk; lia | exact h2].
  - cbn [length] in hk. assert (ha := mean_accept_range out (ho out (or_introl eq_refl))).
    destruct (da_update_inv k (m_da s) _ ltac:(lia) ha hi) as [h1 h2]. cbv zeta in *.
    unfold warm_iter. cbv zeta. set (da1 := da_update _ _ _ _ _ _) in *. unfold math_exp.
    assert (e1 : rltb (da_log_eps da1) (1024 * ln 2) = true) by (apply rltb_iff; lra). rewrite e1.
    destruct (at_end ws (t + 1)).
    + apply (ih (S k)); [lia | intros x hx; apply ho; now right |]. cbn [m_da]. apply da_start_inv, clamp_range; lra.
    + apply (ih (S k)); [lia | intros x hx; apply ho; now right |]. cbn [m_da]. exact h1.
Qed.
Lemma final_no_overflow s : da_inv N (m_da s) -> exists e, final_step o s = Some e /\ a_min o <= e <= a_max o.
Proof.
  intros [_ [_ [_ h]]]. unfold final_step, math_exp. assert (e1 : rltb (da_log_bar (m_da s)) (1024 * ln 2) = true) by (apply rltb_iff; lra).
  rewrite e1. eexists. split; [reflexivity |]. apply clamp_range. lra.
Qed.
End Over.
