(** Proofs about the prior model (C41-C44, C75). *)
From Coq Require Import List Arith Reals Bool Lra Lia Permutation Sorted.
From Coquelicot Require Import Coquelicot.
From Verif Require Import ConfigModel FlModel PriorModel.
Import ListNotations.
Local Open Scope R_scope.

Lemma rltb_t a b : rltb a b = true <-> a < b.
Proof. unfold rltb; destruct (Rlt_dec a b); split; intros; auto; discriminate. Qed.
Lemma rltb_f a b : rltb a b = false <-> b <= a.
Proof. unfold rltb; destruct (Rlt_dec a b); split; intros; try lra; try discriminate; auto. Qed.
Lemma rleb_t a b : rleb a b = true <-> a <= b.
Proof. unfold rleb; destruct (Rle_dec a b); split; intros; auto; discriminate. Qed.
Lemma rleb_f a b : rleb a b = false <-> b < a.
Proof. unfold rleb; destruct (Rle_dec a b); split; intros; try lra; try discriminate; auto. Qed.
Lemma fl_lt_fin x y : fl_lt (Fin x) (Fin y) = true <-> x < y.
Proof. simpl. destruct (Rlt_dec x y); split; intros; auto; discriminate. Qed.
Lemma fl_le_fin x y : fl_le (Fin x) (Fin y) = true <-> x <= y.
Proof. simpl. destruct (Rle_dec x y); split; intros; auto; discriminate. Qed.

(** ** C41 *)
Lemma ln_lt_sub1 t : 0 < t -> t <> 1 -> ln t < t - 1.
Proof.
  intros Ht H1. assert (H := exp_ineq1 (ln t)).
  rewrite exp_ln in H by exact Ht.
  assert (ln t <> 0). { intros E. apply H1. rewrite <- (exp_ln t Ht), E. apply exp_0. }
  specialize (H H0). lra.
Qed.
Lemma ln_quot a b : 0 < a -> 0 < b -> ln (a / b) = ln a - ln b.
Proof. intros Ha Hb. unfold Rdiv. rewrite ln_mult, ln_Rinv; auto using Rinv_0_lt_compat. Qed.

Lemma nlf_fin a r m r0 :
  nlf_component (Fin a) (Fin r) (Fin m) (Fin r0) =
  if rltb m r then Fin (a * (r - m) - a * (r0 - m) * ln (r - m)) else PInf.
Proof.
  unfold nlf_component. cbv zeta.
  change (fl_sub (Fin r) (Fin m)) with (Fin (r + - m)).
  change (fl_sub (Fin r0) (Fin m)) with (Fin (r0 + - m)).
  replace (fl_lt (Fin 0) (Fin (r + - m))) with (rltb m r)
    by (unfold fl_lt, rltb; destruct (Rlt_dec m r), (Rlt_dec 0 (r + - m)); auto; exfalso; lra).
  destruct (rltb m r) eqn:E; [|reflexivity].
  apply rltb_t in E. unfold fl_ln.
  replace (rltb 0 (r + - m)) with true by (symmetry; apply rltb_t; lra).
  simpl. f_equal. unfold Rminus. ring.
Qed.
(** strict monotonicity on both sides of the reference *)
Lemma nlf_mono_right a r m r0 r' : 0 < a -> m < r0 -> r0 <= r -> r < r' ->
  fl_lt (nlf_component (Fin a) (Fin r) (Fin m) (Fin r0)) (nlf_component (Fin a) (Fin r') (Fin m) (Fin r0)) = true.
Proof.
  intros Ha H0 H1 H2. rewrite !nlf_fin.
  replace (rltb m r) with true by (symmetry; apply rltb_t; lra).
  replace (rltb m r') with true by (symmetry; apply rltb_t; lra).
  apply fl_lt_fin.
  set (s := r - m). set (s' := r' - m). set (L := r0 - m).
  assert (Hs : 0 < s) by (unfold s; lra). assert (Hs' : s < s') by (unfold s, s'; lra).
  assert (HL : 0 < L <= s) by (unfold s, L; lra).
  assert (H := ln_lt_sub1 (s' / s)).
  rewrite ln_quot in H by lra.
  assert (s' / s <> 1). { intros E. apply (f_equal (fun v => v * s)) in E. field_simplify in E; lra. }
  assert (Hp : 0 < s' / s) by (apply Rdiv_lt_0_compat; lra). specialize (H Hp H3).
  assert (L * (ln s' - ln s) < s' - s).
  { apply Rlt_le_trans with (L * (s' / s - 1)). apply Rmult_lt_compat_l; lra.
    replace (s' / s - 1) with ((s' - s) * / s) by (field; lra).
    replace (L * ((s' - s) * / s)) with ((s' - s) * (L * / s)) by ring.
    rewrite <- (Rmult_1_r (s' - s)) at 2. apply Rmult_le_compat_l; [lra|].
    apply Rmult_le_reg_r with s; [lra|]. rewrite Rmult_assoc, Rinv_l by lra. lra. }
  nra.
Qed.
Lemma nlf_mono_left a r m r0 r' : 0 < a -> m < r -> r < r' -> r' <= r0 ->
  fl_lt (nlf_component (Fin a) (Fin r') (Fin m) (Fin r0)) (nlf_component (Fin a) (Fin r) (Fin m) (Fin r0)) = true.
Proof.
  intros Ha H0 H1 H2. rewrite !nlf_fin.
  replace (rltb m r) with true by (symmetry; apply rltb_t; lra).
  replace (rltb m r') with true by (symmetry; apply rltb_t; lra).
  apply fl_lt_fin.
  set (s := r - m). set (s' := r' - m). set (L := r0 - m).
  assert (Hs : 0 < s) by (unfold s; lra). assert (Hs' : s < s') by (unfold s, s'; lra).
  assert (HL : s' <= L) by (unfold s', L; lra).
  assert (H := ln_lt_sub1 (s / s')).
  rewrite ln_quot in H by lra.
  assert (s / s' <> 1). { intros E. apply (f_equal (fun v => v * s')) in E. field_simplify in E; lra. }
  assert (Hp : 0 < s / s') by (apply Rdiv_lt_0_compat; lra). specialize (H Hp H3).
  assert (s' - s < L * (ln s' - ln s)).
  { apply Rle_lt_trans with (L * (1 - s / s')); [|apply Rmult_lt_compat_l; lra].
    replace (1 - s / s') with ((s' - s) * / s') by (field; lra).
    replace (L * ((s' - s) * / s')) with ((s' - s) * (L * / s')) by ring.
    rewrite <- (Rmult_1_r (s' - s)) at 1. apply Rmult_le_compat_l; [lra|].
    apply Rmult_le_reg_r with s'; [lra|]. rewrite Rmult_assoc, Rinv_l by lra. lra. }
  nra.
Qed.
Lemma nlf_min a r m r0 : 0 < a -> m < r0 -> r <> r0 ->
  fl_lt (nlf_component (Fin a) (Fin r0) (Fin m) (Fin r0)) (nlf_component (Fin a) (Fin r) (Fin m) (Fin r0)) = true.
Proof.
  intros Ha H0 Hn. destruct (Rlt_dec r r0) as [H|H].
  - destruct (Rlt_dec m r) as [H'|H'].
    + apply nlf_mono_left; lra.
    + rewrite (nlf_fin a r). replace (rltb m r) with false by (symmetry; apply rltb_f; lra).
      rewrite nlf_fin. replace (rltb m r0) with true by (symmetry; apply rltb_t; lra). reflexivity.
  - apply nlf_mono_right; lra.
Qed.
Lemma nlf_inf a r m r0 : nlf_component (Fin a) (Fin r) (Fin m) (Fin r0) = PInf <-> r <= m.
Proof.
  rewrite nlf_fin. destruct (rltb m r) eqn:E.
  - apply rltb_t in E. split; [discriminate|lra].
  - apply rltb_f in E. tauto.
Qed.
Lemma nlf_blowup_left a m r0 B : 0 < a -> m < r0 -> exists d, 0 < d /\
  forall r, r < m + d -> fl_lt (Fin B) (nlf_component (Fin a) (Fin r) (Fin m) (Fin r0)) = true.
Proof.
  intros Ha H0. set (L := r0 - m). exists (exp (- (Rabs B / (a * L)))). split; [apply exp_pos|].
  intros r Hr. rewrite nlf_fin. destruct (rltb m r) eqn:E; [|reflexivity].
  apply rltb_t in E. apply fl_lt_fin. fold L.
  assert (HL : 0 < L) by (unfold L; lra).
  assert (Hln : ln (r - m) < - (Rabs B / (a * L))).
  { rewrite <- (ln_exp (- _)). apply ln_increasing; lra. }
  assert (HB := Rle_abs B).
  assert (0 < a * L) by nra.
  assert (a * L * ln (r - m) < a * L * - (Rabs B / (a * L))) by (apply Rmult_lt_compat_l; auto).
  replace (a * L * - (Rabs B / (a * L))) with (- Rabs B) in H1 by (field; split; lra).
  assert (0 < a * (r - m)) by nra. lra.
Qed.
Lemma nlf_blowup_right a m r0 B : 0 < a -> m < r0 -> exists X,
  forall r, X < r -> fl_lt (Fin B) (nlf_component (Fin a) (Fin r) (Fin m) (Fin r0)) = true.
Proof.
  intros Ha H0. set (L := r0 - m). assert (HL : 0 < L) by (unfold L; lra).
  exists (m + Rmax 0 (2 * (B / a - L + L * ln (2 * L)))).
  intros r Hr. assert (M1 := Rmax_l 0 (2 * (B / a - L + L * ln (2 * L)))).
  assert (M2 := Rmax_r 0 (2 * (B / a - L + L * ln (2 * L)))).
  rewrite nlf_fin. replace (rltb m r) with true by (symmetry; apply rltb_t; lra).
  apply fl_lt_fin. fold L. set (s := r - m). assert (Hs : 0 < s) by (unfold s; lra).
  assert (H : ln (s / (2 * L)) <= s / (2 * L) - 1).
  { destruct (Req_dec (s / (2 * L)) 1) as [->|Hn]; [rewrite ln_1; lra|].
    left. apply ln_lt_sub1; auto. apply Rdiv_lt_0_compat; lra. }
  rewrite ln_quot in H by lra.
  assert (L * (ln s - ln (2 * L)) <= L * (s / (2 * L) - 1)) by (apply Rmult_le_compat_l; lra).
  replace (L * (s / (2 * L) - 1)) with (s / 2 - L) in H1 by (field; lra).
  assert (HB : B / a < s - L * ln s) by (unfold s in *; lra).
  apply Rmult_lt_compat_l with (r := a) in HB; auto.
  replace (a * (B / a)) with B in HB by (field; lra). lra.
Qed.
Lemma nlf_min_value a m r0 : 0 < a -> m < r0 ->
  nlf_component (Fin a) (Fin r0) (Fin m) (Fin r0) = Fin (a * (r0 - m) * (1 - ln (r0 - m))).
Proof.
  intros Ha H0. rewrite nlf_fin. replace (rltb m r0) with true by (symmetry; apply rltb_t; lra).
  f_equal. ring.
Qed.
Lemma nlf_sign a m r0 : 0 < a -> m < r0 ->
  (exists r, fl_lt (nlf_component (Fin a) (Fin r) (Fin m) (Fin r0)) (Fin 0) = true) <-> exp 1 < r0 - m.
Proof.
  intros Ha H0. assert (HL : 0 < r0 - m) by lra. split.
  - intros [r Hr].
    assert (Hm : fl_lt (nlf_component (Fin a) (Fin r0) (Fin m) (Fin r0)) (Fin 0) = true).
    { destruct (Req_dec r r0) as [->|Hn]; auto.
      assert (H := nlf_min a r m r0 Ha H0 Hn).
      rewrite nlf_min_value in * by auto.
      rewrite nlf_fin in *. destruct (rltb m r); [|discriminate].
      apply fl_lt_fin in H. apply fl_lt_fin in Hr. apply fl_lt_fin. lra. }
    rewrite nlf_min_value in Hm by auto. apply fl_lt_fin in Hm.
    assert (0 < a * (r0 - m)) by nra.
    assert (1 < ln (r0 - m)) by nra.
    rewrite <- (exp_ln (r0 - m)) by auto. apply exp_increasing; auto.
  - intros H. exists r0. rewrite nlf_min_value by auto. apply fl_lt_fin.
    assert (1 < ln (r0 - m)). { rewrite <- (ln_exp 1). apply ln_increasing; auto. apply exp_pos. }
    assert (0 < a * (r0 - m)) by nra. nra.
Qed.

(** the vector function *)
Lemma neglog_raises alpha logrho rm r0 : neglog_f_logrho alpha logrho rm r0 = None <->
  fl_le alpha (Fin 0) = true \/ exists a b, In (a, b) (combine r0 rm) /\ fl_le a b = true.
Proof.
  unfold neglog_f_logrho. destruct (fl_le alpha (Fin 0)) eqn:E; [tauto|].
  destruct (existsb _ _) eqn:E2.
  - split; auto. intros _. right. apply existsb_exists in E2 as ((a, b) & H & H').
    exists a, b; auto.
  - split; [discriminate|]. intros [H|(a & b & H & H')]; [discriminate|].
    assert (existsb (fun '(r1, rm0) => fl_le r1 rm0) (combine r0 rm) = true); [|congruence].
    apply existsb_exists. exists (a, b); auto.
Qed.

Definition fins (l : list R) : list fl := map Fin l.
(** sums of non-NaN, non -inf values *)
Lemma fl_sum_acc l a : (forall v, In v l -> v = PInf \/ exists x, v = Fin x) ->
  (exists x, fold_left fl_add l (Fin a) = Fin x /\ forall v, In v l -> exists y, v = Fin y) \/
  (fold_left fl_add l (Fin a) = PInf /\ In PInf l).
Proof.
  revert a; induction l as [|v l IH]; intros a H.
  - left. exists a. split; auto. intros v [].
  - destruct (H v (or_introl eq_refl)) as [->|(x & ->)].
    + right. split; [|left; auto]. simpl.
      assert (G : forall l, (forall v, In v l -> v = PInf \/ exists x, v = Fin x) -> fold_left fl_add l PInf = PInf).
      { clear. induction l as [|v l IH]; intros H; auto. simpl.
        destruct (H v (or_introl eq_refl)) as [->|(x & ->)]; apply IH; intros; apply H; right; auto. }
      apply G. intros; apply H; right; auto.
    + simpl. destruct (IH (a + x)) as [(y & E & F)|(E & F)].
      * intros; apply H; right; auto.
      * left. exists y. split; auto. intros v [<-|Hv]; eauto.
      * right. split; auto.
Qed.
Lemma fl_fold_pinf l : (forall v, In v l -> v = PInf \/ exists x, v = Fin x) -> fold_left fl_add l PInf = PInf.
Proof.
  induction l as [|v l IH]; intros H; auto. simpl.
  destruct (H v (or_introl eq_refl)) as [->|(x & ->)]; apply IH; intros; apply H; right; auto.
Qed.

(** finite vectors: the log prior and its support *)
Definition nlf_list (a : R) (li rm r0 : list R) : list fl :=
  zip_with3 (nlf_component (Fin a)) (map fl_opp (fins li)) (fins rm) (fins r0).
Lemma nlf_list_cons a x li m rm r r0 : nlf_list a (x :: li) (m :: rm) (r :: r0) =
  nlf_component (Fin a) (Fin (- x)) (Fin m) (Fin r) :: nlf_list a li rm r0.
Proof. reflexivity. Qed.
Lemma nlf_vals a li rm r0 v : In v (nlf_list a li rm r0) -> v = PInf \/ exists x, v = Fin x.
Proof.
  revert rm r0; induction li as [|x li IH]; intros [|m rm] [|r r0]; simpl; try tauto.
  intros [<-|H]; [|eapply IH; exact H].
  rewrite nlf_fin. destruct (rltb m (- x)); eauto.
Qed.
Lemma in_combine_fins r0 rm a b : In (a, b) (combine (fins r0) (fins rm)) ->
  exists x y, In (x, y) (combine r0 rm) /\ a = Fin x /\ b = Fin y.
Proof.
  revert rm; induction r0 as [|x r0 IH]; intros [|y rm]; simpl; try tauto.
  intros [H|H]; [injection H; intros; subst; eauto 6|].
  destruct (IH rm H) as (u & w & I & ? & ?). eauto 6.
Qed.
Lemma logprior_value a li rm r0 : 0 < a -> Forall2 Rlt rm r0 ->
  log_prior_logrho_barrier_linear (Fin a) (fins li) (fins rm) (fins r0) = Some (fl_opp (fl_sum (nlf_list a li rm r0))).
Proof.
  intros Ha HF. unfold log_prior_logrho_barrier_linear.
  destruct (neglog_f_logrho (Fin a) (map fl_opp (fins li)) (fins rm) (fins r0)) as [l|] eqn:E.
  - unfold neglog_f_logrho in E. destruct (fl_le _ _); [discriminate|].
    destruct (existsb _ _); [discriminate|]. injection E as <-. reflexivity.
  - exfalso. apply neglog_raises in E as [E|(u & v & I & E)].
    + apply fl_le_fin in E. lra.
    + apply in_combine_fins in I as (x & y & I & -> & ->). apply fl_le_fin in E.
      clear - HF I E. revert rm HF I. induction r0 as [|r r0 IH]; intros [|m rm] HF I; simpl in I; try tauto.
      inversion HF; subst. destruct I as [I|I]; [injection I; intros; subst; lra|]. eapply IH; eauto.
Qed.
Lemma logprior_raises a li rm r0 : length rm = length r0 ->
  log_prior_logrho_barrier_linear (Fin a) (fins li) (fins rm) (fins r0) = None <-> a <= 0 \/ ~ Forall2 Rlt rm r0.
Proof.
  intros HL. split.
  - unfold log_prior_logrho_barrier_linear.
    destruct (neglog_f_logrho _ _ _ _) eqn:E; [discriminate|]. intros _.
    apply neglog_raises in E as [E|(u & v & I & E)]; [left; apply fl_le_fin; auto|].
    right. apply in_combine_fins in I as (x & y & I & -> & ->). apply fl_le_fin in E. intros HF.
    clear - HF I E. revert rm HF I. induction r0 as [|r r0 IH]; intros [|m rm] HF I; simpl in I; try tauto.
    inversion HF; subst. destruct I as [I|I]; [injection I; intros; subst; lra|]. eapply IH; eauto.
  - intros H. destruct (Rle_dec a 0) as [Ha|Ha].
    + unfold log_prior_logrho_barrier_linear, neglog_f_logrho.
      replace (fl_le (Fin a) (Fin 0)) with true by (symmetry; apply fl_le_fin; lra). reflexivity.
    + destruct H as [H|H]; [lra|].
      unfold log_prior_logrho_barrier_linear.
      destruct (neglog_f_logrho _ _ _ _) eqn:E; auto. exfalso. apply H. clear H.
      unfold neglog_f_logrho in E. destruct (fl_le (Fin a) (Fin 0)); [discriminate|].
      destruct (existsb _ _) eqn:E2; [discriminate|]. clear E.
      revert rm HL E2. induction r0 as [|r r0 IH]; intros [|m rm] HL E2; try discriminate; constructor.
      * simpl in E2. apply orb_false_iff in E2 as [E2 _].
        destruct (Rle_dec r m); [discriminate|lra].
      * apply IH. simpl in HL; lia. simpl in E2. apply orb_false_iff in E2 as [_ E2]. exact E2.
Qed.
Lemma nlf_list_support a li rm r0 : length li = length rm -> length rm = length r0 ->
  In PInf (nlf_list a li rm r0) <-> exists k x m, nth_error li k = Some x /\ nth_error rm k = Some m /\ - m <= x.
Proof.
  revert rm r0; induction li as [|x li IH]; intros [|m rm] [|r r0] H1 H2; try discriminate.
  - split; [intros []|]. intros (k & x & m & H & _); destruct k; discriminate.
  - rewrite nlf_list_cons. split.
    + intros [H|H].
      * apply nlf_inf in H. exists 0%nat, x, m. repeat split; auto. lra.
      * apply IH in H as (k & x' & m' & A & B & C); [|simpl in *; lia..]. exists (S k), x', m'; auto.
    + intros (k & x' & m' & A & B & C). destruct k; simpl in A, B.
      * injection A as <-. injection B as <-. left. apply nlf_inf. lra.
      * right. apply IH; [simpl in *; lia..|]. eauto 6.
Qed.
(** comparison of two sums *)
Lemma fl_le_sum_acc a li rm r0 x y : 0 < a -> Forall2 Rlt rm r0 -> length li = length rm -> x <= y ->
  fl_le (fold_left fl_add (nlf_list a (map Ropp r0) rm r0) (Fin x)) (fold_left fl_add (nlf_list a li rm r0) (Fin y)) = true /\
  (x < y \/ li <> map Ropp r0 ->
   fl_lt (fold_left fl_add (nlf_list a (map Ropp r0) rm r0) (Fin x)) (fold_left fl_add (nlf_list a li rm r0) (Fin y)) = true).
Proof.
  intros Ha HF. revert li x y. induction HF as [|m r rm r0 Hm HF IH]; intros li x y HL Hxy.
  - destruct li; [|discriminate]. simpl fold_left. split; [apply fl_le_fin; auto|].
    intros [H|H]; [apply fl_lt_fin; auto|exfalso; apply H; reflexivity].
  - destruct li as [|u li]; [discriminate|]. simpl map. rewrite !nlf_list_cons. cbn [fold_left].
    rewrite Ropp_involutive.
    destruct (Req_dec (- u) r) as [E|E].
    + rewrite E. rewrite nlf_min_value by auto. cbn [fl_add].
      destruct (IH li (x + a * (r - m) * (1 - ln (r - m))) (y + a * (r - m) * (1 - ln (r - m)))) as [I1 I2].
      simpl in HL; lia. lra.
      split; auto. intros [H|H]; apply I2; [left; lra|right].
      intros ->. apply H. f_equal. lra.
    + assert (Hlt := nlf_min a (- u) m r Ha Hm E).
      rewrite nlf_min_value in Hlt |- * by auto.
      rewrite nlf_fin in Hlt |- *. destruct (rltb m (- u)).
      * apply fl_lt_fin in Hlt. cbn [fl_add].
        match goal with |- fl_le (fold_left _ _ (Fin (x + ?p))) (fold_left _ _ (Fin (y + ?q))) = _ /\ _ =>
          destruct (IH li (x + p) (y + q)) as [I1 I2]; [simpl in HL; lia | lra | split; auto; intros _; apply I2; left; lra] end.
      * cbn [fl_add]. rewrite fl_fold_pinf by (intros; eapply nlf_vals; eauto).
        assert (G : exists v, fold_left fl_add (nlf_list a (map Ropp r0) rm r0) (Fin (x + a * (r - m) * (1 - ln (r - m)))) = Fin v).
        { generalize (x + a * (r - m) * (1 - ln (r - m))). clear - HF Ha.
          induction HF as [|m r rm r0 Hm HF IH]; intros z; simpl; eauto.
          rewrite Ropp_involutive, nlf_min_value by auto. cbn [fl_add]. apply IH. }
        destruct G as (v & ->). auto.
Qed.
Lemma logprior_mode a li rm r0 : 0 < a -> Forall2 Rlt rm r0 -> length li = length rm -> li <> map Ropp r0 ->
  exists u v, log_prior_logrho_barrier_linear (Fin a) (fins li) (fins rm) (fins r0) = Some u /\
    log_prior_logrho_barrier_linear (Fin a) (fins (map Ropp r0)) (fins rm) (fins r0) = Some v /\ fl_lt u v = true.
Proof.
  intros Ha HF HL Hn. do 2 eexists. split; [apply logprior_value; auto|].
  split; [apply logprior_value; auto|].
  destruct (fl_le_sum_acc a li rm r0 0 0 Ha HF HL (Rle_refl _)) as [_ H].
  specialize (H (or_intror Hn)). unfold fl_sum.
  destruct (fold_left fl_add (nlf_list a (map Ropp r0) rm r0) (Fin 0)),
    (fold_left fl_add (nlf_list a li rm r0) (Fin 0)); try discriminate; auto.
  apply fl_lt_fin in H. apply fl_lt_fin. lra.
Qed.
Lemma logprior_support a li rm r0 : 0 < a -> Forall2 Rlt rm r0 -> length li = length rm ->
  exists u, log_prior_logrho_barrier_linear (Fin a) (fins li) (fins rm) (fins r0) = Some u /\
   ((exists x, u = Fin x) \/ u = NInf) /\
   (u = NInf <-> exists k x m, nth_error li k = Some x /\ nth_error rm k = Some m /\ - m <= x).
Proof.
  intros Ha HF HL. eexists; split; [apply logprior_value; auto|].
  assert (HL' : length rm = length r0) by (clear - HF; induction HF; simpl; auto).
  destruct (fl_sum_acc (nlf_list a li rm r0) 0) as [(x & E & F)|(E & F)].
  - intros; eapply nlf_vals; eauto.
  - unfold fl_sum. rewrite E. simpl. split; eauto. split; [discriminate|].
    intros H. apply (nlf_list_support a li rm r0) in H; auto. apply F in H as (y & H). discriminate.
  - unfold fl_sum. rewrite E. simpl. split; eauto. split; auto. intros _.
    apply (nlf_list_support a li rm r0); auto.
Qed.

(** ** C42 *)
Lemma power_law_slope h u v p : pl_cut_high h <= u -> pl_cut_high h <= v ->
  log_prior_power_law h v p - log_prior_power_law h u p = (pl_penalty h - pl_lambda_var h) * (v - u).
Proof.
  intros Hu Hv. unfold log_prior_power_law. rewrite !Rmax_left by lra. ring.
Qed.
Lemma power_law_unbounded h p B : pl_lambda_var h < pl_penalty h -> exists u, forall v, u <= v ->
  B < log_prior_power_law h v p.
Proof.
  intros H. set (c := pl_cut_high h). set (g := pl_penalty h - pl_lambda_var h).
  set (w := log_prior_power_law h c p).
  exists (c + Rmax 0 ((B - w + 1) / g)). intros v Hv.
  assert (M1 := Rmax_l 0 ((B - w + 1) / g)). assert (M2 := Rmax_r 0 ((B - w + 1) / g)).
  assert (E := power_law_slope h c v p (Rle_refl _)). fold c g w in E.
  specialize (E ltac:(lra)). assert (Hg : 0 < g) by (unfold g; lra).
  assert (B - w + 1 <= g * (v - c)).
  { apply Rle_trans with (g * ((B - w + 1) / g)); [right; field; lra|]. apply Rmult_le_compat_l; lra. }
  lra.
Qed.
Lemma sum_acc l a : fold_left Rplus l a = a + sum_list l.
Proof.
  unfold sum_list. revert a; induction l as [|x l IH]; intros a; simpl; [ring|].
  rewrite IH, (IH (0 + x)). ring.
Qed.
Lemma sum_list_cons x l : sum_list (x :: l) = x + sum_list l.
Proof. unfold sum_list at 1; simpl. rewrite sum_acc. ring. Qed.
(** the length-scale part is a penalty, as documented *)
Lemma power_law_lengths h u p : pl_lambda_len h = 0 -> 0 < pl_penalty h ->
  log_prior_power_law h u p <= log_prior_power_law h u [] /\
  (log_prior_power_law h u p = log_prior_power_law h u [] <->
   forall v, In v p -> pl_len_low h <= v <= pl_len_high h).
Proof.
  intros H0 Hp. unfold log_prior_power_law. rewrite H0. cbn [map sum_list fold_left].
  assert (E : forall f : R -> R, (forall v, 0 <= f v) -> forall l,
     0 <= sum_list (map f l) /\ (sum_list (map f l) = 0 <-> forall v, In v l -> f v = 0)).
  { intros f Hf. induction l as [|x l [IH1 IH2]]; [unfold sum_list; simpl; split; [lra|split; [intros _ v []|auto]]|].
    simpl map. rewrite sum_list_cons. assert (Hx := Hf x). split; [lra|]. split.
    - intros S. assert (f x = 0 /\ sum_list (map f l) = 0) as [A B] by lra.
      intros v [<-|Hv]; auto. apply IH2; auto.
    - intros A. assert (f x = 0) by (apply A; left; auto).
      assert (sum_list (map f l) = 0) by (apply IH2; intros; apply A; right; auto). lra. }
  destruct (E (fun v => pl_penalty h * Rmax (pl_len_low h - v) 0)
     (fun v => Rmult_le_pos _ _ (Rlt_le _ _ Hp) (Rmax_r _ _)) p) as [L1 L2].
  destruct (E (fun v => pl_penalty h * Rmax (v - pl_len_high h) 0)
     (fun v => Rmult_le_pos _ _ (Rlt_le _ _ Hp) (Rmax_r _ _)) p) as [U1 U2].
  change (sum_list []) with 0.
  set (SL := sum_list (map (fun v => pl_penalty h * Rmax (pl_len_low h - v) 0) p)) in *.
  set (SU := sum_list (map (fun v => pl_penalty h * Rmax (v - pl_len_high h) 0) p)) in *.
  set (c := - pl_lambda_var h * u + pl_penalty h * Rmax (u - pl_cut_high h) 0) in *.
  replace (c + (-0 * sum_list p - SL - SU)) with (c - SL - SU) by ring.
  replace (c + (-0 * 0 - 0 - 0)) with c by ring.
  split; [lra|]. split.
  - intros H v Hv. assert (SL = 0) as S1 by lra. assert (SU = 0) as S2 by lra.
    rewrite L2 in S1. rewrite U2 in S2. specialize (S1 v Hv). specialize (S2 v Hv). simpl in S1, S2.
    apply Rmult_integral in S1 as [?|S1]; [lra|]. apply Rmult_integral in S2 as [?|S2]; [lra|].
    assert (A := Rmax_l (pl_len_low h - v) 0). assert (B := Rmax_l (v - pl_len_high h) 0). lra.
  - intros H. assert (SL = 0); [|assert (SU = 0); [|lra]].
    + apply L2. intros v Hv. specialize (H v Hv). rewrite Rmax_right by lra. ring.
    + apply U2. intros v Hv. specialize (H v Hv). rewrite Rmax_right by lra. ring.
Qed.

(** ** C43: smallest positive gap *)
Lemma insert_perm a l : Permutation (a :: l) (insert a l).
Proof.
  induction l as [|b l IH]; simpl; auto. destruct (rleb a b); auto.
  etransitivity; [apply perm_swap|]. constructor; auto.
Qed.
Lemma sort_perm l : Permutation l (sort_list l).
Proof.
  induction l as [|a l IH]; simpl; auto. etransitivity; [|apply insert_perm]. constructor; auto.
Qed.
Lemma insert_sorted a l : StronglySorted Rle l -> StronglySorted Rle (insert a l).
Proof.
  induction 1 as [|b l S IH F]; simpl; [repeat constructor|].
  destruct (rleb a b) eqn:E.
  - apply rleb_t in E. constructor; [constructor; auto|].
    constructor; auto. eapply Forall_impl; [|exact F]. intros; simpl in *; lra.
  - apply rleb_f in E. constructor; auto.
    rewrite Forall_forall in *. intros x Hx.
    apply (Permutation_in _ (Permutation_sym (insert_perm a l))) in Hx as [<-|Hx]; [lra|auto].
Qed.
Lemma sort_sorted l : StronglySorted Rle (sort_list l).
Proof. induction l; simpl; [constructor|apply insert_sorted; auto]. Qed.

Lemma min_from_spec l a : (min_from a l = a \/ In (min_from a l) l) /\ min_from a l <= a /\
  forall v, In v l -> min_from a l <= v.
Proof.
  unfold min_from. revert a; induction l as [|b l IH]; intros a; simpl.
  - repeat split; auto; try lra; intros v [].
  - destruct (IH (Rmin a b)) as (H1 & H2 & H3).
    assert (A := Rmin_l a b). assert (B := Rmin_r a b). repeat split.
    + destruct H1 as [H1|H1]; auto. rewrite H1. unfold Rmin; destruct (Rle_dec a b); auto.
    + lra.
    + intros v [<-|Hv]; [lra|auto].
Qed.
Lemma max_from_spec l a : (max_from a l = a \/ In (max_from a l) l) /\ a <= max_from a l /\
  forall v, In v l -> v <= max_from a l.
Proof.
  unfold max_from. revert a; induction l as [|b l IH]; intros a; simpl.
  - repeat split; auto; try lra; intros v [].
  - destruct (IH (Rmax a b)) as (H1 & H2 & H3).
    assert (A := Rmax_l a b). assert (B := Rmax_r a b). repeat split.
    + destruct H1 as [H1|H1]; auto. rewrite H1. unfold Rmax; destruct (Rle_dec a b); auto.
    + lra.
    + intros v [<-|Hv]; [lra|auto].
Qed.
(** every positive gap between members of a sorted list is at least some positive consecutive gap *)
Lemma sorted_gap l : StronglySorted Rle l -> forall x y, In x l -> In y l -> x < y ->
  exists g, In g (filter (fun v => rltb 0 v) (diff_list l)) /\ g <= y - x.
Proof.
  induction 1 as [|a l S IH F]; intros x y Hx Hy Hxy; [destruct Hx|].
  destruct l as [|b l].
  { destruct Hx as [<-|[]]; destruct Hy as [<-|[]]; lra. }
  rewrite Forall_forall in F.
  assert (Hab : a <= b) by (apply F; left; auto).
  assert (Step : forall g, In g (filter (fun v => rltb 0 v) (diff_list (b :: l))) ->
    In g (filter (fun v => rltb 0 v) (diff_list (a :: b :: l)))).
  { intros g Hg. change (diff_list (a :: b :: l)) with ((b - a) :: diff_list (b :: l)). simpl.
    destruct (rltb 0 (b - a)); [right|]; auto. }
  destruct Hx as [<-|Hx].
  - destruct Hy as [<-|Hy]; [lra|].
    destruct (Rlt_dec a b) as [H|H].
    + exists (b - a). split.
      * change (diff_list (a :: b :: l)) with ((b - a) :: diff_list (b :: l)). simpl.
        replace (rltb 0 (b - a)) with true by (symmetry; apply rltb_t; lra). left; auto.
      * inversion S as [|? ? _ F']; subst. rewrite Forall_forall in F'.
        destruct Hy as [<-|Hy]; [lra|]. apply F' in Hy. lra.
    + assert (a = b) by lra. subst b.
      destruct (IH a y (or_introl eq_refl) Hy Hxy) as (g & Hg & Hl). exists g; auto.
  - destruct Hy as [<-|Hy]; [apply F in Hx; lra|].
    destruct (IH x y Hx Hy Hxy) as (g & Hg & Hl). exists g; auto.
Qed.
Lemma diff_in l g : In g (diff_list l) -> exists x y, In x l /\ In y l /\ g = y - x.
Proof.
  induction l as [|a l IH]; [intros []|]. destruct l as [|b l]; [intros []|].
  change (diff_list (a :: b :: l)) with ((b - a) :: diff_list (b :: l)). intros [<-|H].
  - exists a, b. repeat split; auto. left; auto. right; left; auto.
  - destruct (IH H) as (x & y & A & B & C). exists x, y. repeat split; auto; right; auto.
Qed.
Definition all_equal (l : list R) : Prop := forall x y, In x l -> In y l -> x = y.
Lemma gap_spec l :
  (minimum_nonzero_gap l = PInf /\ all_equal l) \/
  (exists g, minimum_nonzero_gap l = Fin g /\ 0 < g /\
    (exists x y, In x l /\ In y l /\ y - x = g) /\
    forall x y, In x l -> In y l -> x <> y -> g <= Rabs (y - x)).
Proof.
  unfold minimum_nonzero_gap.
  assert (P := sort_perm l). assert (S := sorted_gap _ (sort_sorted l)).
  assert (D : Nat.ltb (length l) 2 = true -> all_equal l).
  { intros H. apply Nat.ltb_lt in H. destruct l as [|a [|b l]]; simpl in H; try lia;
    intros x y Hx Hy; simpl in Hx, Hy; intuition congruence. }
  destruct (Nat.ltb (length l) 2); [left; auto|].
  destruct (filter _ _) as [|a t] eqn:E.
  - left. split; auto. intros x y Hx Hy.
    apply (Permutation_in _ P) in Hx. apply (Permutation_in _ P) in Hy.
    destruct (Rtotal_order x y) as [H|[H|H]]; auto; exfalso.
    + destruct (S x y Hx Hy H) as (g & [] & _).
    + destruct (S y x Hy Hx H) as (g & [] & _).
  - right. destruct (min_from_spec t a) as (M1 & M2 & M3).
    exists (min_from a t). split; auto.
    assert (I : In (min_from a t) (filter (fun v => rltb 0 v) (diff_list (sort_list l)))).
    { rewrite E. destruct M1 as [M1|M1]; [left; auto|right; auto]. }
    apply filter_In in I as [I1 I2]. apply rltb_t in I2. split; auto. split.
    + apply diff_in in I1 as (x & y & A & B & C). exists x, y.
      split; [|split]; [apply (Permutation_in _ (Permutation_sym P)); auto..|auto].
    + assert (G : forall x y, In x (sort_list l) -> In y (sort_list l) -> x < y -> min_from a t <= y - x).
      { intros x y Hx Hy H. destruct (S x y Hx Hy H) as (g & [<-|Hg] & Hl); [lra|].
        apply M3 in Hg. lra. }
      intros x y Hx Hy Hn. apply (Permutation_in _ P) in Hx. apply (Permutation_in _ P) in Hy.
      destruct (Rtotal_order x y) as [H|[H|H]]; [|congruence|].
      * rewrite Rabs_right by lra. apply G; auto.
      * rewrite Rabs_left by lra. replace (- (y - x)) with (x - y) by ring. apply G; auto.
Qed.
Lemma range_spec l : l <> [] -> (exists x y, In x l /\ In y l /\ col_range l = y - x) /\
  forall x y, In x l -> In y l -> y - x <= col_range l.
Proof.
  destruct l as [|a t]; [congruence|]. intros _. simpl col_range.
  destruct (min_from_spec t a) as (M1 & M2 & M3). destruct (max_from_spec t a) as (N1 & N2 & N3).
  split.
  - exists (min_from a t), (max_from a t). simpl. intuition.
  - assert (A : forall x, In x (a :: t) -> min_from a t <= x) by (intros x [<-|H]; auto).
    assert (B : forall x, In x (a :: t) -> x <= max_from a t) by (intros x [<-|H]; auto).
    intros x y Hx Hy. specialize (A x Hx). specialize (B y Hy). lra.
Qed.
Lemma range_pos l : ~ all_equal l -> 0 < col_range l.
Proof.
  intros H. assert (l <> []) by (intros ->; apply H; intros x y []).
  destruct (range_spec l H0) as (_ & R).
  destruct (Rlt_dec 0 (col_range l)) as [|N]; auto. exfalso. apply H. intros x y Hx Hy.
  assert (A := R x y Hx Hy). assert (B := R y x Hy Hx). lra.
Qed.
Lemma range_zero l : all_equal l -> col_range l = 0.
Proof.
  intros H. destruct l as [|a t]; [reflexivity|].
  destruct (range_spec (a :: t)) as ((x & y & Hx & Hy & E) & _); [congruence|].
  rewrite E, (H x y Hx Hy). ring.
Qed.
(** one column of the cut-off *)
Definition cutoff_col (factor : R) (xj : list R) : fl :=
  let min_rho_from_range := col_range xj * factor in
  let positive := rltb 0 min_rho_from_range in
  let min_rho_safe := if positive then min_rho_from_range else 1 in
  let logrho_min_range := if positive then Fin (ln min_rho_safe) else NInf in
  fl_max (logrho_min_from_gap xj) logrho_min_range.
Lemma ln_mono a b : 0 < a -> a <= b -> ln a <= ln b.
Proof. intros Ha [H| ->]; [left; apply ln_increasing; auto|right; auto]. Qed.
Lemma cutoff_spec factor xj : 0 < factor ->
  (all_equal xj /\ cutoff_col factor xj = NInf) \/
  (exists g, minimum_nonzero_gap xj = Fin g /\ 0 < g /\ 0 < col_range xj /\
     cutoff_col factor xj = Fin (ln (Rmax g (col_range xj * factor)))).
Proof.
  intros Hf. unfold cutoff_col, logrho_min_from_gap.
  destruct (gap_spec xj) as [(E & A)|(g & E & Hg & (x & y & Hx & Hy & Hd) & _)]; rewrite E.
  - left. split; auto. rewrite (range_zero _ A), Rmult_0_l.
    replace (rltb 0 0) with false by (symmetry; apply rltb_f; lra). reflexivity.
  - right. exists g. assert (HR : 0 < col_range xj).
    { apply range_pos. intros A. specialize (A x y Hx Hy). lra. }
    repeat split; auto. simpl fl_is_finite. cbv iota. unfold fl_ln.
    assert (HP : 0 < col_range xj * factor) by nra.
    replace (rltb 0 g) with true by (symmetry; apply rltb_t; auto).
    replace (rltb 0 (col_range xj * factor)) with true by (symmetry; apply rltb_t; auto).
    unfold fl_max, fl_le. unfold Rmax.
    destruct (Rle_dec g (col_range xj * factor)) as [H|H], (Rle_dec (ln g) (ln (col_range xj * factor))) as [H'|H']; auto.
    + exfalso. apply H', ln_mono; auto.
    + f_equal. apply Rle_antisym; auto. apply ln_mono; auto. lra.
Qed.
Lemma compute_logrho_min_spec xi factor :
  compute_logrho_min xi factor = if rleb factor 0 then None else Some (map (cutoff_col factor) xi).
Proof. reflexivity. Qed.

(** when does the default criterion raise *)
Lemma existsb_combine_map {A} (f g : A -> fl) (l : list A) :
  existsb (fun '(r0, rm) => fl_le r0 rm) (combine (map f l) (map g l)) = existsb (fun x => fl_le (f x) (g x)) l.
Proof. induction l; simpl; auto. rewrite IHl. reflexivity. Qed.
Definition unit_ball_coef (glog : R) (d : nat) : R := exp (glog / INR d) / sqrt PI.
Lemma coef_pos glog d : 0 < unit_ball_coef glog d.
Proof. apply Rdiv_lt_0_compat; [apply exp_pos|apply sqrt_lt_R0, PI_RGT_0]. Qed.
Lemma default_col glog (xi : list (list R)) xj factor : 0 < factor ->
  fl_le (fl_opp (fl_opp (fl_ln (Fin (unit_ball_coef glog (length xi) * col_range xj))))) (cutoff_col factor xj) = true <->
  (all_equal xj \/ unit_ball_coef glog (length xi) <= factor \/
   exists g, minimum_nonzero_gap xj = Fin g /\ unit_ball_coef glog (length xi) * col_range xj <= g).
Proof.
  intros Hf. set (c := unit_ball_coef _ _). assert (Hc : 0 < c) by apply coef_pos.
  destruct (cutoff_spec factor xj Hf) as [(A & ->)|(g & G & Hg & HR & ->)].
  - rewrite (range_zero _ A), Rmult_0_r. unfold fl_ln.
    replace (rltb 0 0) with false by (symmetry; apply rltb_f; lra). simpl. tauto.
  - unfold fl_ln. assert (0 < c * col_range xj) by nra.
    replace (rltb 0 (c * col_range xj)) with true by (symmetry; apply rltb_t; auto).
    simpl fl_opp. rewrite Ropp_involutive.
    rewrite fl_le_fin. split.
    + intros L. assert (H1 : c * col_range xj <= Rmax g (col_range xj * factor)).
      { destruct (Rle_dec (c * col_range xj) (Rmax g (col_range xj * factor))) as [|N]; auto. exfalso.
        assert (ln (Rmax g (col_range xj * factor)) < ln (c * col_range xj)).
        { apply ln_increasing; [|lra]. assert (Q := Rmax_l g (col_range xj * factor)). lra. }
        lra. }
      right. unfold Rmax in H1. destruct (Rle_dec g (col_range xj * factor)); [left|right; eauto].
      nra.
    + intros H1. apply ln_mono; auto.
      assert (Q1 := Rmax_l g (col_range xj * factor)). assert (Q2 := Rmax_r g (col_range xj * factor)).
      destruct H1 as [A|[H1|(g' & G' & H1)]].
      * rewrite (range_zero _ A) in HR. lra.
      * apply Rle_trans with (col_range xj * factor); auto. nra.
      * rewrite G in G'. injection G' as <-. lra.
Qed.
Lemma default_raises glog alpha xi factor loginvrho : 0 < alpha -> 0 < factor ->
  length loginvrho = length xi ->
  match compute_logrho_min xi factor with
  | None => False
  | Some rm => log_prior_logrho_barrier_linear (Fin alpha) loginvrho rm (default_logrho_0 glog xi) = None <->
     exists xj, In xj xi /\
      (all_equal xj \/ unit_ball_coef glog (length xi) <= factor \/
       exists g, minimum_nonzero_gap xj = Fin g /\ unit_ball_coef glog (length xi) * col_range xj <= g)
  end.
Proof.
  intros Ha Hf _. rewrite compute_logrho_min_spec.
  replace (rleb factor 0) with false by (symmetry; apply rleb_f; auto).
  unfold log_prior_logrho_barrier_linear, neglog_f_logrho.
  replace (fl_le (Fin alpha) (Fin 0)) with false
    by (symmetry; apply not_true_iff_false; rewrite fl_le_fin; lra).
  unfold default_logrho_0. rewrite existsb_combine_map.
  destruct (existsb _ xi) eqn:E.
  - split; auto. intros _. apply existsb_exists in E as (xj & I & E). exists xj. split; auto.
    apply default_col in E; auto.
  - split; [discriminate|]. intros (xj & I & H). exfalso.
    apply (default_col glog xi xj factor Hf) in H.
    assert (existsb (fun x => fl_le (fl_opp (fl_opp (fl_ln (Fin (exp (glog / INR (length xi)) / sqrt PI * col_range x)))))
       (cutoff_col factor x)) xi = true); [|unfold cutoff_col in *; congruence].
    apply existsb_exists. exists xj; auto.
Qed.

(** one-dimensional designs: the coefficient is 1/2 *)
Lemma coef_dim1 glog : exp glog = sqrt PI / 2 -> unit_ball_coef glog 1 = 1 / 2.
Proof.
  intros H. unfold unit_ball_coef. simpl INR. replace (glog / 1) with glog by field. rewrite H.
  assert (0 < sqrt PI) by (apply sqrt_lt_R0, PI_RGT_0). field. lra.
Qed.
Lemma gap_value l g : 0 < g -> (exists x y, In x l /\ In y l /\ y - x = g) ->
  (forall x y, In x l -> In y l -> x <> y -> g <= Rabs (y - x)) -> minimum_nonzero_gap l = Fin g.
Proof.
  intros Hg (x & y & Hx & Hy & E) Hm.
  destruct (gap_spec l) as [(_ & A)|(g' & -> & Hg' & (x' & y' & Hx' & Hy' & E') & Hm')].
  - specialize (A x y Hx Hy). lra.
  - f_equal. apply Rle_antisym.
    + specialize (Hm' x y Hx Hy). rewrite Rabs_right in Hm' by lra.
      assert (x <> y) by lra. specialize (Hm' H). lra.
    + specialize (Hm x' y' Hx' Hy'). rewrite Rabs_right in Hm by lra.
      assert (x' <> y') by lra. specialize (Hm H). lra.
Qed.
Lemma range_value l r : l <> [] -> (exists x y, In x l /\ In y l /\ y - x = r) ->
  (forall x y, In x l -> In y l -> y - x <= r) -> col_range l = r.
Proof.
  intros Hl (x & y & Hx & Hy & E) Hm.
  destruct (range_spec l Hl) as ((x' & y' & Hx' & Hy' & E') & Hm').
  apply Rle_antisym.
  - rewrite E'. apply Hm; auto.
  - rewrite <- E. apply Hm'; auto.
Qed.
(** a column taking exactly two values *)
Lemma two_level l a b : a < b -> In a l -> In b l -> (forall x, In x l -> x = a \/ x = b) ->
  minimum_nonzero_gap l = Fin (b - a) /\ col_range l = b - a.
Proof.
  intros H Ha Hb Hall. split.
  - apply gap_value; [lra|eauto 6|].
    intros x y Hx Hy Hn. destruct (Hall x Hx), (Hall y Hy); subst; try congruence.
    + rewrite Rabs_right; lra.
    + rewrite Rabs_left; lra.
  - apply range_value; [intros ->; destruct Ha|eauto 6|].
    intros x y Hx Hy. destruct (Hall x Hx), (Hall y Hy); subst; lra.
Qed.
Lemma three_points l a h : 0 < h -> (forall x, In x l <-> x = a \/ x = a + h \/ x = a + 2 * h) ->
  minimum_nonzero_gap l = Fin h /\ col_range l = 2 * h.
Proof.
  intros H Hall. split.
  - apply gap_value; auto.
    + exists a, (a + h). rewrite !Hall. repeat split; auto; lra.
    + intros x y Hx Hy Hn. apply Hall in Hx, Hy.
      destruct Hx as [-> | [-> | ->]], Hy as [-> | [-> | ->]]; try lra;
      try (rewrite Rabs_right by lra; lra); rewrite Rabs_left by lra; lra.
  - apply range_value.
    + intros ->. apply (proj2 (Hall a)); auto.
    + exists a, (a + 2 * h). rewrite !Hall. repeat split; auto; lra.
    + intros x y Hx Hy. apply Hall in Hx, Hy. destruct Hx as [-> | [-> | ->]], Hy as [-> | [-> | ->]]; lra.
Qed.
(** a constant coordinate with a user-supplied finite reference: the penalty is NaN everywhere *)
Lemma nlf_nan a r r0 : 0 < a -> nlf_component (Fin a) (Fin r) NInf (Fin r0) = NaN.
Proof.
  intros Ha. unfold nlf_component, fl_sub. simpl.
  replace (rltb 0 a) with true by (symmetry; apply rltb_t; auto). reflexivity.
Qed.
Lemma fold_nan l : fold_left fl_add l NaN = NaN.
Proof. induction l; simpl; auto. Qed.
Lemma sum_nan l a : In NaN l -> fold_left fl_add l a = NaN.
Proof.
  revert a; induction l as [|v l IH]; intros a; [intros []|]. intros [->|H]; simpl.
  - replace (fl_add a NaN) with NaN by (destruct a; reflexivity). apply fold_nan.
  - apply IH; auto.
Qed.
Lemma constant_coordinate_nan alpha factor xi r0 loginvrho xj k :
  0 < alpha -> 0 < factor -> length r0 = length xi -> length loginvrho = length xi ->
  nth_error xi k = Some xj -> all_equal xj ->
  (forall i x r, nth_error xi i = Some x -> nth_error r0 i = Some r -> fl_lt (cutoff_col factor x) (Fin r) = true) ->
  exists rm, compute_logrho_min xi factor = Some rm /\
    log_prior_logrho_barrier_linear (Fin alpha) (fins loginvrho) rm (fins r0) = Some NaN.
Proof.
  intros Ha Hf L1 L2 Hk Hall Hok. rewrite compute_logrho_min_spec.
  replace (rleb factor 0) with false by (symmetry; apply rleb_f; auto).
  eexists; split; [reflexivity|].
  unfold log_prior_logrho_barrier_linear, neglog_f_logrho.
  replace (fl_le (Fin alpha) (Fin 0)) with false
    by (symmetry; apply not_true_iff_false; rewrite fl_le_fin; lra).
  assert (E : existsb (fun '(r1, rm) => fl_le r1 rm) (combine (fins r0) (map (cutoff_col factor) xi)) = false).
  { clear - Hok. revert xi Hok. induction r0 as [|r r0 IH]; intros [|x xi] Hok; auto.
    cbn [fins map combine existsb]. apply orb_false_iff. split.
    - specialize (Hok 0%nat x r eq_refl eq_refl).
      destruct (cutoff_col factor x) as [c| | |]; simpl in *; try discriminate; auto.
      destruct (Rlt_dec c r); [|discriminate]. destruct (Rle_dec r c); auto; lra.
    - apply IH. intros i y s A B. apply (Hok (S i) y s); auto. }
  change (map Fin r0) with (fins r0). rewrite E.
  assert (I : In NaN (zip_with3 (nlf_component (Fin alpha)) (map fl_opp (fins loginvrho)) (map (cutoff_col factor) xi) (fins r0))).
  { clear - Hk Hall Ha Hf L1 L2. revert xi r0 loginvrho L1 L2 Hk.
    induction k as [|k IH]; intros [|x xi] [|r r0] [|li loginvrho] L1 L2 Hk; try discriminate.
    - injection Hk as ->. left. destruct (cutoff_spec factor xj Hf) as [(_ & ->)|(g & G & Hg & HR & _)].
      + apply nlf_nan; auto.
      + rewrite (range_zero _ Hall) in HR. lra.
    - right. apply IH; auto. }
  unfold fl_sum. rewrite (sum_nan _ _ I). reflexivity.
Qed.

(** ** C75: coverage of the Gaussian prior *)
Definition std_normal_density (t : R) : R := exp (- (t * t) / 2) / sqrt (2 * PI).
(** the contract of statistics.NormalDist().inv_cdf for levels above one half: the mass of
    (0, inv_cdf q) is q - 1/2 *)
Definition inv_cdf_contract (inv_cdf : R -> R) : Prop :=
  forall q, 1 / 2 < q < 1 -> 0 < inv_cdf q /\ is_RInt std_normal_density 0 (inv_cdf q) (q - 1 / 2).
Lemma density_cont t : continuous std_normal_density t.
Proof.
  apply (ex_derive_continuous std_normal_density). unfold std_normal_density. auto_derive. auto.
Qed.
Lemma density_even t : std_normal_density (- t) = std_normal_density t.
Proof. unfold std_normal_density. do 3 f_equal. field. Qed.
Lemma coverage_holds inv_cdf gamma coverage s0 : inv_cdf_contract inv_cdf -> 1 < gamma -> 0 < coverage < 1 ->
  exists std, logsigma2_prior_std inv_cdf gamma coverage = Some std /\ 0 < std /\
   is_RInt (fun t => std_normal_density ((t - s0) / std) / std) (s0 - ln gamma) (s0 + ln gamma) coverage.
Proof.
  intros Hc Hg Hcov. unfold logsigma2_prior_std.
  replace (rleb gamma 1) with false by (symmetry; apply rleb_f; auto).
  replace (rltb 0 coverage) with true by (symmetry; apply rltb_t; lra).
  replace (rltb coverage 1) with true by (symmetry; apply rltb_t; lra). simpl negb. cbv iota.
  set (q := 1 / 2 * (1 + coverage)).
  destruct (Hc q ltac:(unfold q; lra)) as [Hz HI]. set (z := inv_cdf q) in *.
  replace (rleb z 0) with false by (symmetry; apply rleb_f; auto).
  assert (Hl : 0 < ln gamma) by (rewrite <- ln_1; apply ln_increasing; lra).
  set (std := ln gamma / z). assert (Hs : 0 < std) by (apply Rdiv_lt_0_compat; auto).
  exists std. repeat split; auto.
  assert (HN : is_RInt std_normal_density (- z) 0 (q - 1 / 2)).
  { apply (is_RInt_ext (fun t => opp (opp (std_normal_density (- t))))).
    { intros t _. rewrite opp_opp. apply density_even. }
    assert (G := is_RInt_comp_opp std_normal_density 0 (- z) (q - 1 / 2)).
    rewrite Ropp_0, Ropp_involutive in G. specialize (G HI).
    apply is_RInt_swap in G. apply is_RInt_opp in G.
    replace (q - 1 / 2) with (- - (q - 1 / 2)) by ring. exact G. }
  assert (H2 : is_RInt std_normal_density (- z) z coverage).
  { replace coverage with (plus (q - 1 / 2) (q - 1 / 2)) by (unfold q, plus; simpl; field).
    exact (is_RInt_Chasles _ _ _ _ _ _ HN HI). }
  apply (is_RInt_ext (fun t => scal (/ std) (std_normal_density (/ std * t + - (s0 / std))))).
  { intros t _. unfold scal; simpl; unfold mult; simpl. unfold Rdiv at 2 3. rewrite Rmult_comm. f_equal. f_equal.
    field. lra. }
  assert (G := is_RInt_comp_lin std_normal_density (/ std) (- (s0 / std)) (s0 - ln gamma) (s0 + ln gamma) coverage).
  replace (/ std * (s0 - ln gamma) + - (s0 / std)) with (- z) in G by (unfold std; field; split; lra).
  replace (/ std * (s0 + ln gamma) + - (s0 / std)) with z in G by (unfold std; field; split; lra).
  exact (G H2).
Qed.
Lemma std_raises inv_cdf gamma coverage : inv_cdf_contract inv_cdf ->
  logsigma2_prior_std inv_cdf gamma coverage = None <-> ~ (1 < gamma /\ 0 < coverage < 1).
Proof.
  intros Hc. unfold logsigma2_prior_std.
  destruct (rleb gamma 1) eqn:E1; [apply rleb_t in E1; split; [intros; lra|auto]|]. apply rleb_f in E1.
  destruct (rltb 0 coverage) eqn:E2; [|apply rltb_f in E2; split; [intros; lra|auto]]. apply rltb_t in E2.
  destruct (rltb coverage 1) eqn:E3; [|apply rltb_f in E3; split; [intros; lra|auto]]. apply rltb_t in E3.
  simpl negb. cbv iota.
  destruct (Hc (1 / 2 * (1 + coverage)) ltac:(lra)) as [Hz _].
  replace (rleb (inv_cdf (1 / 2 * (1 + coverage))) 0) with false by (symmetry; apply rleb_f; auto).
  split; [discriminate|]. intros H; exfalso; apply H; auto.
Qed.

(** ** C44 *)
(** first available value *)
Definition first_of {V} (l : list (option V)) (dflt : V) : V :=
  match find (fun o => match o with Some _ => true | None => false end) l with
  | Some (Some v) => v
  | _ => dflt
  end.
Lemma resolve_select {V} (guess : V) c0 cp ci : exists n,
  resolve_prior_and_init guess c0 cp ci = (first_of [cp; c0] guess, first_of [ci; c0] guess, n) /\
  n = match c0, cp, ci with None, Some _, Some _ => 0%nat | None, _, _ => 1%nat | _, _, _ => 0%nat end.
Proof. destruct c0, cp, ci; eexists; split; reflexivity. Qed.
Lemma resolve_update {V} (guess : V) mc c0 cp ci w : exists n,
  resolve_roles_for_update guess mc c0 cp ci w =
    (first_of [cp; c0; mc] guess, first_of [ci; c0; mc] guess, n,
     match cp, c0, mc, w with
     | None, Some _, _, true => [Covparam0AsPrior]
     | None, None, Some _, true => [ModelCovparamAsPrior]
     | _, _, _, _ => [] end) /\
  n = match c0, mc, cp, ci with
      | None, None, Some _, Some _ => 0%nat | None, None, _, _ => 1%nat | _, _, _, _ => 0%nat end.
Proof. destruct c0, mc, cp, ci, w; eexists; split; reflexivity. Qed.
Lemma resolve_pipeline {V} (guess : V) mc c0 cp ci w : exists n ws,
  update_remap_roles guess mc c0 cp ci w =
    (first_of [cp; c0; mc] guess, first_of [ci; c0; mc] guess, n, ws) /\ (n <= 1)%nat.
Proof. destruct c0, mc, cp, ci, w; do 2 eexists; split; try reflexivity; simpl; lia. Qed.
