(* UnitsPrior.v: the log-range prior under a change of units of the inputs (property C116). *)
From Coq Require Import List Arith Reals Bool Lra Lia.
From Verif Require Import ConfigModel FlModel PriorModel PriorProofs.
Import ListNotations.
Local Open Scope R_scope.

Lemma all_equal_affine w t l : w <> 0 -> (all_equal (map (fun v => w * v + t) l) <-> all_equal l).
Proof.
  intros Hw. unfold all_equal. split; intros H x y Hx Hy.
  - assert (E := H (w * x + t) (w * y + t) (in_map (fun v => w * v + t) _ _ Hx) (in_map (fun v => w * v + t) _ _ Hy)).
    apply (Rmult_eq_reg_l w); [lra|auto].
  - apply in_map_iff in Hx as (x0 & <- & Hx). apply in_map_iff in Hy as (y0 & <- & Hy).
    rewrite (H x0 y0 Hx Hy). reflexivity.
Qed.
Lemma gap_affine w t l g : w <> 0 -> minimum_nonzero_gap l = Fin g ->
  minimum_nonzero_gap (map (fun v => w * v + t) l) = Fin (Rabs w * g).
Proof.
  intros Hw E. destruct (gap_spec l) as [(N & _)|(g' & E' & Hg & (x & y & Hx & Hy & D) & M)]; [congruence|].
  rewrite E in E'. injection E' as <-.
  assert (Aw := Rabs_pos_lt w Hw).
  apply gap_value.
  - apply Rmult_lt_0_compat; auto.
  - destruct (Rlt_dec 0 w) as [P|P].
    + exists (w * x + t), (w * y + t). repeat split; [apply (in_map (fun v => w * v + t)); auto..|].
      rewrite Rabs_right by lra. rewrite <- D. ring.
    + exists (w * y + t), (w * x + t). repeat split; [apply (in_map (fun v => w * v + t)); auto..|].
      rewrite Rabs_left by lra. rewrite <- D. ring.
  - intros x' y' Hx' Hy' N. apply in_map_iff in Hx' as (x0 & <- & Hx0). apply in_map_iff in Hy' as (y0 & <- & Hy0).
    replace (w * y0 + t - (w * x0 + t)) with (w * (y0 - x0)) by ring. rewrite Rabs_mult.
    apply Rmult_le_compat_l; [lra|]. apply M; auto. intros ->. apply N. reflexivity.
Qed.
Lemma range_affine w t l : w <> 0 -> col_range (map (fun v => w * v + t) l) = Rabs w * col_range l.
Proof.
  intros Hw. destruct l as [|a l]; [simpl; ring|]. set (L := a :: l).
  assert (N : L <> []) by (unfold L; congruence).
  assert (N' : map (fun v => w * v + t) L <> []) by (unfold L; simpl; congruence).
  destruct (range_spec L N) as ((x & y & Hx & Hy & E) & M).
  destruct (range_spec _ N') as ((x' & y' & Hx' & Hy' & E') & M').
  apply in_map_iff in Hx' as (x0 & <- & Hx0). apply in_map_iff in Hy' as (y0 & <- & Hy0).
  apply Rle_antisym.
  - rewrite E'. replace (w * y0 + t - (w * x0 + t)) with (w * (y0 - x0)) by ring.
    assert (A := M x0 y0 Hx0 Hy0). assert (B := M y0 x0 Hy0 Hx0).
    unfold Rabs. destruct (Rcase_abs w); nra.
  - rewrite E.
    assert (A := M' (w * x + t) (w * y + t) (in_map (fun v => w * v + t) _ _ Hx) (in_map (fun v => w * v + t) _ _ Hy)).
    assert (B := M' (w * y + t) (w * x + t) (in_map (fun v => w * v + t) _ _ Hy) (in_map (fun v => w * v + t) _ _ Hx)).
    unfold Rabs. destruct (Rcase_abs w); nra.
Qed.
Lemma cutoff_affine factor w t l : 0 < factor -> w <> 0 ->
  cutoff_col factor (map (fun v => w * v + t) l) = fl_add (cutoff_col factor l) (Fin (ln (Rabs w))).
Proof.
  intros Hf Hw. assert (Aw := Rabs_pos_lt w Hw).
  destruct (cutoff_spec factor l Hf) as [(A & ->)|(g & G & Hg & HR & ->)].
  - destruct (cutoff_spec factor (map (fun v => w * v + t) l) Hf) as [(_ & ->)|(g & _ & _ & HR & _)]; [reflexivity|].
    rewrite (range_zero _ (proj2 (all_equal_affine w t l Hw) A)) in HR. lra.
  - destruct (cutoff_spec factor (map (fun v => w * v + t) l) Hf) as [(A & _)|(g' & G' & _ & _ & ->)].
    + apply all_equal_affine in A; auto. rewrite (range_zero _ A) in HR. lra.
    + rewrite (gap_affine w t l g Hw G) in G'. injection G' as <-. rewrite range_affine by auto. simpl. f_equal.
      rewrite Rmult_assoc, RmaxRmult by lra.
      assert (0 < Rmax g (col_range l * factor)) by (assert (Q := Rmax_l g (col_range l * factor)); lra).
      rewrite ln_mult by auto. ring.
Qed.

(** the prior only sees differences of log-ranges *)
Lemma sub_shift x y e : fl_sub (fl_add x (Fin e)) (fl_add y (Fin e)) = fl_sub x y.
Proof. destruct x, y; simpl; auto. f_equal. ring. Qed.
Lemma le_shift x y e : fl_le (fl_add x (Fin e)) (fl_add y (Fin e)) = fl_le x y.
Proof.
  destruct x, y; simpl; auto.
  destruct (Rle_dec (x + e) (x0 + e)), (Rle_dec x x0); auto; exfalso; lra.
Qed.
Lemma nlf_shift alpha lr rm r0 e :
  nlf_component alpha (fl_add lr (Fin e)) (fl_add rm (Fin e)) (fl_add r0 (Fin e)) = nlf_component alpha lr rm r0.
Proof. unfold nlf_component. rewrite !sub_shift. reflexivity. Qed.

Fixpoint add_each (l : list fl) (es : list R) : list fl :=
  match l, es with a :: l', e :: es' => fl_add a (Fin e) :: add_each l' es' | _, _ => [] end.
Lemma nlf_shift_list alpha es : forall lr rm r0, length lr = length es -> length rm = length es -> length r0 = length es ->
  neglog_f_logrho alpha (add_each lr es) (add_each rm es) (add_each r0 es) = neglog_f_logrho alpha lr rm r0.
Proof.
  intros lr rm r0 H1 H2 H3. unfold neglog_f_logrho.
  replace (existsb (fun '(r, m) => fl_le r m) (combine (add_each r0 es) (add_each rm es)))
    with (existsb (fun '(r, m) => fl_le r m) (combine r0 rm)).
  - destruct (fl_le alpha (Fin 0)); auto. destruct (existsb _ _); auto. f_equal. revert lr rm r0 H1 H2 H3.
    induction es as [|e es IH]; intros [|a lr] [|b rm] [|c r0]; simpl; try discriminate; auto.
    intros H1 H2 H3. rewrite nlf_shift. f_equal. apply IH; congruence.
  - revert rm r0 H2 H3. clear H1 lr. induction es as [|e es IH]; intros [|b rm] [|c r0]; simpl; try discriminate; auto.
    intros H2 H3. rewrite le_shift. f_equal. apply IH; congruence.
Qed.
Lemma barrier_shift alpha li rm r0 es : length li = length es -> length rm = length es -> length r0 = length es ->
  log_prior_logrho_barrier_linear alpha (add_each li (map Ropp es)) (add_each rm es) (add_each r0 es) =
  log_prior_logrho_barrier_linear alpha li rm r0.
Proof.
  intros H1 H2 H3. unfold log_prior_logrho_barrier_linear.
  replace (map fl_opp (add_each li (map Ropp es))) with (add_each (map fl_opp li) es).
  - rewrite nlf_shift_list; rewrite ?map_length; auto.
  - clear. revert li. induction es as [|e es IH]; intros [|a li]; simpl; auto. rewrite IH. f_equal.
    destruct a; simpl; auto. f_equal. ring.
Qed.
Lemma gauss_shift inv_cdf s s0 gamma coverage e :
  log_prior_gaussian_logsigma2 inv_cdf (s + e) (s0 + e) gamma coverage = log_prior_gaussian_logsigma2 inv_cdf s s0 gamma coverage.
Proof.
  unfold log_prior_gaussian_logsigma2. destruct (logsigma2_prior_std _ _ _); auto.
  replace (s + e - (s0 + e)) with (s - s0) by ring. reflexivity.
Qed.
Lemma posterior_shift inv_cdf L N s li s0 gamma coverage rm r0 alpha e es :
  length li = length es -> length rm = length es -> length r0 = length es ->
  neg_log_restricted_posterior inv_cdf (fl_add L (Fin N)) (s + e) (add_each li (map Ropp es)) (s0 + e) gamma coverage
    (add_each rm es) (add_each r0 es) alpha =
  option_map (fun v => fl_add v (Fin N)) (neg_log_restricted_posterior inv_cdf L s li s0 gamma coverage rm r0 alpha).
Proof.
  intros H1 H2 H3. unfold neg_log_restricted_posterior. rewrite gauss_shift, barrier_shift; auto.
  destruct (log_prior_gaussian_logsigma2 inv_cdf s s0 gamma coverage), (log_prior_logrho_barrier_linear alpha li rm r0); simpl; auto.
  f_equal. destruct L, f; simpl; auto. f_equal. ring.
Qed.
