(** C114: gradients by finite differences on the NumPy backend. *)
From Coq Require Import List Arith Lia ZArith Reals Lra Bool.
From Coquelicot Require Import Coquelicot.
From Verif Require Import DataModel ParamModel ParamMemModel GradModel GradProofs.
Import ListNotations.
Local Open Scope R_scope.

(** the five-point difference quotient of a function of one variable *)
Definition quotient5 (p : R -> R) (v h : R) : R := (- p (v + 2 * h) + 8 * p (v + h) - 8 * p (v - h) + p (v - 2 * h)) / (12 * h).
(** the function of the i-th variable when the others keep the values in x *)
Definition slice (g : list R -> R) (x : list R) (i : nat) (v : R) : R := g (firstn i x ++ v :: skipn (S i) x).

Lemma upd_split (A : Type) (x : list A) i v : (i < length x)%nat -> upd x i v = firstn i x ++ v :: skipn (S i) x.
Proof.
  revert i. induction x as [|a x IH]; intros [|i] h; cbn in *; try lia; [reflexivity|].
  rewrite IH by lia. destruct x; cbn in *; [lia|reflexivity].
Qed.
Lemma upd_upd (A : Type) (x : list A) i v w : upd (upd x i v) i w = upd x i w.
Proof. revert i. induction x as [|a x IH]; intros [|i]; cbn; auto. now rewrite IH. Qed.
Lemma upd_id (x : list R) i : upd x i (nth i x 0) = x.
Proof. revert i. induction x as [|a x IH]; intros [|i]; cbn; auto. now rewrite IH. Qed.
Lemma nth_error_upd (A : Type) (x : list A) i v k : (i < length x)%nat ->
  nth_error (upd x i v) k = if Nat.eqb k i then Some v else nth_error x k.
Proof.
  revert i k. induction x as [|a x IH]; intros [|i] [|k] h; cbn in *; try lia; auto. apply IH. lia.
Qed.

Lemma vg_loop_eq t f h x l (d : nat -> R) :
  (forall i, In i l -> fst (vg_step t f h x x i) = Some (d i)) -> vg_loop t f h x x l = Some (map d l).
Proof.
  intros H. induction l as [|i l IH]; cbn [vg_loop map]; [reflexivity|].
  assert (E := H i (or_introl eq_refl)). unfold vg_step in *. cbn [fst] in E. rewrite E.
  rewrite !upd_upd, upd_id. rewrite IH; [reflexivity|]. intros j hj. apply (H j). now right.
Qed.
Lemma g_loop_eq t f h x l (d : nat -> R) :
  (forall i, In i l -> g_entry t f h x i = Some (d i)) -> g_loop t f h x l = Some (map d l).
Proof.
  intros H. induction l as [|i l IH]; cbn [g_loop map]; [reflexivity|].
  rewrite (H i (or_introl eq_refl)), IH; [reflexivity|]. intros j hj. apply H. now right.
Qed.

(** On floats, for every function that returns a number, both functions return in every entry the difference quotient in that
    variable alone, whatever the order of the entries. *)
Theorem C114_floats : forall (g : list R -> R) (h : R) (x : list R),
  let d := map (fun i => quotient5 (slice g x i) (nth i x 0) h) (seq 0 (length x)) in
  np_value_and_grad TFloat (fun y => Fresh (g y)) h x = Some (g x, d) /\ np_grad TFloat (fun y => Fresh (g y)) h x = Some d.
Proof.
  intros g h x d. split.
  - unfold np_value_and_grad. cbn [deref].
    rewrite (vg_loop_eq _ _ _ _ _ (fun i => quotient5 (slice g x i) (nth i x 0) h)); [reflexivity|].
    intros i hi. apply in_seq in hi. unfold vg_step. cbn [fst deref stencil cast].
    rewrite !upd_upd, !upd_split by lia. reflexivity.
  - apply g_loop_eq. intros i hi. apply in_seq in hi. unfold g_entry. cbn [deref stencil cast].
    rewrite !upd_split by lia. reflexivity.
Qed.
Print Assumptions C114_floats.

(** The error: if, around x, the function has five derivatives in the i-th variable and the fifth is at most M in absolute
    value, entry i of the gradient is within M h^4 / 30 of the partial derivative. *)
Theorem C114_error : forall (g : list R -> R) (h : R) (x : list R) (i : nat) (F : nat -> R -> R) (M : R),
  0 < h -> (i < length x)%nat -> (forall v, F 0%nat v = slice g x i v) ->
  (forall k v, (k < 5)%nat -> Rabs (v - nth i x 0) <= 2 * h -> is_derive (F k) v (F (S k) v)) ->
  (forall v, Rabs (v - nth i x 0) <= 2 * h -> Rabs (F 5%nat v) <= M) ->
  exists y d, np_value_and_grad TFloat (fun y => Fresh (g y)) h x = Some (y, d) /\
    np_grad TFloat (fun y => Fresh (g y)) h x = Some d /\
    y = g x /\ length d = length x /\ Rabs (nth i d 0 - F 1%nat (nth i x 0)) <= M * h ^ 4 / 30.
Proof.
  intros g h x i F M hh hi F0 dF bF. destruct (C114_floats g h x) as [E1 E2].
  eexists _, _. split; [exact E1|]. split; [exact E2|]. split; [reflexivity|]. split; [now rewrite map_length, seq_length|].
  rewrite (nth_indep _ 0 (quotient5 (slice g x 0) (nth 0 x 0) h)) by (rewrite map_length, seq_length; lia).
  rewrite (map_nth (fun j => quotient5 (slice g x j) (nth j x 0) h) (seq 0 (length x)) 0%nat i).
  rewrite seq_nth by lia. cbn [plus]. unfold quotient5. rewrite <- !F0.
  exact (five_point_error F (nth i x 0) h M hh dF bF).
Qed.
Print Assumptions C114_error.

(** The bound cannot be improved: it is reached for the fifth power of a variable, at every point. *)
Theorem C114_error_reached : forall (h v : R), 0 < h ->
  exists d, np_grad TFloat (fun y => Fresh (hd 0 y ^ 5)) h [v] = Some [d] /\
    Rabs (d - 5 * v ^ 4) = 120 * h ^ 4 / 30.
Proof.
  intros h v hh. destruct (C114_floats (fun y => hd 0 y ^ 5) h [v]) as [_ E]. cbn [length seq map] in E. eexists. split; [exact E|].
  unfold quotient5, slice. cbn [nth firstn app hd].
  match goal with |- Rabs ?e = _ => replace e with (- (4 * h ^ 4)) by (field; lra) end.
  rewrite Rabs_Ropp, Rabs_pos_eq; [field | assert (0 < h ^ 4) by (apply pow_lt; exact hh); lra].
Qed.
Print Assumptions C114_error_reached.

(** A function that returns a view of its argument, here entry k: [value_and_grad] returns the value and a gradient of zeros,
    because its four results are the same memory; [grad] returns the k-th unit vector. *)
Theorem C114_views : forall (k : nat) (h : R) (x : list R), h <> 0 -> (k < length x)%nat ->
  np_value_and_grad TFloat (fun _ => View k) h x = Some (nth k x 0, map (fun _ => 0) x) /\
  np_grad TFloat (fun _ => View k) h x = Some (map (fun i => if Nat.eqb i k then 1 else 0) (seq 0 (length x))).
Proof.
  intros k h x hh hk. split.
  - unfold np_value_and_grad. cbn [deref]. rewrite (nth_error_nth' x 0 hk).
    rewrite (vg_loop_eq _ _ _ _ _ (fun _ => 0)).
    + f_equal. f_equal. clear. generalize 0%nat. induction x; intros n; cbn; auto. now rewrite IHx.
    + intros i hi. apply in_seq in hi. unfold vg_step. cbn [fst deref cast]. rewrite !upd_upd.
      rewrite nth_error_upd by lia. destruct (Nat.eqb k i).
      * cbn [stencil]. f_equal. field. exact hh.
      * rewrite (nth_error_nth' x 0 hk). cbn [stencil]. f_equal. field. exact hh.
  - apply g_loop_eq. intros i hi. apply in_seq in hi. unfold g_entry. cbn [deref cast].
    rewrite !nth_error_upd by lia. rewrite (Nat.eqb_sym i k). destruct (Nat.eqb k i) eqn:e.
    + apply Nat.eqb_eq in e. cbn [stencil]. f_equal. field. exact hh.
    + rewrite (nth_error_nth' x 0 hk). cbn [stencil]. f_equal. field. exact hh.
Qed.
Print Assumptions C114_views.

(** truncation of a number just beside an integer *)
Lemma Int_part_unique r z : IZR z <= r < IZR z + 1 -> Int_part r = z.
Proof.
  intros h. destruct (base_Int_part r) as [a b]. apply Z.le_antisymm.
  - apply Z.lt_succ_r. apply lt_IZR. rewrite succ_IZR. lra.
  - apply Z.lt_succ_r. apply lt_IZR. rewrite succ_IZR. lra.
Qed.
Lemma trunc_near z e : 0 < e < 1 ->
  trunc (IZR z + e) = (if (0 <=? z)%Z then IZR z else IZR (z + 1)) /\
  trunc (IZR z - e) = (if (0 <? z)%Z then IZR (z - 1) else IZR z).
Proof.
  intros he. unfold trunc. split.
  - destruct (Z.leb_spec 0 z) as [hz|hz].
    + assert (0 <= IZR z) by (apply IZR_le; lia). destruct (Rle_dec 0 (IZR z + e)); [|lra]. f_equal. apply Int_part_unique. lra.
    + assert (IZR z <= -1) by (apply IZR_le; lia). destruct (Rle_dec 0 (IZR z + e)); [lra|].
      rewrite (Int_part_unique _ (- z - 1)); [rewrite <- opp_IZR; f_equal; lia | rewrite minus_IZR, opp_IZR; lra].
  - destruct (Z.ltb_spec 0 z) as [hz|hz].
    + assert (1 <= IZR z) by (apply IZR_le; lia). destruct (Rle_dec 0 (IZR z - e)); [|lra].
      f_equal. apply Int_part_unique. rewrite minus_IZR. lra.
    + assert (IZR z <= 0) by (apply IZR_le; lia). destruct (Rle_dec 0 (IZR z - e)); [lra|].
      rewrite (Int_part_unique _ (- z)); [rewrite <- opp_IZR; f_equal; lia | rewrite opp_IZR; lra].
Qed.

(** Integer arrays (or, for [grad], lists of integers) with any step below 1/2, the library's 1e-5 among them: the points of the
    difference are rounded to integers, and the entries are 7 / (12 h) times a unit difference towards zero, zero at zero;
    [grad] moreover rounds the entries to integers. *)
Theorem C114_integers : forall (g : list R -> R) (h : R) (z : list Z), 0 < h < 1 / 2 ->
  let x := map IZR z in
  let e i := let zi := nth i z 0%Z in
    if (0 <? zi)%Z then 7 / (12 * h) * (g x - slice g x i (IZR (zi - 1)))
    else if (zi =? 0)%Z then 0
    else 7 / (12 * h) * (slice g x i (IZR (zi + 1)) - g x) in
  np_value_and_grad TInt (fun y => Fresh (g y)) h x = Some (g x, map e (seq 0 (length z))) /\
  np_grad TInt (fun y => Fresh (g y)) h x = Some (map (fun i => trunc (e i)) (seq 0 (length z))).
Proof.
  intros g h z hh x e.
  assert (K : forall i, (i < length z)%nat ->
    quotient5 (fun v => g (upd x i (trunc v))) (nth i x 0) h = e i).
  { intros i hi. unfold quotient5, e. subst x.
    assert (En : nth i (map IZR z) 0 = IZR (nth i z 0%Z)) by (change 0 with (IZR 0); apply map_nth).
    rewrite En. assert (I := upd_id (map IZR z) i). rewrite En in I.
    destruct (trunc_near (nth i z 0%Z) (2 * h) ltac:(lra)) as [-> ->].
    destruct (trunc_near (nth i z 0%Z) h ltac:(lra)) as [-> ->].
    unfold slice. rewrite <- !upd_split by (rewrite map_length; exact hi).
    destruct (Z.leb_spec 0 (nth i z 0%Z)), (Z.ltb_spec 0 (nth i z 0%Z)); try lia.
    - rewrite I. field. lra.
    - rewrite (proj2 (Z.eqb_eq _ _)) by lia. rewrite I. field. lra.
    - rewrite (proj2 (Z.eqb_neq _ _)) by lia. rewrite I. field. lra. }
  assert (L : length x = length z) by (unfold x; apply map_length).
  split.
  - unfold np_value_and_grad. cbn [deref]. rewrite L, (vg_loop_eq _ _ _ _ _ e); [reflexivity|].
    intros i hi. apply in_seq in hi. rewrite <- (K i) by lia. unfold vg_step. cbn [fst deref stencil cast].
    rewrite !upd_upd. reflexivity.
  - unfold np_grad. rewrite L. apply (g_loop_eq _ _ _ _ _ (fun i => trunc (e i))). intros i hi. apply in_seq in hi.
    rewrite <- (K i) by lia. reflexivity.
Qed.
Print Assumptions C114_integers.

(** f(x) = 2 x0 + x1^2 at (3, 1), step 1/100000: (2, 2) on floats and (116666.67, 58333.33) on integers; the hypotheses of
    [C114_error] hold for it with fifth derivative 0. *)
Example C114_case :
  let g := fun x : list R => 2 * nth 0 x 0 + (nth 1 x 0) ^ 2 in
  let h := 1 / 100000 in
  np_value_and_grad TFloat (fun y => Fresh (g y)) h [3; 1] = Some (7, [2; 2]) /\
  np_value_and_grad TInt (fun y => Fresh (g y)) h [3; 1] = Some (7, [350000 / 3; 175000 / 3]) /\
  (exists F : nat -> R -> R, (forall v, F 0%nat v = slice g [3; 1] 1 v) /\
     (forall k v, (k < 5)%nat -> Rabs (v - 1) <= 2 * h -> is_derive (F k) v (F (S k) v)) /\
     (forall v, Rabs (v - 1) <= 2 * h -> Rabs (F 5%nat v) <= 0) /\ F 1%nat 1 = 2).
Proof.
  intros g h. split; [|split].
  - destruct (C114_floats g h [3; 1]) as [E _]. rewrite E. cbn [length seq map]. unfold quotient5, slice, g, h. cbn [nth firstn skipn app].
    f_equal. f_equal; [ring|]. f_equal; [|f_equal]; field.
  - destruct (C114_integers g h [3%Z; 1%Z] ltac:(unfold h; lra)) as [E _]. cbn [map length seq] in E. rewrite E.
    unfold slice, g, h. cbn [nth firstn skipn app map Z.ltb Z.compare Z.sub Z.add Z.opp Z.pos_sub Pos.compare Pos.compare_cont Pos.pred_double].
    f_equal. f_equal; [ring|]. f_equal; [|f_equal]; field.
  - exists (fun k v => match k with O => 6 + v ^ 2 | 1%nat => 2 * v | 2%nat => 2 | _ => 0 end). split; [|split; [|split]].
    + intros v. unfold slice, g. cbn. ring.
    + intros k v hk _. destruct k as [|[|[|[|[|k]]]]]; try lia; auto_derive; auto; ring.
    + intros v _. rewrite Rabs_R0. lra.
    + ring.
Qed.
