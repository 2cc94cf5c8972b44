(** Properties C61 and C62, continued: the drift of the leapfrog step follows the kinetic energy; the meaning of the U-turn test. *)
From Coq Require Import List Arith ZArith Reals Bool Lra Lia.
From Coquelicot Require Import Coquelicot.
From Verif Require Import ConfigModel FlModel PriorModel PriorProofs SmcModel NutsModel.
Import ListNotations.
Local Open Scope R_scope.

(** sum over the first d coordinates; squared distance *)
Definition total (d : nat) (f : nat -> R) : R := fold_right Rplus 0 (map f (seq 0 d)).
Definition dist2 (d : nat) (u v : vec) : R := total d (fun i => (u i - v i) ^ 2).

Lemma vsum_total d f : vsum d f = total d f.
Proof. unfold vsum, total. induction (map f (seq 0 d)) as [| a l ih]; [reflexivity |]. rewrite sum_list_cons. simpl. now rewrite ih. Qed.
Lemma total_derive d (f : nat -> R -> R) f' x : (forall i, is_derive (f i) x (f' i)) -> is_derive (fun t => total d (fun i => f i t)) x (total d f').
Proof.
  intro h. unfold total. induction (seq 0 d) as [| a l ih]; simpl; [apply (is_derive_const (V := R_NormedModule)) |].
  apply (is_derive_plus (V := R_NormedModule)); [apply h | exact ih].
Qed.
Lemma total_scale d c f : total d (fun i => c * f i) = c * total d f.
Proof. unfold total. induction (seq 0 d) as [| a l ih]; simpl; [lra |]. rewrite ih. lra. Qed.
Lemma total_ext d f g : (forall i, f i = g i) -> total d f = total d g.
Proof. intro h. unfold total. f_equal. apply map_ext. exact h. Qed.

(** The position moves with the velocity dK/dp at the half-step momentum; both halves of the momentum step follow the gradient. *)
Theorem C61_velocity d pot im z e z1 U1 : leapfrog pot im z e = Some (z1, U1) -> e <> 0 ->
  pot (pq z1) = Some (U1, pg z1) /\
  exists h : vec, (forall i, h i = pp z i - e / 2 * pg z i) /\ (forall i, pp z1 i = h i - e / 2 * pg z1 i) /\
    forall w : vec, is_derive (fun t => kinetic d im (fun i => h i + t * w i)) 0 (total d (fun i => w i * ((pq z1 i - pq z i) / e))).
Proof.
  intros E he. unfold leapfrog in E. destruct (pot _) as [[U g] |] eqn:P; [| discriminate]. injection E as <- <-. cbn [pq pp pg].
  split; [exact P |]. exists (fun i => pp z i - 1 / 2 * e * pg z i). split; [intro; lra |]. split; [intro; lra |]. intro w.
  apply (is_derive_ext (fun t => 1 / 2 * total d (fun i => (pp z i - 1 / 2 * e * pg z i + t * w i) * (pp z i - 1 / 2 * e * pg z i + t * w i) * im i))).
  { intro t. unfold kinetic. now rewrite vsum_total. }
  set (D := fun i => 2 * (w i * ((pp z i - 1 / 2 * e * pg z i) * im i))).
  replace (total d _) with (1 / 2 * total d D).
  - apply (is_derive_scal (fun t => total d _) 0 (1 / 2)). apply (total_derive d (fun i t => (pp z i - 1 / 2 * e * pg z i + t * w i) * (pp z i - 1 / 2 * e * pg z i + t * w i) * im i)). intro i. unfold D. auto_derive; [exact I |]. ring.
  - unfold D. rewrite total_scale, <- Rmult_assoc. replace (1 / 2 * 2) with 1 by lra. rewrite Rmult_1_l. apply total_ext. intro i. now field.
Qed.

(** The test is positive exactly when one end, moving on along the trajectory, comes nearer to the other end. *)
Theorem C62_uturn d im zm zp : exists a b : R,
  is_derive (fun t => dist2 d (fun i => pq zp i + t * (im i * pp zp i)) (pq zm)) 0 a /\
  is_derive (fun t => dist2 d (pq zp) (fun i => pq zm i - t * (im i * pp zm i))) 0 b /\
  (is_uturn d im zm zp = true <-> a < 0 \/ b < 0).
Proof.
  exists (2 * total d (fun i => (pq zp i - pq zm i) * (im i * pp zp i))), (2 * total d (fun i => (pq zp i - pq zm i) * (im i * pp zm i))).
  rewrite <- !total_scale. split; [| split].
  - apply (total_derive d (fun i t => (pq zp i + t * (im i * pp zp i) - pq zm i) ^ 2)). intro i. auto_derive; [exact I |]. ring.
  - apply (total_derive d (fun i t => (pq zp i - (pq zm i - t * (im i * pp zm i))) ^ 2)). intro i. auto_derive; [exact I |]. ring.
  - rewrite !total_scale. unfold is_uturn. rewrite !vsum_total, orb_true_iff.
    assert (T : forall u, rltb u 0 = true <-> u < 0) by (intro u; unfold rltb; destruct (Rlt_dec u 0); split; congruence || lra).
    rewrite !T. split; intros [h | h]; (left; lra) || (right; lra).
Qed.
Print Assumptions C61_velocity.
Print Assumptions C62_uturn.

(** on a line: a U-turn when the right end moves to the left, none when the ends move apart *)
Example C62_uturn_case : let at_ q p := Phase (fun _ => q) (fun _ => p) (fun _ => 0) in
  is_uturn 1 (fun _ => 1) (at_ 0 1) (at_ 2 (-1)) = true /\ is_uturn 1 (fun _ => 1) (at_ 0 1) (at_ 2 1) = false.
Proof.
  intro at_. unfold is_uturn. rewrite !vsum_total. unfold total, rltb. simpl. split.
  - destruct (Rlt_dec (_ * (1 * 1) + 0) 0); [lra |]. destruct (Rlt_dec _ 0); [reflexivity | lra].
  - destruct (Rlt_dec _ 0); lra || reflexivity.
Qed.
Example C61_velocity_case : exists z1, leapfrog (fun q => Some (q 0%nat * q 0%nat / 2, q)) (fun _ => 1) (Phase (fun _ => 1) (fun _ => 0) (fun _ => 1)) (1 / 10) = Some z1.
Proof. eexists. reflexivity. Qed.
