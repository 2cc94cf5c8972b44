(* MaternProofs.v: the half-integer Matern kernel as a function of distance. *)
From Coq Require Import Reals List Lia Lra.
From Coquelicot Require Import Coquelicot.
From Verif Require Import MaternModel.
Import ListNotations.
Local Open Scope R_scope.

(* sums over i < n *)
Fixpoint rsum (n : nat) (f : nat -> R) : R :=
  match n with O => 0 | S m => rsum m f + f m end.

Lemma rsum_ext n f g : (forall i, (i < n)%nat -> f i = g i) -> rsum n f = rsum n g.
Proof.
  induction n as [|n IH]; intros H; simpl; [reflexivity|].
  rewrite IH by (intros; apply H; lia). now rewrite (H n) by lia.
Qed.
Lemma rsum_plus n f g : rsum n (fun i => f i + g i) = rsum n f + rsum n g.
Proof. induction n as [|n IH]; simpl; [ring|]. rewrite IH; ring. Qed.
Lemma rsum_scal n a f : rsum n (fun i => a * f i) = a * rsum n f.
Proof. induction n as [|n IH]; simpl; [ring|]. rewrite IH; ring. Qed.
Lemma rsum_scal_r n a f : rsum n (fun i => f i * a) = rsum n f * a.
Proof. induction n as [|n IH]; simpl; [ring|]. rewrite IH; ring. Qed.
Lemma rsum_nonneg n f : (forall i, (i < n)%nat -> 0 <= f i) -> 0 <= rsum n f.
Proof.
  induction n as [|n IH]; intros H; simpl; [lra|].
  assert (0 <= rsum n f) by (apply IH; intros; apply H; lia).
  specialize (H n ltac:(lia)). lra.
Qed.
Lemma rsum_0 n : rsum n (fun _ => 0) = 0.
Proof. induction n as [|n IH]; simpl; [ring|]. rewrite IH; ring. Qed.
Lemma rsum_shift n f : rsum (S n) f = f 0%nat + rsum n (fun i => f (S i)).
Proof. induction n as [|n IH]; [simpl; ring|]. simpl in *. rewrite IH. ring. Qed.
Lemma rsum_rev n f : rsum n f = rsum n (fun i => f (n - 1 - i)%nat).
Proof.
  induction n as [|n IH]; [reflexivity|].
  rewrite (rsum_shift n (fun i => f (S n - 1 - i)%nat)). simpl rsum.
  replace (n - 0 - 0)%nat with n by lia.
  rewrite IH, Rplus_comm. f_equal; [f_equal; lia|].
  apply rsum_ext; intros i Hi. f_equal; lia.
Qed.
Lemma rsum_swap n m f :
  rsum n (fun i => rsum m (f i)) = rsum m (fun j => rsum n (fun i => f i j)).
Proof.
  induction n as [|n IH]; simpl; [now rewrite rsum_0|].
  rewrite IH. now rewrite <- rsum_plus.
Qed.
Lemma sum_f_R0_rsum n f : sum_f_R0 f n = rsum (S n) f.
Proof. induction n as [|n IH]; simpl; [ring|]. rewrite IH. reflexivity. Qed.

Lemma INR_fact_pos n : 0 < INR (fact n).
Proof. apply lt_0_INR, lt_O_fact. Qed.
Lemma INR_fact_S n : INR (fact (S n)) = (INR n + 1) * INR (fact n).
Proof. change (fact (S n)) with (S n * fact n)%nat. now rewrite mult_INR, S_INR. Qed.
Lemma lgam_S n : exp (lgam (n + 1)) = INR (fact n).
Proof. unfold lgam. rewrite exp_ln; [f_equal; f_equal; lia|]. apply INR_fact_pos. Qed.

(* the closed form of the documentation:
   exp(-2 sqrt(nu) h) Gamma(p+1)/Gamma(2p+1)
     sum_{i=0}^{p} (p+i)!/(i! (p-i)!) (4 sqrt(nu) h)^{p-i} *)
Definition matern_closed (p : nat) (h : R) : R :=
  let nu := INR p + 1 / 2 in
  exp (- (2 * sqrt nu * h)) * (INR (fact p) / INR (fact (2 * p))) *
  sum_f_R0 (fun i => INR (fact (p + i)) / (INR (fact i) * INR (fact (p - i)))
                     * (4 * sqrt nu * h) ^ (p - i)) p.

Lemma fold_rsum f n a b :
  fold_left (fun acc i => acc + f i) (seq b n) a = a + rsum n (fun i => f (b + i)%nat).
Proof.
  revert a b; induction n as [|n IH]; intros a b; [simpl; ring|].
  change (seq b (S n)) with (b :: seq (S b) n). simpl fold_left.
  rewrite IH, rsum_shift, Nat.add_0_r.
  rewrite Rplus_assoc. do 2 f_equal. apply rsum_ext; intros; f_equal; lia.
Qed.

Lemma matern_term_eq p t i : matern_term p t i =
  INR (fact p) / INR (fact (2 * p)) *
  (INR (fact (p + i)) / (INR (fact i) * INR (fact (p - i))) * t ^ (p - i)).
Proof.
  unfold matern_term. unfold Rminus at 1 2 3. rewrite !exp_plus, !exp_Ropp, !lgam_S.
  field. repeat split; apply Rgt_not_eq, INR_fact_pos.
Qed.

Lemma kernel_closed_form p h : maternp_kernel p h = matern_closed p h.
Proof.
  unfold maternp_kernel, matern_closed.
  rewrite (fold_rsum (matern_term p (2 * (2 * sqrt (INR p + 1 / 2)) * h))).
  rewrite sum_f_R0_rsum. cbn [rsum].
  rewrite Nat.sub_diag. cbn [pow fact].
  rewrite (Rmult_assoc (exp _)). f_equal.
  rewrite Rmult_plus_distr_l, <- rsum_scal.
  rewrite Rplus_comm. f_equal.
  - apply rsum_ext; intros i Hi. cbn [Nat.add]. rewrite matern_term_eq.
    do 3 f_equal. ring.
  - replace (p + p)%nat with (2 * p)%nat by lia. simpl INR.
    field. split; apply Rgt_not_eq, INR_fact_pos.
Qed.

(* reverse Bessel polynomials *)
Definition tc (p k : nat) : R :=
  INR (fact (2 * p - k)) / (INR (fact k) * INR (fact (p - k)) * 2 ^ (p - k)).
Definition theta (p : nat) (s : R) : R := rsum (S p) (fun k => tc p k * s ^ k).
Definition mconst (p : nat) : R := 2 * sqrt (INR p + 1 / 2).

Lemma pow2_pos n : 0 < 2 ^ n. Proof. apply pow_lt; lra. Qed.
Lemma tc_pos p k : 0 < tc p k.
Proof.
  unfold tc. apply Rdiv_lt_0_compat; [apply INR_fact_pos|].
  repeat apply Rmult_lt_0_compat; try apply INR_fact_pos. apply pow2_pos.
Qed.
Lemma theta_0 p : theta p 0 = tc p 0.
Proof.
  unfold theta. rewrite rsum_shift.
  rewrite (rsum_ext p _ (fun _ => 0)) by (intros; simpl; ring).
  rewrite rsum_0. simpl. ring.
Qed.
Lemma mconst_pos p : 0 < mconst p.
Proof.
  unfold mconst. assert (0 <= INR p) by apply pos_INR.
  assert (0 < sqrt (INR p + 1/2)) by (apply sqrt_lt_R0; lra). lra.
Qed.

Lemma kernel_theta p h :
  maternp_kernel p h = exp (- (mconst p * h)) * theta p (mconst p * h) / theta p 0.
Proof.
  rewrite kernel_closed_form. unfold matern_closed.
  fold (mconst p). unfold Rdiv at 4. rewrite !(Rmult_assoc (exp _)). f_equal.
  rewrite theta_0. unfold theta. rewrite sum_f_R0_rsum.
  rewrite <- rsum_scal, <- rsum_scal_r.
  rewrite (rsum_rev (S p)). apply rsum_ext; intros k Hk.
  replace (S p - 1 - k)%nat with (p - k)%nat by lia.
  replace (p - (p - k))%nat with k by lia.
  replace (p + (p - k))%nat with (2 * p - k)%nat by lia.
  replace (4 * sqrt (INR p + 1 / 2) * h) with (2 * (mconst p * h)) by (unfold mconst; ring).
  rewrite Rpow_mult_distr.
  unfold tc. rewrite !Nat.sub_0_r. simpl (fact 0). simpl (INR 1).
  replace (2 ^ p) with (2 ^ k * 2 ^ (p - k)) by (rewrite <- pow_add; f_equal; lia).
  field. repeat split; try (apply Rgt_not_eq, INR_fact_pos); apply Rgt_not_eq, pow2_pos.
Qed.

Lemma theta_pos p s : 0 <= s -> 0 < theta p s.
Proof.
  intros Hs. unfold theta. rewrite rsum_shift.
  assert (0 < tc p 0 * s ^ 0) by (simpl; rewrite Rmult_1_r; apply tc_pos).
  assert (0 <= rsum p (fun i => tc p (S i) * s ^ S i)).
  { apply rsum_nonneg; intros. apply Rmult_le_pos; [left; apply tc_pos|now apply pow_le]. }
  lra.
Qed.

Lemma is_derive_rsum n (f : nat -> R -> R) (d : nat -> R) x :
  (forall k, (k < n)%nat -> is_derive (f k) x (d k)) ->
  is_derive (fun s => rsum n (fun k => f k s)) x (rsum n d).
Proof.
  induction n as [|n IH]; intros H; simpl.
  - apply (is_derive_const 0 x).
  - apply (is_derive_plus (V := R_NormedModule)); [apply IH; intros; apply H; lia|apply H; lia].
Qed.

Lemma theta_derive p s :
  is_derive (theta p) s (rsum p (fun k => INR (S k) * tc p (S k) * s ^ k)).
Proof.
  assert (H : is_derive (theta p) s (rsum (S p) (fun k => tc p k * (INR k * s ^ pred k)))).
  { unfold theta. apply is_derive_rsum. intros k Hk. auto_derive; [trivial|ring]. }
  rewrite rsum_shift in H. simpl INR in H.
  replace (rsum p (fun k => INR (S k) * tc p (S k) * s ^ k))
    with (tc p 0 * (0 * s ^ pred 0) + rsum p (fun i => tc p (S i) * (INR (S i) * s ^ pred (S i)))); [exact H|].
  rewrite Rmult_0_l, Rmult_0_r, Rplus_0_l. apply rsum_ext; intros i Hi. simpl pred. ring.
Qed.

Lemma tc_step p k : (k < p)%nat -> INR (S k) * tc p (S k) <= tc p k.
Proof.
  intros H. unfold tc. rewrite INR_fact_S, S_INR.
  assert (E : (p - k = S (p - S k))%nat) by lia. rewrite E at 1.
  assert (E2 : (2 * p - k = S (2 * p - S k))%nat) by lia.
  rewrite E2, E, !INR_fact_S. cbn [pow].
  set (a := INR (fact (2 * p - S k))). set (b := INR (fact (p - S k))).
  assert (0 < a) by apply INR_fact_pos. assert (0 < b) by apply INR_fact_pos.
  assert (0 < INR (fact k)) by apply INR_fact_pos. assert (0 <= INR k) by apply pos_INR.
  assert (0 < 2 ^ (p - S k)) by apply pow2_pos.
  rewrite !minus_INR by lia. rewrite mult_INR, S_INR. simpl (INR 2).
  assert (INR k + 1 <= INR p) by (rewrite <- S_INR; apply le_INR; lia).
  set (q := 2 ^ (p - S k)) in *. set (c := INR (fact k)) in *.
  rewrite !S_INR. replace (INR 0 + 1) with 1 by (simpl; ring).
  apply Rminus_le.
  assert (Eq : (INR k + 1) * (a / ((INR k + 1) * c * b * q)) -
    ((1 + 1) * INR p - (INR k + 1) + 1) * a / (c * ((INR p - (INR k + 1) + 1) * b) * (2 * q))
    = - (INR k * a / (c * (2 * (INR p - (INR k + 1) + 1)) * b * q))).
  { field. repeat split; lra. }
  rewrite Eq.
  assert (0 <= INR k * a / (c * (2 * (INR p - (INR k + 1) + 1)) * b * q)); [|lra].
  apply Rmult_le_pos; [nra|]. left. apply Rinv_0_lt_compat.
  repeat apply Rmult_lt_0_compat; lra.
Qed.

Lemma is_derive_mulR (f g : R -> R) x df dg : is_derive f x df -> is_derive g x dg ->
  is_derive (fun t => f t * g t) x (df * g x + f x * dg).
Proof. intros Hf Hg. apply is_derive_Reals. apply derivable_pt_lim_mult; now apply is_derive_Reals. Qed.
Definition emat (p : nat) (s : R) : R := exp (- s) * theta p s.
Lemma emat_derive p s : is_derive (emat p) s
  (exp (- s) * (rsum p (fun k => (INR (S k) * tc p (S k) - tc p k) * s ^ k) - tc p p * s ^ p)).
Proof.
  assert (Hd := theta_derive p s). unfold emat.
  assert (He : is_derive (fun s => exp (- s)) s (- exp (- s))) by (auto_derive; [trivial|ring]).
  assert (H := is_derive_mulR _ _ _ _ _ He Hd). cbv beta in H.
  evar_last; [exact H|]. clear.
  unfold theta. cbn [rsum].
  rewrite (rsum_ext p (fun k => (INR (S k) * tc p (S k) - tc p k) * s ^ k)
     (fun k => INR (S k) * tc p (S k) * s ^ k + (-1) * (tc p k * s ^ k))) by (intros; ring).
  rewrite rsum_plus, rsum_scal. ring.
Qed.

Lemma emat_decreasing p a b : 0 <= a < b -> emat p b < emat p a.
Proof.
  intros H.
  destruct (MVT_cor2 (emat p) (fun s => exp (- s) * (rsum p (fun k => (INR (S k) * tc p (S k) - tc p k) * s ^ k) - tc p p * s ^ p)) a b)
    as [c [E Hc]]; [lra|intros; apply is_derive_Reals, emat_derive|].
  assert (rsum p (fun k => (INR (S k) * tc p (S k) - tc p k) * c ^ k) <= 0).
  { assert (0 <= rsum p (fun k => - ((INR (S k) * tc p (S k) - tc p k) * c ^ k))).
    - apply rsum_nonneg; intros k Hk. assert (T := tc_step p k Hk).
      assert (0 <= c ^ k) by (apply pow_le; lra). nra.
    - rewrite (rsum_ext p _ (fun k => (-1) * ((INR (S k) * tc p (S k) - tc p k) * c ^ k))) in H0
        by (intros; ring).
      rewrite rsum_scal in H0. lra. }
  assert (0 < tc p p * c ^ p) by (apply Rmult_lt_0_compat; [apply tc_pos|apply pow_lt; lra]).
  assert (0 < exp (- c)) by apply exp_pos.
  set (q := rsum p _) in *. assert (exp (- c) * (q - tc p p * c ^ p) < 0) by nra. nra.
Qed.

Lemma kernel_emat p h : maternp_kernel p h = emat p (mconst p * h) / theta p 0.
Proof. rewrite kernel_theta. unfold emat. reflexivity. Qed.
Lemma emat_0 p : emat p 0 = theta p 0.
Proof. unfold emat. rewrite Ropp_0, exp_0. ring. Qed.

Lemma kernel_at_0 p : maternp_kernel p 0 = 1.
Proof.
  rewrite kernel_emat, Rmult_0_r, emat_0. field.
  apply Rgt_not_eq, theta_pos; lra.
Qed.
Lemma kernel_pos p h : 0 <= h -> 0 < maternp_kernel p h.
Proof.
  intros H. rewrite kernel_emat. assert (M := mconst_pos p).
  apply Rdiv_lt_0_compat; [|apply theta_pos; lra].
  apply Rmult_lt_0_compat; [apply exp_pos|apply theta_pos; nra].
Qed.
Lemma kernel_decreasing p a b : 0 <= a < b -> maternp_kernel p b < maternp_kernel p a.
Proof.
  intros H. rewrite !kernel_emat. assert (M := mconst_pos p).
  apply Rmult_lt_compat_r; [apply Rinv_0_lt_compat, theta_pos; lra|].
  apply emat_decreasing. split; nra.
Qed.
Lemma kernel_le_1 p h : 0 <= h -> maternp_kernel p h <= 1.
Proof.
  intros H. rewrite <- (kernel_at_0 p). destruct (Req_dec h 0) as [->|N]; [lra|].
  left. apply kernel_decreasing; lra.
Qed.
Lemma kernel_p1 h : maternp_kernel 1 h = matern32_kernel h.
Proof.
  unfold maternp_kernel, matern32_kernel. simpl fold_left.
  rewrite matern_term_eq. simpl. rewrite Rmult_comm. f_equal.
  - replace (1 + 1 / 2) with (3 / 2) by field. field.
  - do 2 f_equal. replace (1 + 1 / 2) with (3 / 2) by field. ring.
Qed.
Lemma kernel_p0 h : maternp_kernel 0 h = exponential_kernel (sqrt 2 * h).
Proof.
  unfold maternp_kernel, exponential_kernel. simpl. rewrite Rmult_1_r. do 2 f_equal. f_equal.
  rewrite Rplus_0_l. replace (1 / 2) with (2 / (2 * 2)) by field.
  rewrite sqrt_div by lra. rewrite sqrt_square by lra. field.
Qed.
(* the kernel goes to 0 at infinity *)
