(* FarProofs.v: the half-integer Matern kernel at large distances. *)
From Coq Require Import Reals List Lia Lra.
From Verif Require Import MaternModel MaternProofs.
Import ListNotations.
Local Open Scope R_scope.

Lemma exp_nat n x : exp (INR n * x) = exp x ^ n.
Proof.
  induction n as [|n IH]; [cbn; rewrite Rmult_0_l; apply exp_0|].
  rewrite S_INR, Rmult_plus_distr_r, Rmult_1_l, exp_plus, IH. cbn. ring.
Qed.

(* exp grows faster than any power *)
Lemma exp_power n s : 0 <= s -> (s / INR (S n)) ^ S n <= exp s.
Proof.
  intros s0. assert (n0 : 0 < INR (S n)) by (apply lt_0_INR; lia).
  replace s with (INR (S n) * (s / INR (S n))) at 2 by (field; lra).
  rewrite exp_nat. apply pow_incr. split.
  - apply Rmult_le_pos; [easy|]. left. now apply Rinv_0_lt_compat.
  - assert (h := exp_ineq1_le (s / INR (S n))). lra.
Qed.

Lemma rsum_le_pow p s n : 1 <= s -> (n <= S p)%nat -> rsum n (fun k => tc p k * s ^ k) <= rsum n (tc p) * s ^ p.
Proof.
  intros s1. induction n as [|n IH]; intros hn; cbn [rsum]; [lra|].
  assert (h : s ^ n <= s ^ p) by (apply Rle_pow; [easy|lia]).
  assert (t := tc_pos p n). assert (IH' := IH ltac:(lia)).
  rewrite Rmult_plus_distr_r. apply Rplus_le_compat; [easy|].
  apply Rmult_le_compat_l; lra.
Qed.

(* the kernel is at most C / h at distances h that are not small *)
Lemma kernel_tail p : exists C, 0 < C /\ forall h, 1 <= mconst p * h -> maternp_kernel p h <= C / (mconst p * h).
Proof.
  assert (t0 : 0 < theta p 0) by (rewrite theta_0; apply tc_pos).
  assert (q0 : 0 < INR (S p)) by (apply lt_0_INR; lia).
  assert (hT : 0 < rsum (S p) (tc p)).
  { assert (g : forall n, 0 <= rsum n (tc p)).
    { induction n as [|n IH]; cbn; [lra|]. assert (t := tc_pos p n). lra. }
    cbn. assert (t := tc_pos p p). assert (g' := g p). lra. }
  exists (rsum (S p) (tc p) * INR (S p) ^ S p / theta p 0). split.
  { apply Rdiv_lt_0_compat; [|easy]. apply Rmult_lt_0_compat; [easy|]. now apply pow_lt. }
  intros h s1. rewrite kernel_theta. set (s := mconst p * h) in *. clearbody s.
  assert (e := exp_power p s ltac:(lra)).
  assert (le := rsum_le_pow p s (S p) s1 (le_n _)). fold (theta p s) in le.
  rewrite exp_Ropp.
  assert (P0 : 0 < (s / INR (S p)) ^ S p) by (apply pow_lt, Rdiv_lt_0_compat; lra).
  assert (ie : / exp s <= / ((s / INR (S p)) ^ S p)) by (apply Rinv_le_contravar; easy).
  assert (E0 : 0 < / exp s) by (apply Rinv_0_lt_compat, exp_pos).
  assert (sp : 0 < s ^ p) by (apply pow_lt; lra).
  replace (rsum (S p) (tc p) * INR (S p) ^ S p / theta p 0 / s)
    with (/ ((s / INR (S p)) ^ S p) * (rsum (S p) (tc p) * s ^ p) / theta p 0).
  - unfold Rdiv. apply Rmult_le_compat_r; [left; now apply Rinv_0_lt_compat|].
    apply Rle_trans with (/ exp s * (rsum (S p) (tc p) * s ^ p)).
    + apply Rmult_le_compat_l; lra.
    + apply Rmult_le_compat_r; [|exact ie]. left. now apply Rmult_lt_0_compat.
  - unfold Rdiv at 2. rewrite Rpow_mult_distr, pow_inv. cbn [pow].
    assert (INR (S p) ^ p <> 0) by (apply pow_nonzero; lra).
    field. repeat split; try lra; easy.
Qed.

(* so it tends to zero *)
Lemma kernel_vanishes p eps : 0 < eps -> exists D, 0 < D /\ forall h, D < h -> maternp_kernel p h <= eps.
Proof.
  intros e0. destruct (kernel_tail p) as [C [C0 HC]]. assert (m0 := mconst_pos p).
  exists (/ mconst p + C / (eps * mconst p)).
  assert (i0 : 0 < / mconst p) by now apply Rinv_0_lt_compat.
  assert (c0 : 0 < C / (eps * mconst p)) by (apply Rdiv_lt_0_compat; [easy|now apply Rmult_lt_0_compat]).
  split; [lra|]. intros h hh.
  assert (h1 : 1 <= mconst p * h).
  { replace 1 with (mconst p * / mconst p) by (field; lra). apply Rmult_le_compat_l; lra. }
  apply Rle_trans with (1 := HC h h1). apply Rmult_le_reg_r with (mconst p * h); [lra|].
  replace (C / (mconst p * h) * (mconst p * h)) with C by (field; lra).
  replace C with (eps * (mconst p * (C / (eps * mconst p)))) at 1 by (field; lra).
  apply Rmult_le_compat_l; [lra|]. apply Rmult_le_compat_l; lra.
Qed.
