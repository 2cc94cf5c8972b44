(* RealAux2.v: more lemmas on real functions. *)
From Coq Require Import Reals Lra.
Local Open Scope R_scope.

Lemma ln_quot_min (c a : R) : 0 < c -> 0 < a -> c <> a -> ln a + 1 < ln c + a / c.
Proof.
  intros Hc Ha N.
  assert (Ht : 0 < a / c) by (apply Rdiv_lt_0_compat; lra).
  assert (L : ln (a / c) <> 0).
  { intros E. apply N. assert (E2 : a / c = 1) by (rewrite <- (exp_ln (a / c)) by exact Ht; rewrite E; apply exp_0).
    assert (a = c) by (replace a with (a / c * c) by (field; lra); rewrite E2; ring). now symmetry. }
  assert (X := exp_ineq1 _ L). rewrite exp_ln in X by exact Ht.
  unfold Rdiv in X at 1. rewrite ln_mult, ln_Rinv in X; try lra. apply Rinv_0_lt_compat; lra.
Qed.
