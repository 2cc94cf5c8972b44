(* ReplReal.v
   The real analysis of C119: the term added by the repeated observations varies with the
   noise variance. *)
From Coq Require Import Reals Lra.
Local Open Scope R_scope.

Lemma noise_vary k S t : 0 < k -> 0 < t ->
  exists t', t < t' /\ k * (ln t - ln t') + S * (/ t - / t') <> 0.
Proof.
intros kp tp.
assert (l2 : 0 < ln 2) by (rewrite <- ln_1; apply ln_increasing; lra).
assert (FE : forall m, 0 < m ->
  k * (ln t - ln (m * t)) + S * (/ t - / (m * t)) = S / t * (1 - / m) - k * ln m).
{ intros m mp. rewrite ln_mult by lra. field. lra. }
assert (l4 : ln 4 = 2 * ln 2) by (replace 4 with (2 * 2) by lra; rewrite ln_mult; lra).
destruct (Req_dec (k * (ln t - ln (2 * t)) + S * (/ t - / (2 * t))) 0) as [z2|n2].
- exists (4 * t). split; [lra|]. intro z4.
  rewrite FE in z2 by lra. rewrite FE, l4 in z4 by lra.
  set (s := S / t) in *. assert (0 < k * ln 2) by (apply Rmult_lt_0_compat; lra). lra.
- exists (2 * t). split; [lra|exact n2].
Qed.
