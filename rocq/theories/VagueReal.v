(* VagueReal.v
   Real analysis for C120: logarithms of a determinant close to a power. *)
From Coq Require Import Reals Lra.
Local Open Scope R_scope.

Lemma ln_le_sub1 x : 0 < x -> ln x <= x - 1.
Proof. intros h. generalize (exp_ineq1_le (ln x)). rewrite exp_ln by exact h. lra. Qed.

Lemma ln_gap f s : 0 <= f -> f < s ->
  ln (s + f) - ln s <= f / (s - f) /\ ln s - ln (s - f) <= f / (s - f).
Proof.
intros f0 fs. split.
- replace (ln (s + f) - ln s) with (ln ((s + f) / s)).
  + apply Rle_trans with ((s + f) / s - 1).
    * apply ln_le_sub1. apply Rdiv_lt_0_compat; lra.
    * replace ((s + f) / s - 1) with (f / s) by (field; lra).
      apply Rmult_le_compat_l; [lra|]. apply Rinv_le_contravar; lra.
  + unfold Rdiv. rewrite ln_mult, ln_Rinv; try lra. apply Rinv_0_lt_compat; lra.
- replace (ln s - ln (s - f)) with (ln (s / (s - f))).
  + apply Rle_trans with (s / (s - f) - 1).
    * apply ln_le_sub1. apply Rdiv_lt_0_compat; lra.
    * right. field. lra.
  + unfold Rdiv. rewrite ln_mult, ln_Rinv; try lra. apply Rinv_0_lt_compat; lra.
Qed.

Lemma ln_det_gap (k d f s : R) : 0 <= k -> 0 <= f -> f < s ->
  k * ln (s - f) <= d -> d <= k * ln (s + f) -> Rabs (d - k * ln s) <= k * f / (s - f).
Proof.
intros k0 f0 fs h1 h2. destruct (ln_gap f s f0 fs) as [g1 g2].
assert (e1 : k * (ln (s + f) - ln s) <= k * (f / (s - f))) by (apply Rmult_le_compat_l; lra).
assert (e2 : k * (ln s - ln (s - f)) <= k * (f / (s - f))) by (apply Rmult_le_compat_l; lra).
unfold Rdiv in *. rewrite Rmult_assoc.
apply Rabs_le. split; lra.
Qed.

Lemma crit_gap (qn ld ls t g k f s : R) : 0 <= g -> g <= k / (s - f) ->
  Rabs (ld - qn * ls) <= qn * f / (s - f) -> f < s ->
  Rabs ((t + ld + g) / 2 - (t + qn * ls) / 2) <= (qn * f + k) / (s - f).
Proof.
intros g0 gk h fs.
replace ((qn * f + k) / (s - f)) with (qn * f / (s - f) + k / (s - f)) by (field; lra).
revert h gk. generalize (qn * f / (s - f)) (k / (s - f)). intros u v h gk.
unfold Rabs in *; destruct (Rcase_abs (ld - qn * ls));
  destruct (Rcase_abs ((t + ld + g) / 2 - (t + qn * ls) / 2)); lra.
Qed.

Lemma far_enough (k s0 g : R) : 0 < g -> forall s, s0 + Rabs k / g < s -> s0 < s /\ k / (s - s0) < g.
Proof.
intros g0 s h.
assert (a0 : 0 <= Rabs k / g).
{ apply Rmult_le_pos; [apply Rabs_pos | left; apply Rinv_0_lt_compat; exact g0]. }
split; [lra|].
assert (kg : Rabs k = Rabs k / g * g) by (field; lra).
apply Rmult_lt_reg_r with (s - s0); [lra|].
unfold Rdiv at 1. rewrite Rmult_assoc, Rinv_l by lra. rewrite Rmult_1_r.
apply Rle_lt_trans with (Rabs k); [apply Rle_abs|].
rewrite kg, (Rmult_comm g). apply Rmult_lt_compat_r; lra.
Qed.

Lemma select_gap (k k' s0 s0' a a' : R) : a < a' -> exists s1, forall s, s1 < s ->
  s0 < s /\ s0' < s /\ forall t u u', Rabs (u - (a + t)) <= k / (s - s0) ->
    Rabs (u' - (a' + t)) <= k' / (s - s0') -> u < u'.
Proof.
intros h. set (g := (a' - a) / 2). assert (g0 : 0 < g) by (unfold g; lra).
exists (Rmax (s0 + Rabs k / g) (s0' + Rabs k' / g)). intros s hs.
destruct (far_enough k s0 g g0 s) as [h1 h2].
{ eapply Rle_lt_trans; [apply Rmax_l | exact hs]. }
destruct (far_enough k' s0' g g0 s) as [h3 h4].
{ eapply Rle_lt_trans; [apply Rmax_r | exact hs]. }
repeat split; try assumption. intros t u u' e1 e2.
revert h2 h4 e1 e2. generalize (k / (s - s0)) (k' / (s - s0')). unfold g. intros x y h2 h4 e1 e2.
unfold Rabs in *; destruct (Rcase_abs (u - (a + t))); destruct (Rcase_abs (u' - (a' + t))); lra.
Qed.
