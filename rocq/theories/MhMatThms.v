(* MhMatThms.v: C58, Haario adaptation. *)
From Coq Require Import Reals.
From mathcomp Require Import all_ssreflect all_algebra.
From Verif Require Import LinAlg Rinst MhMat.
Set Implicit Arguments.
Unset Strict Implicit.
Unset Printing Implicit Defensive.
Import Order.TTheory GRing.Theory Num.Theory.
Local Open Scope ring_scope.
Local Arguments exp : clear scopes.
Bind Scope ring_scope with R.

(* For every sequence of blocks (at least two pooled rows each) the scaling factor
   stays positive with the stated closed form, and the proposal covariance is
   symmetric, positive definite, and bounded below by eps. *)
Theorem C58_haario_covariance_valid : forall d (eps adapt target s0 : R) (C0 : 'M[R]_d) obs,
  0 < eps -> 0 < s0 -> pos_def C0 -> all (fun ob => 1 < size ob.1)%N obs ->
  let r := haario_run eps adapt target (s0, C0) obs in
  [/\ 0 < r.1, r.1 = s0 * exp (\sum_(ob <- obs) adapt * (ob.2 - target)), pos_def r.2 &
      (0 < size obs)%N -> forall x : 'cV[R]_d, eps * (\sum_i x i 0 ^+ 2) <= (x^T *m r.2 *m x) 0 0].
Proof.
move=> d eps adapt target s0 C0 obs e0 h0 p0 hall r.
have E : r.1 = s0 * exp (\sum_(ob <- obs) adapt * (ob.2 - target)) by exact: haario_run_scale.
have P : 0 < r.1 by rewrite E mulr_gt0 ?exp_gt0'.
split=> //; first exact: haario_run_pd.
move=> sz x; rewrite -qform1; move: P; rewrite /r; move: hall sz; clear.
elim/last_ind: obs => [//|obs ob _]; rewrite all_rcons => /andP [h _] _.
by rewrite haario_run_last /= => P; apply: haario_cov_lower; [exact: ltW | exact: sample_cov_psd].
Qed.
Print Assumptions C58_haario_covariance_valid.

(* the group of chain c contains the block of chain c *)
Theorem C58_group_contains_chain : forall d n_pool c (blocks : seq (seq 'rV[R]_d)),
  (0 < n_pool)%N -> (c < size blocks)%N -> {subset nth [::] blocks c <= group_rows n_pool c blocks}.
Proof.
move=> d p c blocks p0 hc x hx; apply/flattenP; exists (nth [::] blocks c) => //.
have e : (c = c %/ p * p + c %% p)%N by exact: divn_eq.
rewrite {1}e -nth_drop -(@nth_take p) ?ltn_mod //; apply: mem_nth.
by rewrite size_take size_drop; case: ifP => _; rewrite ?ltn_mod // ltn_subRL -e.
Qed.
Print Assumptions C58_group_contains_chain.

(* one block of two identical points: the empirical covariance vanishes and the
   proposal covariance is eps times the identity *)
Example C58_haario_ex : (haario_run (1 : R) 1 0 (1, 1%:M) [:: ([:: 0; 0], 0)]).2 = 1%:M :> 'M[R]_2.
Proof.
rewrite /haario_run /= /haario_cov /sample_cov /row_mean !big_cons big_nil !addr0 scaler0.
rewrite !subrr big_nil mulmx0 !addr0 !scaler0.
by rewrite add0r scale1r.
Qed.
