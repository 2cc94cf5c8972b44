(* MhMat.v: Haario adaptation of gpmp/mcmc/mh.py over the real numbers, and its
   validity.  Definitions first, then lemmas. *)
From Coq Require Import Reals.
From mathcomp Require Import all_ssreflect all_algebra.
From Verif Require Import LinAlg Rinst.
Set Implicit Arguments.
Unset Strict Implicit.
Unset Printing Implicit Defensive.
Import Order.TTheory GRing.Theory Num.Theory.
Local Open Scope ring_scope.
Local Arguments exp : clear scopes.
Bind Scope ring_scope with R.

Section Haario.
Variable d : nat.
(* gnp.cov(x.T, ddof=1) of the rows xs (at least two rows, otherwise NaN) *)
Definition row_mean (xs : seq 'rV[R]_d) : 'rV[R]_d := (size xs)%:R^-1 *: \sum_(x <- xs) x.
Definition sample_cov (xs : seq 'rV[R]_d) : 'M[R]_d :=
  ((size xs)%:R - 1)^-1 *: \sum_(x <- xs) ((x - row_mean xs)^T *m (x - row_mean xs)).
(* mh.py 238-246 _compute_covariances_for_block, 491 grp = c // n_pool: the rows
   of the block of every chain of the group of chain c *)
Definition group_rows (n_pool c : nat) (blocks : seq (seq 'rV[R]_d)) : seq 'rV[R]_d :=
  flatten (take n_pool (drop (c %/ n_pool * n_pool) blocks)).
(* 306-341 update_proposal_covariance_from_samples with raw_cov *)
Definition haario_cov (eps s : R) (C : 'M[R]_d) : 'M[R]_d := s *: C + eps *: 1%:M.
(* 492-503 one block of run_adaptive_Haario for one chain: scaling factor and
   proposal covariance; the observation is the rows of the group and the rate *)
Definition haario_step (eps adapt target : R) (st : R * 'M[R]_d) (ob : seq 'rV[R]_d * R) : R * 'M[R]_d :=
  let s := (st.1 * exp (adapt * (ob.2 - target)) : R) in
  (s, haario_cov eps s (sample_cov ob.1)).
Definition haario_run (eps adapt target : R) (st : R * 'M[R]_d) (obs : seq (seq 'rV[R]_d * R)) :=
  foldl (haario_step eps adapt target) st obs.

Lemma exp_gt0' (a : R) : 0 < exp a :> R.
Proof. by apply/RltbP; exact: exp_pos. Qed.
Lemma psd_sum (T : Type) (r : seq T) (F : T -> 'M[R]_d) :
  (forall t, pos_semidef (F t)) -> pos_semidef (\sum_(t <- r) F t).
Proof.
move=> h; elim: r => [|t r IH]; last by rewrite big_cons; apply: psd_add.
rewrite big_nil; split=> [|x]; first by rewrite /symmetric trmx0.
by rewrite /qform /bilin mulmx0 mul0mx mxE.
Qed.
Lemma sample_cov_psd xs : (1 < size xs)%N -> pos_semidef (sample_cov xs).
Proof.
move=> h; apply: psd_scale; last by apply: psd_sum => t; exact: psd_gram.
by rewrite invr_ge0 subr_ge0 ler1n ltnW.
Qed.
Lemma haario_cov_lower eps s C x : 0 <= s -> pos_semidef C ->
  eps * qform 1%:M x <= qform (haario_cov eps s C) x.
Proof.
move=> s0 [_ pC]; rewrite /haario_cov /qform bilin_addm !bilin_scalem.
by rewrite ler_addr mulr_ge0 // pC.
Qed.
Lemma haario_cov_pd eps s C : 0 < eps -> 0 <= s -> pos_semidef C -> pos_def (haario_cov eps s C).
Proof.
move=> e0 s0 hC; split.
  by rewrite /symmetric /haario_cov linearD /= !linearZ /= trmx1; case: hC => ->.
move=> x x0; apply: (lt_le_trans _ (haario_cov_lower eps x s0 hC)).
by rewrite mulr_gt0 //; case: (@pos_def1 R_rcfType d) => _; apply.
Qed.
Lemma haario_run_scale eps adapt target st obs :
  (haario_run eps adapt target st obs).1 =
  st.1 * exp (\sum_(ob <- obs) adapt * (ob.2 - target)) :> R.
Proof.
elim: obs st => [|ob obs IH] st /=; first by rewrite big_nil exp_0 mulr1.
by rewrite IH big_cons /= -mulrA; congr (_ * _); rewrite -[RHS]/(exp (Rplus _ _)) exp_plus.
Qed.
Lemma haario_run_last eps adapt target st obs ob :
  haario_run eps adapt target st (rcons obs ob) =
  haario_step eps adapt target (haario_run eps adapt target st obs) ob.
Proof. by rewrite /haario_run foldl_rcons. Qed.
Lemma haario_run_pd eps adapt target st obs :
  0 < eps -> 0 < st.1 -> pos_def st.2 -> all (fun ob => 1 < size ob.1)%N obs ->
  pos_def (haario_run eps adapt target st obs).2.
Proof.
move=> e0 s0 p0; elim/last_ind: obs => [|obs ob _] //; rewrite all_rcons => /andP [h _].
rewrite haario_run_last /=; apply: haario_cov_pd => //; last exact: sample_cov_psd.
by rewrite ltW // mulr_gt0 ?exp_gt0' // haario_run_scale mulr_gt0 ?exp_gt0'.
Qed.
End Haario.
