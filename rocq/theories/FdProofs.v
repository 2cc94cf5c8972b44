(* FdProofs.v: the five-point finite difference (C34), and the pathwise
   statements on conditioned paths used by C35/C36. *)
From mathcomp Require Import all_ssreflect all_algebra ring.
From Verif Require Import LinAlg KrigModel CholProofs LinQR KrigProofs KrigProofs2 KrigProofs3
  LooProofs PathProofs.
Set Implicit Arguments.
Unset Strict Implicit.
Unset Printing Implicit Defensive.
Import Order.TTheory GRing.Theory Num.Theory.
Local Open Scope ring_scope.

Section Fd.
Variable R : rcfType.

Lemma horner6 (p : {poly R}) t : (size p <= 6)%N ->
  p.[t] = p`_0 + p`_1 * t + p`_2 * t ^+ 2 + p`_3 * t ^+ 3 + p`_4 * t ^+ 4 + p`_5 * t ^+ 5.
Proof.
move=> sp; rewrite (horner_coef_wide _ sp) !big_ord_recl big_ord0 /=.
rewrite /bump /= !add1n expr0 expr1; move: p`_0 p`_1 p`_2 p`_3 p`_4 p`_5 => a0 a1 a2 a3 a4 a5; ring.
Qed.

Lemma deriv6 (p : {poly R}) t : (size p <= 6)%N ->
  p^`().[t] = p`_1 + 2%:R * p`_2 * t + 3%:R * p`_3 * t ^+ 2 + 4%:R * p`_4 * t ^+ 3
   + 5%:R * p`_5 * t ^+ 4.
Proof.
move=> sp; have sd : (size p^`() <= 5)%N.
  by apply: leq_trans (size_poly _ _) _; case: (size p) sp.
rewrite (horner_coef_wide _ sd) !big_ord_recl big_ord0 /= !coef_deriv /bump /=.
rewrite -[_ *+ 2]mulr_natl -[_ *+ 3]mulr_natl -[_ *+ 4]mulr_natl -[_ *+ 5]mulr_natl expr0 expr1 !add1n.
move: p`_1 p`_2 p`_3 p`_4 p`_5 => a1 a2 a3 a4 a5; ring.
Qed.

Lemma fd_order n m (f : 'I_n -> 'I_m -> {poly R}) x h i j : h != 0 -> (size (f i j) <= 6)%N ->
  derivative_finite_diff (fun t => \matrix_(i, j) (f i j).[t]) x h i j =
    (f i j)^`().[x] - 4%:R * (f i j)`_5 * h ^+ 4.
Proof.
move=> hn sz; rewrite /derivative_finite_diff !mxE deriv6 // !horner6 //.
by field.
Qed.

Lemma fd_exact n m (f : 'I_n -> 'I_m -> {poly R}) x h :
  h != 0 -> (forall i j, (size (f i j) <= 5)%N) ->
  derivative_finite_diff (fun t => \matrix_(i, j) (f i j).[t]) x h =
    \matrix_(i, j) (f i j)^`().[x].
Proof.
move=> hn sz; apply/matrixP => i j; rewrite fd_order // ?mxE; last exact: leqW.
by rewrite [(f i j)`_5]nth_default // mulr0 mul0r subr0.
Qed.
End Fd.

Section Interp.
Variables (R : rcfType) (N ni nt nb : nat) (xi : 'I_ni -> 'I_N) (xt : 'I_nt -> 'I_N).
Implicit Types (Z : 'M[R]_(N, nb)) (zi : 'cV[R]_ni).

Lemma cond_interp_zero Z zi (K : 'M[R]_ni) Kit tt lam v i j k :
  pos_def K -> col j Kit = col i K -> xt j = xi i ->
  kriging_predictor_with_zero_mean K Kit tt 0 = Ok (lam, PVVar v) ->
  conditional_sample_paths Z xi zi xt lam j k = zi i 0.
Proof.
move=> pK ec ex; rewrite krig_zero_ok // => -[<- _].
by apply: cond_interp => //; apply: zm_col_interp => //; exact: pd_unit.
Qed.

Lemma cond_interp_param Z zi (mi : 'cV[R]_ni) (mt : 'cV[R]_nt) (K : 'M[R]_ni) Kit tt lam v i j k :
  pos_def K -> col j Kit = col i K -> xt j = xi i -> mt j 0 = mi i 0 ->
  kriging_predictor_with_zero_mean K Kit tt 0 = Ok (lam, PVVar v) ->
  conditional_sample_paths_parameterized_mean Z xi zi mi xt mt lam j k = zi i 0.
Proof.
move=> pK ec ex em E; rewrite cond_param (cond_interp_zero _ _ _ pK ec ex E).
by rewrite msubE em subrK.
Qed.

Lemma cond_interp_linear q Z zi (K : 'M[R]_ni) (P : 'M[R]_(ni, q)) Kit Pt tt lam v i j k :
  uk_lhs K P \in unitmx -> col j Kit = col i K -> row j Pt = row i P -> xt j = xi i ->
  kriging_predictor_block K P Kit Pt tt 0 = Ok (lam, PVVar v) ->
  conditional_sample_paths Z xi zi xt lam j k = zi i 0.
Proof.
move=> u ec er ex; rewrite krig_block_ok0 // => -[<- _].
by apply: cond_interp => //; have [-> _] := uk_col_interp u ec er.
Qed.

Lemma paths_cov n m svd meth (K C : 'M[R]_n) (p : 'cV[R]_m) xi0 :
  path_factor svd meth K = Ok C ->
  is_law p -> (forall i, mean_of p xi0 i = 0) -> (forall i j, cov_of p xi0 i j = (i == j)%:R) ->
  exists Z : 'M[R]_(n, m), [/\ sample_paths svd meth K xi0 = Ok Z, forall i, mean_of p Z i = 0
    & forall i j, cov_of p Z i j = (C *m C^T) i j].
Proof.
move=> E lp m0 c1; exists (C *m xi0); rewrite /sample_paths E.
have eZ : C *m xi0 = C *m xi0 + \matrix_(a, b) (fun _ => 0 : R) a.
  by apply/matrixP => a b; rewrite !mxE addr0.
split=> // [i|i j]; rewrite eZ.
  rewrite mean_affine // addr0.
  have -> : xi0 *m p = 0 by apply/colP => u; rewrite -mean_ofE m0 mxE.
  by rewrite mulmx0 mxE.
have c2 a b : cov_of p xi0 a b = (1%:M : 'M[R]_n) a b by rewrite c1 mxE.
by rewrite (cov_affine _ _ _ _ lp c2) mulmx1.
Qed.
End Interp.
