(* InfoProofs.v
   Comparison of the prediction variances of two kriging systems, for C121. *)
From mathcomp Require Import all_ssreflect all_fingroup all_algebra.
From Verif Require Import LinAlg KrigModel CholProofs LinQR KrigProofs KrigProofs2
  KrigProofs3 LooProofs UpdProofs ReplProofs.
Set Implicit Arguments.
Unset Strict Implicit.
Unset Printing Implicit Defensive.
Import Order.TTheory GRing.Theory Num.Theory.
Local Open Scope ring_scope.

Section Info.
Variable R : rcfType.
Variables (n k q q' m : nat) (K : 'M[R]_n) (P : 'M[R]_(n, q)) (K' : 'M[R]_k) (P' : 'M[R]_(k, q')).
Variables (S : 'M[R]_(n, k)) (A : 'M[R]_(q', q)).
Hypothesis cK : cond_pos_def K P.
Hypothesis cK' : cond_pos_def K' P'.
Hypothesis SP : S^T *m P = P' *m A.

Section Var.
Variables (Kit : 'M[R]_(n, m)) (Pt : 'M[R]_(m, q)) (Kit' : 'M[R]_(k, m)) (Pt' : 'M[R]_(m, q')).
Hypothesis fP : full_col_rank P.
Hypothesis fP' : full_col_rank P'.
Hypothesis PtA : Pt = Pt' *m A.
Variables (tt tt' : 'rV[R]_m).

Lemma info_var j :
  (forall w : 'cV[R]_k, tt 0 j - 2%:R * (w^T *m (S^T *m Kit)) 0 j + qform K (S *m w) <=
             tt' 0 j - 2%:R * (w^T *m Kit') 0 j + qform K' w) ->
  (tt - einsum_ii (uk_sol K P Kit Pt) (uk_rhs Kit Pt)) 0 j <=
  (tt' - einsum_ii (uk_sol K' P' Kit' Pt') (uk_rhs Kit' Pt')) 0 j.
Proof.
move=> h.
have ett (t : 'rV[R]_m) : tt_pairwise (PriorTT t (diag_mx t)) = diag_of (diag_mx t).
  by apply/rowP => l; rewrite /= !mxE eqxx.
have [lam [v [E H]]] := uk_blup Kit Pt cK fP (ett tt).
have [lam1 [v1 [E1 H1]]] := uk_blup Kit' Pt' cK' fP' (ett tt').
have u := uk_lhs_unit cK fP; have u' := uk_lhs_unit cK' fP'.
move: E E1; rewrite !krig_block_ok0 // => -[_ ->] [_ ->].
have [ub ev opt] := H j; have [ub1 -> _] := H1 j.
have ubS : unbiased P Pt (S *m col j lam1) j.
  apply/unbiasedE; move/unbiasedE: ub1 => ub1.
  by rewrite mulmxA -[P^T *m S]trmxK trmx_mul trmxK SP trmx_mul -mulmxA ub1 PtA row_mul trmx_mul.
apply: (@le_trans _ _ (mse (joint K Kit (diag_mx tt)) (S *m col j lam1) j)).
  have [->|nw] := eqVneq (S *m col j lam1) (col j lam); first by rewrite ev.
  exact: ltW (opt _ ubS nw).
rewrite !mseE !mxE eqxx !mulr1n.
have e (l1 : nat) (w : 'cV[R]_l1) (B : 'M[R]_(l1, m)) : bilin 1%:M w (col j B) = (w^T *m B) 0 j.
  by rewrite /bilin mulmx1 -col_mulmx mxE.
by rewrite !e trmx_mul -mulmxA; exact: h.
Qed.
End Var.

Lemma info_loo (B : 'M[R]_n) C (B' : 'M[R]_k) C' i i' :
  symmetric B -> P^T *m B = 0 -> K *m B + P *m C = 1%:M ->
  symmetric B' -> P'^T *m B' = 0 -> K' *m B' + P' *m C' = 1%:M ->
  (forall w : 'cV[R]_k, qform K (S *m w) <= qform K' w) ->
  (forall w : 'cV[R]_k, (S *m w) i 0 = w i' 0) ->
  full_col_rank (P_wo i' P') ->
  1 / B i i <= 1 / B' i' i'.
Proof.
move=> sB PB KB sB' PB' KB' h hi fw.
have b0 := B_diag_pos cK' sB' PB' KB' fw.
have bn : B' i' i' != 0 by rewrite gt_eqF.
pose w := (B' i' i')^-1 *: col i' B'.
have Pw : P^T *m (S *m w) = 0.
  rewrite mulmxA -[P^T *m S]trmxK trmx_mul trmxK SP trmx_mul -mulmxA /w -scalemxAr col_PB //.
  by rewrite scaler0 mulmx0.
have wi : (S *m w) i 0 = 1 by rewrite hi !mxE mulVf.
have := dup_upper cK sB PB KB Pw wi.
have qw : qform K' w = (B' i' i')^-1.
  by rewrite /w qformZ (qform_col sB' PB' KB') expr2 -mulrA mulVf // mulr1.
have Bp : 0 <= B i i.
  rewrite -(qform_col sB PB KB); have [->|vn] := eqVneq (col i B) 0; first by rewrite qform0.
  by apply/ltW/cK.2 => //; exact: col_PB.
move=> g.
have g2 : 1 <= (B' i' i')^-1 * B i i by apply: le_trans g _; rewrite -qw; apply: ler_wpmul2r.
have Bp' : 0 < B i i.
  by rewrite lt_def Bp andbT; apply/eqP => h0; move: g2; rewrite h0 mulr0 ler10.
by rewrite !div1r -[_^-1]mul1r ler_pdivr_mulr.
Qed.
End Info.
