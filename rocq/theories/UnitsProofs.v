(* UnitsProofs.v: kriging systems under a change of units (property C116). *)
From mathcomp Require Import all_ssreflect all_algebra ring.
From Verif Require Import LinAlg KrigModel CholProofs LinQR KrigProofs KrigProofs2 KrigProofs3.
Set Implicit Arguments.
Unset Strict Implicit.
Unset Printing Implicit Defensive.
Import Order.TTheory GRing.Theory Num.Theory.
Local Open Scope ring_scope.

Section Core.
Variables (R : rcfType) (n q : nat) (K : 'M[R]_n) (P : 'M[R]_(n, q)) (s : R) (T : 'M[R]_q).
Hypothesis s0 : s != 0.
Hypothesis uT : T \in unitmx.

Lemma core_lhs : uk_lhs (s *: K) (P *m T) =
  block_mx s%:M 0 0 T^T *m uk_lhs K P *m block_mx 1%:M 0 0 (s^-1 *: T).
Proof.
rewrite /uk_lhs !mulmx_block !mulmx0 !mul0mx !addr0 !add0r !mulmx1 trmx_mul.
congr block_mx; rewrite ?mul0mx // ?mulmx0 //; first by rewrite mul_scalar_mx.
by rewrite mul_scalar_mx -scalemxAl -scalemxAr scalerA mulfV // scale1r.
Qed.

Lemma core_det : \det (uk_lhs (s *: K) (P *m T)) * s ^+ q = s ^+ n * \det T ^+ 2 * \det (uk_lhs K P).
Proof.
rewrite core_lhs !det_mulmx !det_ublock det_tr det_scalar det1 detZ mul1r exprVn.
rewrite -!mulrA; congr (_ * _).
congr (_ * _); rewrite mulrCA [\det (uk_lhs K P) * _]mulrC.
by rewrite mulrA; congr (_ * _); rewrite mulrCA mulVf ?mulr1 // expf_neq0.
Qed.

Lemma core_cpd : 0 < s -> cond_pos_def K P -> cond_pos_def (s *: K) (P *m T).
Proof.
move=> sp [sK pK]; split; first by rewrite /symmetric linearZ /= sK.
move=> x; rewrite trmx_mul => e xn; rewrite /qform bilin_scalem mulr_gt0 // -/(qform _ _); apply: pK => //.
have : invmx T^T *m (T^T *m P^T *m x) = 0 by rewrite e mulmx0.
by rewrite -mulmxA mulKmx // unitmx_tr.
Qed.
Lemma core_rank : full_col_rank P -> full_col_rank (P *m T).
Proof.
move=> fP b; rewrite -mulmxA => /fP e.
by have := mulKmx uT b; rewrite e mulmx0.
Qed.

Lemma core_B B C B' C' : uk_lhs (s *: K) (P *m T) \in unitmx ->
  P^T *m B = 0 -> K *m B + P *m C = 1%:M ->
  (P *m T)^T *m B' = 0 -> (s *: K) *m B' + (P *m T) *m C' = 1%:M -> B' = s^-1 *: B.
Proof.
move=> u PB KB PB' KB'; rewrite -(trmx0 R n q) in PB'.
have [-> _] := uk_uniq u KB' PB'.
have h1 : (s *: K) *m (s^-1 *: B) + (P *m T) *m (invmx T *m C) = 1%:M.
  by rewrite -scalemxAl -scalemxAr scalerA mulfV // scale1r -mulmxA mulKVmx.
have h2 : (P *m T)^T *m (s^-1 *: B) = 0^T.
  by rewrite -scalemxAr trmx_mul -mulmxA PB mulmx0 scaler0 trmx0.
by have [<- _] := uk_uniq u h1 h2.
Qed.

Variables (m : nat) (Kit : 'M[R]_(n, m)) (Pt : 'M[R]_(m, q)).
Hypothesis u : uk_lhs K P \in unitmx.
Hypothesis u' : uk_lhs (s *: K) (P *m T) \in unitmx.
Lemma core_sol : uk_sol (s *: K) (P *m T) (s *: Kit) (Pt *m T) =
  col_mx (uk_lambda K P Kit Pt) (s *: (invmx T *m uk_mu K P Kit Pt)).
Proof.
have [e1 e2] := uk_eqs Kit Pt u.
have h1 : (s *: K) *m uk_lambda K P Kit Pt + (P *m T) *m (s *: (invmx T *m uk_mu K P Kit Pt)) = s *: Kit.
  by rewrite -scalemxAl -scalemxAr -mulmxA mulKVmx // -scalerDr e1.
have h2 : (P *m T)^T *m uk_lambda K P Kit Pt = (Pt *m T)^T.
  by rewrite !trmx_mul -mulmxA e2.
have [-> ->] := uk_uniq u' h1 h2.
by rewrite /uk_lambda /uk_mu vsubmxK.
Qed.
Lemma core_lambda : uk_lambda (s *: K) (P *m T) (s *: Kit) (Pt *m T) = uk_lambda K P Kit Pt.
Proof. by rewrite {1}/uk_lambda core_sol col_mxKu. Qed.
Lemma core_var j : einsum_ii (uk_sol (s *: K) (P *m T) (s *: Kit) (Pt *m T)) (uk_rhs (s *: Kit) (Pt *m T)) 0 j =
  s * einsum_ii (uk_sol K P Kit Pt) (uk_rhs Kit Pt) 0 j.
Proof.
rewrite !einsum_iiE core_sol /uk_rhs -[in RHS](vsubmxK (uk_sol K P Kit Pt)) -/(uk_lambda K P Kit Pt) -/(uk_mu K P Kit Pt).
rewrite !tr_col_mx !mul_row_col -scalemxAr linearZ /= -scalemxAl !trmx_mul mulmxA.
rewrite -[_ *m _ *m T^T]mulmxA -trmx_mul mulmxV // trmx1 mulmx1 -scalerDr.
by rewrite [LHS]mxE.
Qed.
End Core.
