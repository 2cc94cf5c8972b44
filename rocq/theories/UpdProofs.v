(* UpdProofs.v: adding and removing observations (property C113). *)
From Coq Require Import Reals.
From mathcomp Require Import all_ssreflect all_fingroup all_algebra.
From Verif Require Import LinAlg KrigModel CholProofs LinQR KrigProofs KrigProofs2
  KrigProofs3 LooProofs OrderModel OrderProofs.
Set Implicit Arguments.
Unset Strict Implicit.
Unset Printing Implicit Defensive.
Import Order.TTheory GRing.Theory Num.Theory.
Local Open Scope ring_scope.

Section Upd.
Variable R : rcfType.
Implicit Types (n m k q : nat).

Lemma sel_inj_orth n k (f : 'I_k -> 'I_n) : injective f -> (sel R f)^T *m sel R f = 1%:M.
Proof.
move=> fi; rewrite -rows_ofE; apply/matrixP => i j; rewrite !mxE (inj_eq fi); by case: eqP.
Qed.

Lemma sub_pd n k (f : 'I_k -> 'I_n) (K : 'M[R]_n) : injective f -> pos_def K ->
  pos_def ((sel R f)^T *m K *m sel R f).
Proof. by move=> fi pK; apply: pd_congr => //; apply: orth_full_rank; exact: sel_inj_orth. Qed.

Lemma sub_cpd n k q (f : 'I_k -> 'I_n) (K : 'M[R]_n) (P : 'M[R]_(n, q)) : injective f ->
  cond_pos_def K P -> cond_pos_def ((sel R f)^T *m K *m sel R f) ((sel R f)^T *m P).
Proof.
move=> fi [sK pK]; split; first by rewrite /symmetric !trmx_mul trmxK sK mulmxA.
move=> x Px xn; rewrite -qform_mul; apply: pK.
  by move: Px; rewrite trmx_mul trmxK mulmxA.
by apply: contra xn => /eqP /(orth_full_rank (sel_inj_orth fi)) ->.
Qed.

(* the whole design has full rank when a part of it has *)
Lemma sub_rank n k q (f : 'I_k -> 'I_n) (P : 'M[R]_(n, q)) :
  full_col_rank ((sel R f)^T *m P) -> full_col_rank P.
Proof. by move=> h b Pb; apply: h; rewrite -mulmxA Pb mulmx0. Qed.

(* zero mean as a trend with no basis function *)
Lemma zm_uk n m (K : 'M[R]_n) (Kit : 'M[R]_(n, m)) : pos_def K ->
  zm_lambda K Kit = uk_lambda K (0 : 'M[R]_(n, 0)) Kit 0 /\
  forall j, einsum_ii (zm_lambda K Kit) Kit 0 j =
    einsum_ii (uk_sol K (0 : 'M[R]_(n, 0)) Kit 0) (uk_rhs Kit 0) 0 j.
Proof.
move=> pK.
have u : uk_lhs K (0 : 'M[R]_(n, 0)) \in unitmx.
  by apply: uk_lhs_unit; [exact: pd_cpd | move=> b _; apply/colP => -[]].
have [e1 e2] : zm_lambda K Kit = uk_lambda K (0 : 'M[R]_(n, 0)) Kit 0 /\
    (0 : 'M[R]_(0, m)) = uk_mu K (0 : 'M[R]_(n, 0)) Kit 0.
  apply: uk_uniq => //; first by rewrite mulmx0 addr0 /zm_lambda mulKVmx // pd_unit.
  by rewrite !trmx0 mul0mx.
split=> // j; rewrite !einsum_iiE uk_sol_rhs -e1 -e2.
by rewrite !trmx0 mulmx0 addr0.
Qed.

(* the data side of the block system: lam' z = Kit' b + Pt beta *)
Lemma uk_dual n q m (K : 'M[R]_n) (P : 'M[R]_(n, q)) (Kit : 'M[R]_(n, m)) Pt b beta (z : 'cV[R]_n) :
  symmetric K -> uk_lhs K P \in unitmx -> K *m b + P *m beta = z -> P^T *m b = 0 ->
  (uk_lambda K P Kit Pt)^T *m z = Kit^T *m b + Pt *m beta.
Proof.
move=> sK u <- Pb; have [e1 e2] := uk_eqs Kit Pt u.
rewrite mulmxDr !mulmxA; congr (_ + _).
  have -> : (uk_lambda K P Kit Pt)^T *m K = (K *m uk_lambda K P Kit Pt)^T by rewrite trmx_mul sK.
  have -> : K *m uk_lambda K P Kit Pt = Kit - P *m uk_mu K P Kit Pt by apply/eqP; rewrite eq_sym subr_eq e1.
  by rewrite (raddfB (trmx_additive _ _ _)) /= mulmxBl trmx_mul -mulmxA Pb mulmx0 subr0.
by have := congr1 trmx e2; rewrite trmx_mul !trmxK => ->.
Qed.

Lemma uk_dual_ex n q (K : 'M[R]_n) (P : 'M[R]_(n, q)) (z : 'cV[R]_n) : uk_lhs K P \in unitmx ->
  exists b beta, K *m b + P *m beta = z /\ P^T *m b = 0.
Proof.
move=> u; exists (uk_lambda K P z (0 : 'M[R]_(1, q))), (uk_mu K P z (0 : 'M[R]_(1, q))).
by have := uk_eqs z (0 : 'M[R]_(1, q)) u; rewrite trmx0.
Qed.

Section Sub.
Variables (n k q m : nat) (f : 'I_k -> 'I_n).
Variables (K : 'M[R]_n) (P : 'M[R]_(n, q)) (Kit : 'M[R]_(n, m)) (Pt : 'M[R]_(m, q)).
Hypothesis fi : injective f.
Hypothesis cK : cond_pos_def K P.
Hypothesis fP : full_col_rank ((sel R f)^T *m P).
Let S := sel R f.
Let K1 := S^T *m K *m S.
Let P1 := S^T *m P.
Let Kit1 := S^T *m Kit.
Let uF : uk_lhs K P \in unitmx := uk_lhs_unit cK (sub_rank fP).
Let uS : uk_lhs K1 P1 \in unitmx := uk_lhs_unit (sub_cpd fi cK) fP.

(* believing the predictions *)
Lemma sub_believe (z : 'cV[R]_n) (Kx : 'M[R]_(k, n)) :
  (forall l a, (forall i, f i != l) -> Kx a l = (S^T *m K) a l) ->
  (forall l, (forall i, f i != l) ->
     z l 0 = ((uk_lambda K1 P1 Kx P)^T *m (S^T *m z)) l 0) ->
  (uk_lambda K P Kit Pt)^T *m z = (uk_lambda K1 P1 Kit1 Pt)^T *m (S^T *m z).
Proof.
move=> hx h; have [b [beta [e1 e2]]] := uk_dual_ex (S^T *m z) uS.
have sK1 : symmetric K1 by exact: (sub_cpd fi cK).1.
have eF : K *m (S *m b) + P *m beta = z.
  apply/colP => l; have [/existsP [i /eqP <-]|/existsPn nl] := boolP [exists i, f i == l].
    have := e1; rewrite /K1 /P1 -!mulmxA -mulmxDr => /colP /(_ i).
    by rewrite -!rows_ofE mxE [RHS]mxE.
  rewrite (h l nl) (uk_dual Kx P sK1 uS e1 e2) !maddE; congr (_ + _).
  have -> : K *m (S *m b) = (S^T *m K)^T *m b by rewrite trmx_mul trmxK cK.1 mulmxA.
  by rewrite [LHS]mxE [RHS]mxE; apply: eq_bigr => a _; rewrite 2![_^T l a]mxE (hx _ _ nl).
have eP : P^T *m (S *m b) = 0 by move: e2; rewrite /P1 trmx_mul trmxK mulmxA.
rewrite (uk_dual Kit Pt cK.1 uF eF eP) (uk_dual Kit1 Pt sK1 uS e1 e2).
by rewrite /Kit1 trmx_mul trmxK -mulmxA.
Qed.

(* fewer observations never give a smaller variance *)
Lemma sub_var_le (tt : 'rV[R]_m) j :
  (tt - einsum_ii (uk_sol K P Kit Pt) (uk_rhs Kit Pt)) 0 j <=
  (tt - einsum_ii (uk_sol K1 P1 Kit1 Pt) (uk_rhs Kit1 Pt)) 0 j.
Proof.
pose D := diag_mx tt.
have ett : tt_pairwise (PriorTT tt D) = diag_of D by apply/rowP => l; rewrite /= !mxE eqxx.
have [lam [v [E H]]] := uk_blup Kit Pt cK (sub_rank fP) ett.
have [lam1 [v1 [E1 H1]]] := uk_blup Kit1 Pt (sub_cpd fi cK) fP ett.
move: E E1; rewrite !krig_block_ok0 // => -[_ ->] [_ ->].
have [ub ev opt] := H j; have [ub1 -> _] := H1 j.
have mE : mse (joint K Kit D) (S *m col j lam1) j = mse (joint K1 Kit1 D) (col j lam1) j.
  rewrite !mseE -qform_mul; congr (_ - _ * _ + _).
  by rewrite /bilin !mulmx1 trmx_mul -mulmxA -col_mulmx.
have ubS : unbiased P Pt (S *m col j lam1) j.
  by apply/unbiasedE; move/unbiasedE: ub1; rewrite /P1 trmx_mul trmxK mulmxA.
rewrite -mE; have [->|nw] := eqVneq (S *m col j lam1) (col j lam); first by rewrite ev.
exact: ltW (opt _ ubS nw).
Qed.

(* removing one observation *)
Section One.
Variables (i : 'I_n) (B : 'M[R]_n) (C : 'M[R]_(q, n)).
Hypothesis fni : forall l, f l != i.
Hypothesis fon : forall l, l != i -> exists a, f a = l.
Hypothesis sB : symmetric B.
Hypothesis PB : P^T *m B = 0.
Hypothesis KB : K *m B + P *m C = 1%:M.
Hypothesis Bii : B i i != 0.

Lemma sub_one : let lam := uk_lambda K P Kit Pt in
  [/\ forall a j, uk_lambda K1 P1 Kit1 Pt a j = lam (f a) j - lam i j * B (f a) i / B i i,
      forall z j, ((uk_lambda K1 P1 Kit1 Pt)^T *m (S^T *m z)) j (0 : 'I_1) =
        (lam^T *m z) j 0 - lam i j * ((B *m z) i 0 / B i i)
    & forall tt j, (tt - einsum_ii (uk_sol K1 P1 Kit1 Pt) (uk_rhs Kit1 Pt)) 0 j =
        (tt - einsum_ii (uk_sol K P Kit Pt) (uk_rhs Kit Pt)) 0 j + lam i j ^+ 2 * (1 / B i i)].
Proof.
have [e1 e2] := uk_eqs Kit Pt uF; move: e1 e2.
move E1: (uk_lambda K P Kit Pt) => lam; move E2: (uk_mu K P Kit Pt) => mu e1 e2 /=.
pose L := lam - col i B *m ((B i i)^-1 *: row i lam).
pose M := mu - col i C *m ((B i i)^-1 *: row i lam).
have LE a j : L a j = lam a j - lam i j * B a i / B i i.
  rewrite /L msubE; congr (_ - _); rewrite mxE big_ord1 !mxE.
  by rewrite mulrA mulrC mulrA.
have Li j : L i j = 0 by rewrite LE mulfK // subrr.
have KL : K *m L + P *m M = Kit - delta_mx i 0 *m ((B i i)^-1 *: row i lam).
  rewrite /L /M !mulmxBr addrACA e1 -opprD !mulmxA -mulmxDl -!col_mulmx.
  rewrite -(raddfD (@col_additive _ _ _ i)) /= KB; congr (_ - _ *m _).
  by apply/colP => a; rewrite !mxE andbT.
have PL : P^T *m L = Pt^T by rewrite /L mulmxBr e2 mulmxA -col_mulmx PB col0 mul0mx subr0.
have SL : S *m (S^T *m L) = L.
  apply/matrixP => a j; rewrite mxE; have [->|/fon [b <-]] := eqVneq a i.
    by rewrite Li big1 // => l _; rewrite !mxE eq_sym (negbTE (fni l)) mul0r.
  rewrite (bigD1 b) //= big1 => [|l nl].
    by rewrite addr0 -[S^T]/((sel R f)^T) -rows_ofE !mxE eqxx mul1r.
  by rewrite !mxE (inj_eq fi) [b == l]eq_sym (negbTE nl) mul0r.
have Sd : S^T *m (delta_mx i 0 : 'cV[R]_n) = 0.
  apply/colP => a; rewrite /S -rows_ofE !mxE andbT; by rewrite (negbTE (fni a)).
have [eL eM] : S^T *m L = uk_lambda K1 P1 Kit1 Pt /\ M = uk_mu K1 P1 Kit1 Pt.
  apply: uk_uniq uS _ _; last by rewrite /P1 trmx_mul trmxK -mulmxA SL.
  by rewrite /K1 /P1 -!mulmxA SL -mulmxDr KL mulmxBr [_ *m (_ *m _)]mulmxA Sd mul0mx subr0.
split=> [a j|z j|tt j].
- by rewrite -eL /S -rows_ofE mxE LE.
- rewrite -eL trmx_mul trmxK mulmxA -[_ *m S *m S^T]mulmxA.
  have -> : L^T *m (S *m S^T) = L^T.
    by rewrite -[in RHS]SL !trmx_mul trmxK mulmxA.
  have -> : (L^T *m z) j 0 = \sum_a (lam a j - lam i j * B a i / B i i) * z a 0.
    by rewrite mxE; apply: eq_bigr => a _; rewrite mxE LE.
  have -> : (lam^T *m z) j 0 = \sum_a lam a j * z a 0 by rewrite mxE; apply: eq_bigr => a _; rewrite mxE.
  have -> : (B *m z) i 0 = \sum_a B a i * z a 0.
    by rewrite mxE; apply: eq_bigr => a _; rewrite -[in LHS]sB mxE.
  rewrite mulr_suml mulr_sumr -sumrB; apply: eq_bigr => a _; rewrite mulrBl; congr (_ - _).
  by rewrite -!mulrA; congr (_ * (_ * _)); rewrite mulrC.
- rewrite !rsubE !einsum_iiE !uk_sol_rhs -eL -eM E1 E2.
  have -> : (S^T *m L)^T *m Kit1 = L^T *m Kit.
    rewrite /Kit1 trmx_mul trmxK mulmxA -[_ *m S *m S^T]mulmxA.
    have -> : L^T *m (S *m S^T) = L^T by rewrite -[in RHS]SL !trmx_mul trmxK mulmxA.
    by [].
  have id : B *m Kit + C^T *m Pt^T = lam.
    have KBt : B *m K + C^T *m P^T = 1%:M.
      have := congr1 trmx KB; rewrite (raddfD (trmx_additive _ _ _)) /= !trmx_mul sB cK.1.
      by rewrite tr_scalar_mx.
    have BP : B *m P = 0 by rewrite -[B]sB -[P]trmxK -trmx_mul PB trmx0.
    rewrite -e1 -e2 mulmxDr !mulmxA BP mul0mx addr0 -mulmxDl KBt mul1mx //.
  have -> : L^T *m Kit + M^T *m Pt^T = lam^T *m Kit + mu^T *m Pt^T -
      ((B i i)^-1 *: row i lam)^T *m row i lam.
    rewrite /L /M !(raddfB (trmx_additive _ _ _)) /= !mulmxBl addrACA -opprD; congr (_ - _).
    rewrite !trmx_mul -!mulmxA -mulmxDr; congr (_ *m _).
    rewrite !tr_col sB -!row_mul -(raddfD (@row_additive _ _ _ i)) /= id //.
  rewrite msubE opprD addrA; congr (_ + _); rewrite opprK mxE big_ord1 !mxE.
  by rewrite expr2 mul1r mulrC -mulrA; congr (_ * _); rewrite mulrC.
Qed.
End One.
End Sub.
End Upd.
