(* LinkProofs.v: one observation less in the likelihoods (property C115). *)
From Coq Require Import Reals.
From mathcomp Require Import all_ssreflect all_algebra ring.
From Verif Require Import LinAlg KrigModel RealAux Rinst LikModel CholProofs LinQR KrigProofs KrigProofs2
  KrigProofs3 LooProofs PathProofs LikProofs OrderModel OrderProofs UpdProofs.
Set Implicit Arguments.
Unset Strict Implicit.
Unset Printing Implicit Defensive.
Import Order.TTheory GRing.Theory Num.Theory.
Local Open Scope ring_scope.
Local Arguments ln : clear scopes.

Section One.
Variables (R : rcfType) (n n1 q : nat) (f : 'I_n1 -> 'I_n) (i : 'I_n).
Hypothesis fi : injective f.
Hypothesis fni : forall l, f l != i.
Hypothesis fon : forall l, l != i -> exists a, f a = l.
Let S := sel R f.
Let e : 'cV[R]_n := delta_mx i 0.

Lemma one_Se : S^T *m e = 0.
Proof.
apply/matrixP => a b; rewrite -rows_ofE !mxE.
by rewrite (negbTE (fni a)).
Qed.
Lemma one_SS : S *m S^T = 1%:M - e *m e^T.
Proof.
apply/matrixP => a b; rewrite mxE msubE [1%:M a b]mxE.
have -> : (e *m e^T) a b = ((a == i) && (b == i))%:R.
  rewrite mxE big_ord1 !mxE eqxx !andbT; by case: (a == i); case: (b == i); rewrite ?mulr1 ?mulr0.
have [->|na] := eqVneq a i.
  rewrite big1 => [|l _]; last by rewrite !mxE eq_sym (negbTE (fni l)) mul0r.
  by rewrite eq_sym; case: (b == i); rewrite /= ?subrr ?subr0.
have [a' ea] := fon na; rewrite subr0 (bigD1 a') //= big1 => [|l nl].
  by rewrite !mxE ea eqxx mul1r addr0 eq_sym.
by rewrite !mxE -ea (inj_eq fi) eq_sym (negbTE nl) mul0r.
Qed.
End One.

(* the same, for any matrix S and vector e that split the identity *)
Section Algebra.
Variables (R : rcfType) (n n1 q : nat) (S : 'M[R]_(n, n1)) (e : 'cV[R]_n) (b : R).
Variables (K B : 'M[R]_n) (P : 'M[R]_(n, q)) (C : 'M[R]_(q, n)).
Hypothesis Se : S^T *m e = 0.
Hypothesis So : S^T *m S = 1%:M.
Hypothesis ee : e^T *m e = 1%:M.
Hypothesis SS : S *m S^T = 1%:M - e *m e^T.
Hypothesis sB : symmetric B.
Hypothesis PB : P^T *m B = 0.
Hypothesis KB : K *m B + P *m C = 1%:M.
Hypothesis eBe : e^T *m B *m e = b%:M.
Hypothesis b0 : b != 0.
Let K1 := S^T *m K *m S.
Let P1 := S^T *m P.
Hypothesis u1 : uk_lhs K1 P1 \in unitmx.
Let T := B - b^-1 *: (B *m e *m (e^T *m B)).

Lemma mul_c p (A : 'M[R]_(p, 1)) (c : R) : A *m c%:M = c *: A.
Proof. by apply/matrixP => i j; rewrite mxE big_ord1 ord1 !mxE eqxx mulr1n mulrC. Qed.
Lemma c_mul p (A : 'M[R]_(1, p)) (c : R) : c%:M *m A = c *: A.
Proof. exact: mul_scalar_mx. Qed.

Lemma T_e : T *m e = 0.
Proof.
rewrite /T mulmxBl -scalemxAl -(mulmxA (B *m e)) eBe mul_c scalerA mulVf // scale1r.
by rewrite subrr.
Qed.
Lemma e_T : e^T *m T = 0.
Proof.
rewrite /T mulmxBr -scalemxAr !mulmxA eBe -mulmxA c_mul scalerA mulVf // scale1r.
by rewrite subrr.
Qed.
Lemma SS_T : S *m S^T *m T = T.
Proof. by rewrite SS mulmxBl mul1mx -mulmxA e_T mulmx0 subr0. Qed.
Lemma T_SS : T *m (S *m S^T) = T.
Proof. by rewrite SS mulmxBr mulmx1 mulmxA T_e mul0mx subr0. Qed.
Lemma P_T : P^T *m T = 0.
Proof. by rewrite /T mulmxBr PB -scalemxAr !mulmxA PB !mul0mx scaler0 subr0. Qed.
Lemma K_T : S^T *m (K *m T) = S^T - P1 *m (C - b^-1 *: (C *m e *m (e^T *m B))).
Proof.
have eKB : K *m B = 1%:M - P *m C by rewrite -KB addrK.
rewrite /T mulmxBr -scalemxAr !mulmxA eKB mulmxBl mul1mx !mulmxBl.
rewrite mulmxBr (mulmxBr S^T 1%:M) mulmx1 -scalemxAr mulmxBr !mulmxA Se !mul0mx sub0r scalerN opprK /P1.
by rewrite mulmxBr -!scalemxAr !mulmxA opprB addrA addrAC.
Qed.

Lemma one_B (B1 : 'M[R]_n1) (C1 : 'M[R]_(q, n1)) :
  P1^T *m B1 = 0 -> K1 *m B1 + P1 *m C1 = 1%:M -> B1 = S^T *m T *m S.
Proof.
move=> h1 h2; rewrite -(trmx0 R n1 q) in h1.
have [-> _] := uk_uniq u1 h2 h1.
pose D := C - b^-1 *: (C *m e *m (e^T *m B)).
have g1 : P1^T *m (S^T *m T *m S) = 0^T.
  by rewrite trmx0 /P1 trmx_mul trmxK mulmxA -mulmxA mulmxA -(mulmxA P^T) [X in P^T *m X]mulmxA SS_T P_T mul0mx.
have g2 : K1 *m (S^T *m T *m S) + P1 *m (D *m S) = 1%:M.
  rewrite /K1 !mulmxA -(mulmxA _ S) -(mulmxA _ _ T) SS_T -(mulmxA S^T) K_T -/D.
  by rewrite mulmxBl So subrK.
by have [-> _] := uk_uniq u1 g2 g1.
Qed.

Lemma one_quad (B1 : 'M[R]_n1) (C1 : 'M[R]_(q, n1)) (z : 'cV[R]_n) :
  P1^T *m B1 = 0 -> K1 *m B1 + P1 *m C1 = 1%:M ->
  qform B z = qform B1 (S^T *m z) + ((e^T *m (B *m z)) 0 0) ^+ 2 / b.
Proof.
move=> h1 h2; rewrite (one_B h1 h2).
have -> : qform (S^T *m T *m S) (S^T *m z) = qform T z.
  rewrite qform_mul trmxK -!mulmxA T_SS mulmxA SS_T; done.
rewrite /T /qform bilin_addm bilin_oppm bilin_scalem.
have -> : bilin (B *m e *m (e^T *m B)) z z = ((e^T *m (B *m z)) 0 0) ^+ 2.
  rewrite /bilin; have -> : z^T *m (B *m e *m (e^T *m B)) *m z = (e^T *m (B *m z))^T *m (e^T *m (B *m z)).
    by rewrite !trmx_mul trmxK sB !mulmxA.
  by rewrite mxE big_ord1 [_^T 0 0]mxE expr2.
by rewrite [b^-1 * _]mulrC subrK.
Qed.

Lemma one_lam : uk_lambda K1 P1 (S^T *m (K *m e)) (e^T *m P) = - (b^-1 *: (S^T *m (B *m e))) /\
  uk_mu K1 P1 (S^T *m (K *m e)) (e^T *m P) = - (b^-1 *: (C *m e)).
Proof.
have eKB : K *m B = 1%:M - P *m C by rewrite -KB addrK.
have SSB : S *m (S^T *m (B *m e)) = B *m e - b *: e.
  by rewrite mulmxA SS mulmxBl mul1mx -mulmxA (mulmxA _ B) eBe mul_c.
have g1 : K1 *m - (b^-1 *: (S^T *m (B *m e))) + P1 *m - (b^-1 *: (C *m e)) = S^T *m (K *m e).
  rewrite !mulmxN -!scalemxAr /K1 -!mulmxA SSB mulmxBr mulmxBr.
  rewrite (mulmxA K B) eKB mulmxBl mul1mx mulmxBr Se sub0r -!scalemxAr.
  rewrite scalerBr scalerA mulVf // scale1r scalerN /P1 -!mulmxA opprB opprK.
  by rewrite -addrA subrr addr0.
have g2 : P1^T *m - (b^-1 *: (S^T *m (B *m e))) = (e^T *m P)^T.
  rewrite mulmxN -scalemxAr /P1 [(S^T *m P)^T]trmx_mul trmxK -mulmxA SSB mulmxBr mulmxA PB mul0mx sub0r.
  by rewrite -scalemxAr scalerN opprK scalerA mulVf // scale1r [in RHS]trmx_mul trmxK.
by have [<- <-] := uk_uniq u1 g1 g2.
Qed.

Lemma one_pred (z : 'cV[R]_n) :
  (uk_lambda K1 P1 (S^T *m (K *m e)) (e^T *m P))^T *m (S^T *m z) = e^T *m z - b^-1 *: (e^T *m (B *m z)).
Proof.
rewrite one_lam.1; have -> : (- (b^-1 *: (S^T *m (B *m e))))^T = - (b^-1 *: (e^T *m B *m S)).
  by rewrite linearN /= linearZ /= !trmx_mul trmxK sB.
rewrite mulNmx -scalemxAl -!mulmxA (mulmxA S) SS mulmxBl mul1mx !mulmxBr scalerBr opprB.
by rewrite -!mulmxA !(mulmxA e^T B) (mulmxA (e^T *m B)) eBe c_mul scalerA mulVf // scale1r.
Qed.

Lemma one_var : symmetric K ->
  (uk_sol K1 P1 (S^T *m (K *m e)) (e^T *m P))^T *m uk_rhs (S^T *m (K *m e)) (e^T *m P) =
  e^T *m K *m e - (b^-1)%:M.
Proof.
move=> sK; rewrite -[uk_sol _ _ _ _]vsubmxK -/(uk_lambda _ _ _ _) -/(uk_mu _ _ _ _).
have [-> ->] := one_lam.
rewrite /uk_rhs tr_col_mx mul_row_col.
have -> : (- (b^-1 *: (S^T *m (B *m e))))^T = - (b^-1 *: (e^T *m B *m S)).
  by rewrite linearN /= linearZ /= !trmx_mul trmxK sB.
rewrite mulNmx -scalemxAl -(mulmxA (e^T *m B)) (mulmxA S) SS mulmxBl mul1mx mulmxBr.
rewrite (mulmxA _ (e *m e^T)) (mulmxA _ e) eBe -(mulmxA _ e^T) c_mul.
rewrite scalerBr scalerA mulVf // scale1r opprB -addrA; congr (_ + _); first by rewrite mulmxA.
have -> : (- (b^-1 *: (C *m e)))^T = - (b^-1 *: (e^T *m C^T)) by rewrite linearN /= linearZ /= trmx_mul.
rewrite mulNmx -scalemxAl trmx_mul trmxK -opprD -scalerDr.
have -> : e^T *m B *m (K *m e) + e^T *m C^T *m (P^T *m e) = 1%:M.
  have hT : B *m K + C^T *m P^T = 1%:M.
    by have := congr1 trmx KB; rewrite (raddfD (trmx_additive _ _ _)) /= !trmx_mul sB sK trmx1.
  rewrite -!mulmxA -mulmxDr !(mulmxA _ _ e) -mulmxDl hT mul1mx; exact: ee.
by rewrite scalemx1.
Qed.
End Algebra.

(* determinants *)
Section Det.
Variable R : rcfType.

Lemma det_split n1 (A : 'M[R]_(1 + n1)) (S : 'M[R]_(1 + n1, n1)) (e : 'cV[R]_(1 + n1)) (b : R) :
  S^T *m e = 0 -> S^T *m S = 1%:M -> e^T *m e = 1%:M -> A \in unitmx -> e^T *m invmx A *m e = b%:M ->
  \det (S^T *m A *m S) = \det A * b.
Proof.
move=> Se So ee uA ie; pose O : 'M[R]_(1 + n1) := row_mx e S.
have eS : e^T *m S = 0 by rewrite -[S]trmxK -trmx_mul Se trmx0.
have OO : O^T *m O = 1%:M.
  by rewrite /O tr_row_mx mul_col_row ee So Se eS -scalar_mx_block.
have dO : \det O * \det O = 1.
  by have := congr1 (fun M => \det M) OO; rewrite det_mulmx det_tr det1.
have eM : O^T *m A *m O = block_mx (e^T *m A *m e) (e^T *m A *m S) (S^T *m A *m e) (S^T *m A *m S).
  by rewrite /O tr_row_mx mul_col_mx mul_col_row.
have eI : O^T *m invmx A *m O =
    block_mx b%:M (e^T *m invmx A *m S) (S^T *m invmx A *m e) (S^T *m invmx A *m S).
  by rewrite /O tr_row_mx mul_col_mx mul_col_row ie.
have dM : \det (O^T *m A *m O) = \det A by rewrite !det_mulmx det_tr mulrAC dO mul1r.
have MI : (O^T *m A *m O) *m (O^T *m invmx A *m O) = 1%:M.
  have OOt := mulmx1C OO; clear -OOt OO uA; clearbody O.
  by rewrite -!mulmxA (mulmxA O O^T) OOt mul1mx (mulmxA A) mulmxV // mul1mx.
rewrite -dM; move: MI; rewrite eI eM; move: (e^T *m A *m e) (e^T *m A *m S) (S^T *m A *m e) (S^T *m A *m S).
move=> m1 m2 m3 D; rewrite mulmx_block (scalar_mx_block 1 n1 1) => /eq_block_mx [h1 _ h3 _].
have E : block_mx m1 m2 m3 D *m block_mx b%:M 0 (S^T *m invmx A *m e) 1%:M = block_mx 1%:M m2 0 D.
  by rewrite mulmx_block h1 h3 !mulmx0 !mulmx1 !add0r.
have := congr1 (fun M => \det M) E; rewrite det_mulmx det_lblock det_ublock !det1 mulr1 mul1r.
by rewrite det_scalar1.
Qed.

Lemma det_one n n1 (en : n = n1.+1) (A : 'M[R]_n) (S : 'M[R]_(n, n1)) (e : 'cV[R]_n) (b : R) :
  S^T *m e = 0 -> S^T *m S = 1%:M -> e^T *m e = 1%:M -> A \in unitmx -> e^T *m invmx A *m e = b%:M ->
  \det (S^T *m A *m S) = \det A * b.
Proof. by subst n; exact: det_split. Qed.

(* the bordered matrix of the kriging system *)
Lemma det_lhs_one n n1 q (en : n = n1.+1) (S : 'M[R]_(n, n1)) (e : 'cV[R]_n) (b : R)
  (K B : 'M[R]_n) (P : 'M[R]_(n, q)) (C : 'M[R]_(q, n)) :
  S^T *m e = 0 -> S^T *m S = 1%:M -> e^T *m e = 1%:M ->
  P^T *m B = 0 -> K *m B + P *m C = 1%:M -> e^T *m B *m e = b%:M -> uk_lhs K P \in unitmx ->
  \det (uk_lhs (S^T *m K *m S) (S^T *m P)) = \det (uk_lhs K P) * b.
Proof.
move=> Se So ee PB KB eBe u.
pose S' : 'M[R]_(n + q, n1 + q) := block_mx S 0 0 1%:M.
pose e' : 'cV[R]_(n + q) := col_mx e 0.
have -> : uk_lhs (S^T *m K *m S) (S^T *m P) = S'^T *m uk_lhs K P *m S'.
  rewrite /uk_lhs /S' tr_block_mx !trmx0 trmx1 !mulmx_block !(mul0mx, mulmx0, addr0, add0r, mul1mx, mulmx1).
  by rewrite trmx_mul trmxK.
apply: (@det_one _ _ _ _ _ e').
- by rewrite en addSn.
- by rewrite /S' /e' tr_block_mx !trmx0 mul_block_col !(mul0mx, mulmx0, addr0) Se col_mx0.
- rewrite /S' tr_block_mx !trmx0 trmx1 mulmx_block !(mul0mx, mulmx0, addr0, add0r, mulmx1) So.
  by rewrite -scalar_mx_block.
- by rewrite /e' tr_col_mx mul_row_col ee trmx0 mul0mx addr0.
- exact: u.
rewrite -mulmxA; have -> : invmx (uk_lhs K P) *m e' = col_mx (B *m e) (C *m e).
  have E : uk_lhs K P *m col_mx (B *m e) (C *m e) = e'.
    by rewrite /uk_lhs mul_block_col !mulmxA PB -mulmxDl KB mul1mx !mul0mx addr0.
  by rewrite -E mulKmx.
by rewrite /e' tr_col_mx mul_row_col trmx0 mul0mx addr0 mulmxA eBe.
Qed.

Lemma lhs_shift n q (K : 'M[R]_n) (P : 'M[R]_(n, q)) (H : 'M[R]_(q, n)) :
  \det (uk_lhs (K + P *m H + H^T *m P^T) P) = \det (uk_lhs K P).
Proof.
have -> : uk_lhs (K + P *m H + H^T *m P^T) P = block_mx 1%:M H^T 0 1%:M *m uk_lhs K P *m block_mx 1%:M 0 H 1%:M.
  rewrite /uk_lhs !mulmx_block !(mul0mx, mulmx0, addr0, add0r, mul1mx, mulmx1).
  by rewrite addrAC.
by rewrite !det_mulmx det_ublock det_lblock !det1 !mulr1 mul1r.
Qed.
End Det.

Lemma half_id (R : rcfType) n (a b c d A : 'M[R]_n) :
  a + b + (c + d) - (b + 2%:R^-1 *: a - 2%:R^-1 *: A) - (c + 2%:R^-1 *: a - 2%:R^-1 *: A) = d + A.
Proof.
have h (u v w x y : R) : u + v + (w + x) - (v + 2%:R^-1 * u - 2%:R^-1 * y) - (w + 2%:R^-1 * u - 2%:R^-1 * y) = x + y.
  by field.
by apply/matrixP => i j; rewrite !mxE; exact: h.
Qed.

Lemma unit_split (R : rcfType) n r (A B K : 'M[R]_n) (W : 'M[R]_(n, r)) (G : 'M[R]_r) :
  A *m W = 0 -> B *m W = W -> B *m A = 0 -> A *m A = A -> B *m K *m W = W *m G -> W *m W^T = B ->
  G \in unitmx -> A + B = 1%:M -> B *m K *m B + A \in unitmx.
Proof.
move=> AW BW BA AA BKW WW uG AB.
have E : (B *m K *m B + A) *m (W *m invmx G *m W^T + A) = 1%:M.
  rewrite mulmxDl !mulmxDr AA !mulmxA AW !mul0mx add0r -(mulmxA _ B W) BW -(mulmxA _ B A) BA mulmx0 addr0.
  by rewrite BKW -(mulmxA W) mulmxV // mulmx1 WW addrC AB.
by have [] := mulmx1_unit E.
Qed.

(* determinant of the contrasts *)
Lemma det_lhs_G (q r : nat) (K : 'M[R]_(q + r)) (P : 'M[R]_(q + r, q)) QR :
  is_qr P QR -> full_col_rank P -> symmetric K ->
  let G := (rsubmx QR.1)^T *m (K *m rsubmx QR.1) in
  G \in unitmx -> (-1) ^+ q * \det (uk_lhs K P) = \det G * \det (P^T *m P).
Proof.
move=> qrP fP sK G uG.
have [eP QQ WW QW QQW] := qr_blocks qrP; have uR := qr_Rq_unit qrP fP.
pose W := rsubmx QR.1; pose Q1 := lsubmx QR.1; pose Rq := usubmx QR.2.
pose A := Q1 *m Q1^T; pose B := W *m W^T.
have AB : A + B = 1%:M by exact: QQW.
have sA : A^T = A by rewrite trmx_mul trmxK.
have sB : B^T = B by rewrite trmx_mul trmxK.
have eA : P *m (invmx Rq *m Q1^T) = A by rewrite eP -mulmxA (mulmxA Rq) mulmxV // mul1mx.
pose Y := K *m B + 2%:R^-1 *: (K *m A) - 2%:R^-1 *: 1%:M.
pose H := - (invmx Rq *m Q1^T *m Y).
have PH : P *m H = - (A *m Y) by rewrite mulmxN !mulmxA -(mulmxA P) eA.
have HP : H^T *m P^T = - (Y^T *m A) by rewrite -trmx_mul PH linearN /= trmx_mul sA.
have K'E : K + P *m H + H^T *m P^T = B *m K *m B + A.
  have eK : K = A *m K *m A + A *m K *m B + (B *m K *m A + B *m K *m B).
    by rewrite -!mulmxDr AB !mulmx1 -mulmxDl AB mul1mx.
  have e1 : A *m Y = A *m K *m B + 2%:R^-1 *: (A *m K *m A) - 2%:R^-1 *: A.
    by rewrite /Y mulmxBr mulmxDr -!scalemxAr mulmx1 !mulmxA.
  have e2 : Y^T *m A = B *m K *m A + 2%:R^-1 *: (A *m K *m A) - 2%:R^-1 *: A.
    rewrite /Y (raddfB (trmx_additive _ _ _)) /= (raddfD (trmx_additive _ _ _)) /= !linearZ /= (trmx_mul K B) (trmx_mul K A).
    by rewrite sK sA sB trmx1 !mulmxDl -!scalemxAl mulNmx mul1mx.
  rewrite PH HP e1 e2 {1}eK; move: (A *m K *m A) (A *m K *m B) (B *m K *m A) (B *m K *m B) => a b c d.
  exact: half_id.
have WA : W^T *m A = 0 by rewrite /A mulmxA -[W^T *m Q1]trmxK trmx_mul trmxK QW trmx0 mul0mx.
have AW : A *m W = 0 by rewrite -[A *m W]trmxK trmx_mul sA WA trmx0.
have BW : B *m W = W by rewrite /B -mulmxA WW mulmx1.
have WB : W^T *m B = W^T by rewrite /B mulmxA WW mul1mx.
have AA : A *m A = A by rewrite /A -mulmxA (mulmxA Q1^T) QQ mul1mx.
have uK' : K + P *m H + H^T *m P^T \in unitmx.
  rewrite K'E; apply: (@unit_split _ _ _ A B K W G) => //.
    by rewrite /B -mulmxA WA mulmx0.
  by rewrite /B /G !mulmxA.
have eG : W^T *m ((K + P *m H + H^T *m P^T) *m W) = G.
  rewrite K'E mulmxDl AW addr0 -(mulmxA (B *m K) B) BW -(mulmxA B K) (mulmxA W^T B) WB; exact: erefl.
rewrite -(lhs_shift K P H); move: uK' eG; move: (K + P *m H + H^T *m P^T) => K' uK' eG.
have := contrast_det uK' qrP; rewrite -/W /= eG => ->.
rewrite /uk_lhs det_schur // sub0r mulrCA; congr (_ * _).
by rewrite -scaleN1r detZ mulrA -exprD addnn -mul2n exprM sqrrN !expr1n mul1r.
Qed.

Lemma link_id (F : rcfType) (N L lD lT lT1 lb qB1 w : F) :
  ((N + 1) * L + (lD - lT) + (qB1 + w)) / 2%:R =
  (N * L + (lD + lb - lT1) + qB1) / 2%:R + (L - lb + w) / 2%:R + (lT1 - lT) / 2%:R.
Proof. by rewrite -!mulrDl; congr (_ / _); ring. Qed.
