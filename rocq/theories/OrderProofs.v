(* OrderProofs.v: reordering the observations (property C112). *)
From Coq Require Import Reals.
From mathcomp Require Import all_ssreflect all_fingroup all_algebra.
From Verif Require Import LinAlg KrigModel RealAux Rinst LikModel CholProofs LinQR KrigProofs KrigProofs2
  KrigProofs3 LooProofs PathProofs LikProofs OrderModel.
Set Implicit Arguments.
Unset Strict Implicit.
Unset Printing Implicit Defensive.
Import Order.TTheory GRing.Theory Num.Theory.
Local Open Scope ring_scope.
Local Arguments ln : clear scopes.

Section Sel.
Variable R : rcfType.
Implicit Types (n m p : nat).

(* reordered rows, reordered rows and columns, selected columns *)
Definition rows_of n m k (f : 'I_k -> 'I_n) (A : 'M[R]_(n, m)) : 'M[R]_(k, m) := \matrix_(i, j) A (f i) j.
Definition cols_of n m k (g : 'I_k -> 'I_m) (A : 'M[R]_(n, m)) : 'M[R]_(n, k) := \matrix_(i, j) A i (g j).
Definition both_of n k (f : 'I_k -> 'I_n) (A : 'M[R]_n) : 'M[R]_k := \matrix_(i, j) A (f i) (f j).
Definition sel m k (g : 'I_k -> 'I_m) : 'M[R]_(m, k) := \matrix_(i, j) (i == g j)%:R.

Lemma cols_ofE n m k (g : 'I_k -> 'I_m) (A : 'M[R]_(n, m)) : cols_of g A = A *m sel g.
Proof.
apply/matrixP => i j; rewrite !mxE (bigD1 (g j)) //= mxE eqxx mulr1 big1 ?addr0 // => l ln0.
by rewrite mxE (negbTE ln0) mulr0.
Qed.
Lemma rows_ofE n m k (f : 'I_k -> 'I_n) (A : 'M[R]_(n, m)) : rows_of f A = (sel f)^T *m A.
Proof.
apply/matrixP => i j; rewrite !mxE (bigD1 (f i)) //= !mxE eqxx mul1r big1 ?addr0 // => l ln0.
by rewrite !mxE (negbTE ln0) mul0r.
Qed.
Lemma both_ofE n k (f : 'I_k -> 'I_n) (A : 'M[R]_n) : both_of f A = (sel f)^T *m A *m sel f.
Proof. by rewrite -rows_ofE -cols_ofE; apply/matrixP => i j; rewrite !mxE. Qed.

Lemma sel_orth n (s : 'S_n) : (sel s)^T *m sel s = 1%:M.
Proof.
rewrite -rows_ofE; apply/matrixP => i j; rewrite !mxE (inj_eq perm_inj); by case: eqP.
Qed.
Lemma sel_orth' n (s : 'S_n) : sel s *m (sel s)^T = 1%:M.
Proof. exact: mulmx1C (sel_orth s). Qed.

(* --- an orthogonal change of basis O^T A O --- *)
Section Orth.
Variables (n : nat) (O : 'M[R]_n).
Hypothesis oO : O^T *m O = 1%:M.
Let oO' : O *m O^T = 1%:M := mulmx1C oO.

Lemma orth_full : full_col_rank O.
Proof. exact: orth_full_rank oO. Qed.
Lemma orthT_full : full_col_rank O^T.
Proof. by apply: orth_full_rank; rewrite trmxK. Qed.

Lemma orth_back (A : 'M[R]_n) : (O^T)^T *m (O^T *m A *m O) *m O^T = A.
Proof. by rewrite trmxK !mulmxA oO' mul1mx -mulmxA oO' mulmx1. Qed.

Lemma orth_pd (A : 'M[R]_n) : pos_def (O^T *m A *m O) <-> pos_def A.
Proof.
split=> h; last exact: pd_congr orth_full.
by rewrite -(orth_back A); exact: pd_congr orthT_full.
Qed.

Lemma orth_symm (A : 'M[R]_n) : symmetric A -> symmetric (O^T *m A *m O).
Proof. by move=> sA; rewrite /symmetric !trmx_mul trmxK sA mulmxA. Qed.

Lemma orth_unit (A : 'M[R]_n) : (O^T *m A *m O \in unitmx) = (A \in unitmx).
Proof.
have [uT uO] := mulmx1_unit oO.
by rewrite !unitmx_mul uT uO andbT.
Qed.

Lemma orth_inv (A : 'M[R]_n) : invmx (O^T *m A *m O) = O^T *m invmx A *m O.
Proof.
have [uA|nA] := boolP (A \in unitmx); last first.
  have nA' : O^T *m A *m O \notin unitmx by rewrite orth_unit.
  by rewrite (invmx_out nA) (invmx_out nA').
have e : O^T *m A *m O *m (O^T *m invmx A *m O) = 1%:M.
  by rewrite !mulmxA -[_ *m O *m O^T]mulmxA oO' mulmx1 -[_ *m A *m invmx A]mulmxA mulmxV // mulmx1.
have u := (mulmx1_unit e).1.
by rewrite -[RHS](mulKmx u) e mulmx1.
Qed.

Lemma orth_cond p (A : 'M[R]_n) (P : 'M[R]_(n, p)) : cond_pos_def A P ->
  cond_pos_def (O^T *m A *m O) (O^T *m P).
Proof.
case=> sA pA; split; first exact: orth_symm.
move=> x Px xn; rewrite -qform_mul; apply: pA.
  by move: Px; rewrite trmx_mul trmxK mulmxA.
by apply: contra xn => /eqP /orth_full ->.
Qed.

Lemma orth_rank p (P : 'M[R]_(n, p)) : full_col_rank P -> full_col_rank (O^T *m P).
Proof. by move=> fP v; rewrite -mulmxA => /orthT_full /fP. Qed.

Lemma orth_chol_none (A : 'M[R]_n) : symmetric A -> chol (O^T *m A *m O) = None <-> chol A = None.
Proof.
move=> sA; rewrite (chol_none_iff sA) (chol_none_iff (orth_symm sA)).
by split=> h /orth_pd; apply: h => //; apply/orth_pd.
Qed.
End Orth.


(* --- solving after an orthogonal change of basis and a selection of columns --- *)
Lemma orth_sol n m k (O A : 'M[R]_n) (B : 'M[R]_(n, m)) (G : 'M[R]_(m, k)) : O^T *m O = 1%:M ->
  invmx (O^T *m A *m O) *m (O^T *m B *m G) = O^T *m (invmx A *m B) *m G.
Proof.
by move=> oO; rewrite orth_inv // !mulmxA -[_ *m O *m O^T]mulmxA (mulmx1C oO) mulmx1.
Qed.

Lemma orth_einsum n m k (O : 'M[R]_n) (L B : 'M[R]_(n, m)) (g : 'I_k -> 'I_m) j : O^T *m O = 1%:M ->
  einsum_ii (O^T *m L *m sel g) (O^T *m B *m sel g) 0 j = einsum_ii L B 0 (g j).
Proof.
move=> oO; rewrite !einsum_iiE !trmx_mul trmxK !mulmxA.
rewrite -[_ *m O *m O^T]mulmxA (mulmx1C oO) mulmx1 -cols_ofE -!mulmxA -rows_ofE.
by rewrite 2!mxE.
Qed.

Lemma orth_einsumz n m k (O : 'M[R]_n) (L : 'M[R]_(n, m)) (z : 'cV[R]_n) (g : 'I_k -> 'I_m) j : O^T *m O = 1%:M ->
  einsum_iz (O^T *m L *m sel g) (O^T *m z) 0 j = einsum_iz L z 0 (g j).
Proof.
move=> oO; rewrite !einsum_izE !trmx_mul trmxK !mulmxA.
by rewrite -[_ *m O *m O^T]mulmxA (mulmx1C oO) mulmx1 -mulmxA -rows_ofE mxE.
Qed.

(* the block system *)
Definition ext q n (O : 'M[R]_n) : 'M[R]_(n + q) := block_mx O 0 0 1%:M.
Lemma ext_orth q n (O : 'M[R]_n) : O^T *m O = 1%:M -> (ext q O)^T *m ext q O = 1%:M.
Proof.
move=> oO; rewrite /ext tr_block_mx !trmx0 trmx1 mulmx_block oO !mulmx0 !mul0mx mul1mx !addr0 add0r.
by rewrite -scalar_mx_block.
Qed.
Lemma ext_lhs n q (O K : 'M[R]_n) (P : 'M[R]_(n, q)) :
  uk_lhs (O^T *m K *m O) (O^T *m P) = (ext q O)^T *m uk_lhs K P *m ext q O.
Proof.
rewrite /uk_lhs /ext tr_block_mx !trmx0 trmx1 !mulmx_block.
rewrite !mulmx0 !mul0mx !mul1mx !mulmx1 !addr0 !add0r ?mul0mx ?mulmx0 ?addr0.
by rewrite trmx_mul trmxK.
Qed.
Lemma ext_rhs n q m k (O : 'M[R]_n) (Kit : 'M[R]_(n, m)) (Pt : 'M[R]_(m, q)) (g : 'I_k -> 'I_m) :
  uk_rhs (O^T *m Kit *m sel g) (rows_of g Pt) = (ext q O)^T *m uk_rhs Kit Pt *m sel g.
Proof.
rewrite /uk_rhs /ext tr_block_mx !trmx0 trmx1 mul_block_col !mul0mx mul1mx addr0 add0r mul_col_mx.
by rewrite rows_ofE trmx_mul trmxK.
Qed.
Lemma ext_usub n q m k (O : 'M[R]_n) (S : 'M[R]_(n + q, m)) (g : 'I_k -> 'I_m) :
  usubmx ((ext q O)^T *m S *m sel g) = O^T *m usubmx S *m sel g.
Proof.
rewrite -[S]vsubmxK /ext tr_block_mx !trmx0 trmx1 mul_block_col !mul0mx mul1mx addr0 add0r mul_col_mx.
by rewrite !col_mxKu.
Qed.

(* the matrix of the universal leave-one-out formulas is carried along *)
Lemma order_B n q (O K B B' : 'M[R]_n) (P : 'M[R]_(n, q)) C C' : O^T *m O = 1%:M ->
  uk_lhs (O^T *m K *m O) (O^T *m P) \in unitmx ->
  P^T *m B = 0 -> K *m B + P *m C = 1%:M ->
  (O^T *m P)^T *m B' = 0 -> O^T *m K *m O *m B' + O^T *m P *m C' = 1%:M ->
  B' = O^T *m B *m O.
Proof.
move=> oO u PB KB PB' KB'; have oO' := mulmx1C oO.
have t1 : (O^T *m P)^T *m B' = (0 : 'M[R]_(n, q))^T by rewrite trmx0.
have t2 : (O^T *m P)^T *m (O^T *m B *m O) = (0 : 'M[R]_(n, q))^T.
  by rewrite trmx0 trmx_mul trmxK !mulmxA -[_ *m O *m _]mulmxA oO' mulmx1 PB mul0mx.
have e2 : O^T *m K *m O *m (O^T *m B *m O) + O^T *m P *m (C *m O) = 1%:M.
  rewrite !mulmxA -[_ *m O *m O^T]mulmxA oO' mulmx1.
  by rewrite -mulmxDl -!(mulmxA O^T) -mulmxDr KB mulmx1.
by have [-> _] := uk_uniq u KB' t1; have [-> _] := uk_uniq u e2 t2.
Qed.
Lemma order_Bz n (O B : 'M[R]_n) (z : 'cV[R]_n) : O^T *m O = 1%:M ->
  O^T *m B *m O *m (O^T *m z) = O^T *m (B *m z).
Proof. by move=> oO; rewrite !mulmxA -[_ *m O *m _]mulmxA (mulmx1C oO) mulmx1. Qed.
End Sel.

Section Points.
Variables (R : rcfType) (X : Type).
Variable c : kernel R X.
Implicit Types (n m k : nat).

Lemma cov_same_order n (x : 'I_n -> X) (s : 'S_n) :
  cov_same c (fun i => x (s i)) = (sel R s)^T *m cov_same c x *m sel R s.
Proof.
by rewrite -both_ofE; apply/matrixP => i j; rewrite !mxE (inj_eq perm_inj).
Qed.
Lemma cov_cross_order n m k (x : 'I_n -> X) (xt : 'I_m -> X) (s : 'S_n) (g : 'I_k -> 'I_m) :
  cov_cross c (fun i => x (s i)) (fun j => xt (g j)) = (sel R s)^T *m cov_cross c x xt *m sel R g.
Proof. by rewrite -rows_ofE -cols_ofE; apply/matrixP => i j; rewrite !mxE. Qed.
Lemma design_order q p n (x : 'I_n -> X) (s : 'S_n) :
  design p (fun i => x (s i)) = (sel R s)^T *m @design R X q p n x.
Proof. by rewrite -rows_ofE; apply/matrixP => i j; rewrite !mxE. Qed.
Lemma mean_col_order f n (x : 'I_n -> X) (s : 'S_n) :
  mean_col f (fun i => x (s i)) = (sel R s)^T *m mean_col f x.
Proof. by rewrite -rows_ofE; apply/matrixP => i j; rewrite !mxE. Qed.
Lemma cov_same_sym n (x : 'I_n -> X) : (forall a b, kfun c a b = kfun c b a) -> symmetric (cov_same c x).
Proof. by move=> h; apply/matrixP => i j; rewrite !mxE h [j == i]eq_sym. Qed.
End Points.
