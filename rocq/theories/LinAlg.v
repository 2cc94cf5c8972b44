(* LinAlg.v
   Vocabulary and lemmas of real linear algebra shared by the kriging, LOO,
   likelihood, Fisher and sample-path developments.  Nothing in this file is
   specific to gpmp: it only fixes what "symmetric", "positive definite" and
   "positive semidefinite" mean and proves textbook facts about them. *)
From mathcomp Require Import all_ssreflect all_algebra.
From mathcomp Require Import ring.
Set Implicit Arguments.
Unset Strict Implicit.
Unset Printing Implicit Defensive.
Import Order.TTheory GRing.Theory Num.Theory.
Local Open Scope ring_scope.

Section Vocabulary.
Variable R : realFieldType.

(* x' A y, as a number *)
Definition bilin m n (A : 'M[R]_(m, n)) (x : 'cV[R]_m) (y : 'cV[R]_n) : R :=
  (x^T *m A *m y) 0 0.

(* x' A x, as a number *)
Definition qform n (A : 'M[R]_n) (x : 'cV[R]_n) : R := bilin A x x.

Definition symmetric n (A : 'M[R]_n) : Prop := A^T = A.

Definition pos_def n (A : 'M[R]_n) : Prop :=
  symmetric A /\ forall x : 'cV[R]_n, x != 0 -> 0 < qform A x.

Definition pos_semidef n (A : 'M[R]_n) : Prop :=
  symmetric A /\ forall x : 'cV[R]_n, 0 <= qform A x.

(* strictly positive on the vectors orthogonal to the columns of P *)
Definition cond_pos_def n q (A : 'M[R]_n) (P : 'M[R]_(n, q)) : Prop :=
  symmetric A /\
  forall x : 'cV[R]_n, P^T *m x = 0 -> x != 0 -> 0 < qform A x.

Definition full_col_rank n q (P : 'M[R]_(n, q)) : Prop :=
  forall b : 'cV[R]_q, P *m b = 0 -> b = 0.

End Vocabulary.

(* ring, after abstracting quadratic forms and matrix entries *)
Ltac gring :=
  repeat (let a := fresh "a" in set a := (bilin _ _ _); clearbody a);
  repeat (let a := fresh "a" in set a := (qform _ _); clearbody a);
  repeat (let a := fresh "a" in set a := (fun_of_matrix _ _ _); clearbody a);
  ring.

Section Lemmas.
Variable R : realFieldType.
Implicit Types (m n p q : nat).

Lemma bilinE m n (A : 'M[R]_(m, n)) x y :
  bilin A x y = \sum_i \sum_j x i 0 * A i j * y j 0.
Proof.
rewrite /bilin -mulmxA mxE; apply: eq_bigr => i _.
rewrite !mxE big_distrr /=; apply: eq_bigr => j _; by rewrite mulrA.
Qed.

Lemma col_mulmx m n p (A : 'M[R]_(m, n)) (B : 'M[R]_(n, p)) j :
  col j (A *m B) = A *m col j B.
Proof. by rewrite !colE mulmxA. Qed.

Lemma mx11E (A : 'M[R]_1) : A = (A 0 0)%:M.
Proof. exact: mx11_scalar. Qed.

Lemma bilinDl m n (A : 'M[R]_(m, n)) x1 x2 y :
  bilin A (x1 + x2) y = bilin A x1 y + bilin A x2 y.
Proof. by rewrite /bilin linearD /= !mulmxDl mxE. Qed.
Lemma bilinDr m n (A : 'M[R]_(m, n)) x y1 y2 :
  bilin A x (y1 + y2) = bilin A x y1 + bilin A x y2.
Proof. by rewrite /bilin mulmxDr mxE. Qed.
Lemma bilinZl m n (A : 'M[R]_(m, n)) a x y :
  bilin A (a *: x) y = a * bilin A x y.
Proof. by rewrite /bilin linearZ /= -!scalemxAl mxE. Qed.
Lemma bilinZr m n (A : 'M[R]_(m, n)) a x y :
  bilin A x (a *: y) = a * bilin A x y.
Proof. by rewrite /bilin -scalemxAr mxE. Qed.
Lemma bilinNr m n (A : 'M[R]_(m, n)) x y :
  bilin A x (- y) = - bilin A x y.
Proof. by rewrite /bilin mulmxN mxE. Qed.
Lemma bilinNl m n (A : 'M[R]_(m, n)) x y :
  bilin A (- x) y = - bilin A x y.
Proof. by rewrite /bilin linearN /= !mulNmx mxE. Qed.
Lemma bilin_tr m n (A : 'M[R]_(m, n)) x y : bilin A x y = bilin A^T y x.
Proof.
rewrite /bilin; have -> : y^T *m A^T *m x = (x^T *m A *m y)^T.
  by rewrite !trmx_mul trmxK mulmxA.
by rewrite [RHS]mxE.
Qed.
Lemma bilin_addm m n (A B : 'M[R]_(m, n)) x y :
  bilin (A + B) x y = bilin A x y + bilin B x y.
Proof. by rewrite /bilin mulmxDr mulmxDl mxE. Qed.
Lemma bilin_oppm m n (A : 'M[R]_(m, n)) x y :
  bilin (- A) x y = - bilin A x y.
Proof. by rewrite /bilin mulmxN mulNmx mxE. Qed.
Lemma bilin_scalem m n a (A : 'M[R]_(m, n)) x y :
  bilin (a *: A) x y = a * bilin A x y.
Proof. by rewrite /bilin -scalemxAr -scalemxAl mxE. Qed.
Lemma bilin_mull m n p (A : 'M[R]_(m, n)) (B : 'M[R]_(m, p)) x y :
  bilin A (B *m x) y = bilin (B^T *m A) x y.
Proof. by rewrite /bilin trmx_mul !mulmxA. Qed.
Lemma bilin_mulr m n p (A : 'M[R]_(m, n)) (B : 'M[R]_(n, p)) x y :
  bilin A x (B *m y) = bilin (A *m B) x y.
Proof. by rewrite /bilin !mulmxA. Qed.

Lemma qformD n (A : 'M[R]_n) x y : symmetric A ->
  qform A (x + y) = qform A x + 2%:R * bilin A x y + qform A y.
Proof.
move=> sA; rewrite /qform bilinDl !bilinDr (bilin_tr A y x) sA.
by rewrite mulr_natl mulr2n !addrA.
Qed.
Lemma qformZ n (A : 'M[R]_n) a x : qform A (a *: x) = a ^+ 2 * qform A x.
Proof. by rewrite /qform bilinZl bilinZr mulrA expr2. Qed.
Lemma qformN n (A : 'M[R]_n) x : qform A (- x) = qform A x.
Proof. by rewrite /qform bilinNl bilinNr opprK. Qed.
Lemma qform_mul n p (A : 'M[R]_n) (B : 'M[R]_(n, p)) x :
  qform A (B *m x) = qform (B^T *m A *m B) x.
Proof. by rewrite /qform bilin_mull bilin_mulr. Qed.
Lemma qform0 n (A : 'M[R]_n) : qform A 0 = 0.
Proof. by rewrite /qform /bilin mulmx0 mxE. Qed.
Lemma qform1 n (x : 'cV[R]_n) : qform 1%:M x = \sum_i x i 0 ^+ 2.
Proof.
rewrite /qform /bilin mulmx1 mxE; apply: eq_bigr => i _.
by rewrite mxE expr2.
Qed.
Lemma qform1_ge0 n (x : 'cV[R]_n) : 0 <= qform 1%:M x.
Proof. by rewrite qform1; apply: sumr_ge0 => i _; exact: sqr_ge0. Qed.
Lemma qform1_eq0 n (x : 'cV[R]_n) : qform 1%:M x = 0 -> x = 0.
Proof.
rewrite qform1 => /eqP; rewrite psumr_eq0 => [/allP H|i _]; last exact: sqr_ge0.
apply/matrixP => i j; rewrite ord1 mxE.
have := H i (mem_index_enum _); rewrite sqrf_eq0 => /eqP //.
Qed.
Lemma pos_def1 n : pos_def (1%:M : 'M[R]_n).
Proof.
split=> [|x xn0]; first exact: trmx1.
rewrite lt_neqAle qform1_ge0 andbT eq_sym.
by apply: contra xn0 => /eqP /qform1_eq0 ->.
Qed.
Lemma qform_delta n (A : 'M[R]_n) i : qform A (delta_mx i 0) = A i i.
Proof.
rewrite /qform /bilin trmx_delta -rowE.
have := colE 0 (row i A *m delta_mx i 0).
by rewrite -colE !mxE.
Qed.
Lemma bilin_delta m n (A : 'M[R]_(m, n)) i j :
  bilin A (delta_mx i 0) (delta_mx j 0) = A i j.
Proof. by rewrite /bilin trmx_delta -rowE -colE !mxE. Qed.

Lemma pd_sym n (A : 'M[R]_n) : pos_def A -> A^T = A. Proof. by case. Qed.
Lemma psd_sym n (A : 'M[R]_n) : pos_semidef A -> A^T = A. Proof. by case. Qed.
Lemma pd_psd n (A : 'M[R]_n) : pos_def A -> pos_semidef A.
Proof.
case=> sA pA; split=> // x.
by have [->|xn0] := eqVneq x 0; [rewrite qform0 | apply/ltW/pA].
Qed.

Lemma unit_of_inj n (A : 'M[R]_n) :
  (forall x : 'cV[R]_n, A *m x = 0 -> x = 0) -> A \in unitmx.
Proof.
move=> inj; rewrite -unitmx_tr -row_free_unit; apply: inj_row_free => v vA.
apply: trmx_inj; rewrite trmx0; apply: inj.
by apply: trmx_inj; rewrite trmx_mul trmxK trmx0.
Qed.
Lemma inj_of_unit n p (A : 'M[R]_n) (x : 'M[R]_(n, p)) :
  A \in unitmx -> A *m x = 0 -> x = 0.
Proof. by move=> uA Ax; rewrite -(mulKmx uA x) Ax mulmx0. Qed.

Lemma qform_ker n (A : 'M[R]_n) x : A *m x = 0 -> qform A x = 0.
Proof. by rewrite /qform /bilin -mulmxA => ->; rewrite mulmx0 mxE. Qed.

Lemma pd_unit n (A : 'M[R]_n) : pos_def A -> A \in unitmx.
Proof.
case=> _ pA; apply: unit_of_inj => x Ax; apply/eqP; apply: contraT => xn0.
by have := pA x xn0; rewrite (qform_ker Ax) ltxx.
Qed.

Lemma pd_inv n (A : 'M[R]_n) : pos_def A -> pos_def (invmx A).
Proof.
move=> pdA; have uA := pd_unit pdA; have [sA pA] := pdA.
split; first by rewrite /symmetric trmx_inv sA.
move=> x xn0; have -> : qform (invmx A) x = qform A (invmx A *m x).
  by rewrite qform_mul trmx_inv sA -mulmxA mulmxV // mulmx1.
apply: pA; apply: contra xn0 => /eqP /(congr1 (mulmx A)).
by rewrite mulKVmx // mulmx0 => ->.
Qed.

Lemma psd_congr n p (A : 'M[R]_n) (B : 'M[R]_(n, p)) :
  pos_semidef A -> pos_semidef (B^T *m A *m B).
Proof.
case=> sA pA; split=> [|x]; first by rewrite /symmetric !trmx_mul trmxK sA mulmxA.
by rewrite -qform_mul.
Qed.
Lemma pd_congr n p (A : 'M[R]_n) (B : 'M[R]_(n, p)) :
  pos_def A -> full_col_rank B -> pos_def (B^T *m A *m B).
Proof.
case=> sA pA fB; split=> [|x xn0]; first by rewrite /symmetric !trmx_mul trmxK sA mulmxA.
rewrite -qform_mul; apply: pA; apply: contra xn0 => /eqP /fB -> //.
Qed.
Lemma cpd_congr n p q (A : 'M[R]_n) (P : 'M[R]_(n, q)) (W : 'M[R]_(n, p)) :
  cond_pos_def A P -> P^T *m W = 0 -> full_col_rank W ->
  pos_def (W^T *m A *m W).
Proof.
case=> sA pA PW fW; split=> [|x xn0]; first by rewrite /symmetric !trmx_mul trmxK sA mulmxA.
rewrite -qform_mul; apply: pA; first by rewrite mulmxA PW mul0mx.
by apply: contra xn0 => /eqP /fW ->.
Qed.
Lemma pd_cpd n q (A : 'M[R]_n) (P : 'M[R]_(n, q)) :
  pos_def A -> cond_pos_def A P.
Proof. by case=> sA pA; split=> // x _; apply: pA. Qed.

(* a non-negative quadratic polynomial t |-> a t^2 + 2 b t with a >= 0 forces b = 0 *)
Lemma quad_ge0 (a b : R) : (forall t, 0 <= a * t ^+ 2 + 2%:R * b * t) -> b = 0.
Proof.
move=> H; have [-> //|bn0] := eqVneq b 0; exfalso.
have a1 : 0 < `|a| + 1 by rewrite ltr_paddl // normr_ge0.
have := H (- b / (`|a| + 1)).
have -> : a * (- b / (`|a| + 1)) ^+ 2 + 2%:R * b * (- b / (`|a| + 1)) =
   (b ^+ 2 / (`|a| + 1)) * (a / (`|a| + 1) - 2%:R).
  by field; rewrite gt_eqF.
rewrite pmulr_rge0; last by apply: divr_gt0 => //; rewrite lt_neqAle sqr_ge0 andbT eq_sym sqrf_eq0.
rewrite subr_ge0 => H2; have : a / (`|a| + 1) < 1.
  by rewrite ltr_pdivr_mulr // mul1r ltr_spaddr // ler_norm.
move=> H3; have := le_lt_trans H2 H3; rewrite ltrn1 //.
Qed.


Lemma psd_qform0 n (A : 'M[R]_n) x :
  pos_semidef A -> qform A x = 0 -> A *m x = 0.
Proof.
case=> sA pA qx.
have key y : bilin A x y = 0.
  apply: (@quad_ge0 (qform A y)) => t.
  have := pA (x + t *: y); rewrite qformD // qx add0r qformZ bilinZr.
  by rewrite addrC mulrC -[2%:R * bilin A x y * t]mulrA [bilin A x y * t]mulrC.
apply/matrixP => i j; rewrite ord1 [RHS]mxE.
have := key (delta_mx i 0); rewrite bilin_tr sA.
by rewrite /bilin trmx_delta -rowE -row_mul mxE.
Qed.

Lemma psd_add n (A B : 'M[R]_n) :
  pos_semidef A -> pos_semidef B -> pos_semidef (A + B).
Proof.
case=> sA pA [sB pB]; split=> [|x]; first by rewrite /symmetric linearD /= sA sB.
by rewrite /qform bilin_addm addr_ge0 ?pA ?pB.
Qed.
Lemma psd_scale n a (A : 'M[R]_n) :
  0 <= a -> pos_semidef A -> pos_semidef (a *: A).
Proof.
move=> a0 [sA pA]; split=> [|x]; first by rewrite /symmetric linearZ /= sA.
by rewrite /qform bilin_scalem mulr_ge0 ?pA.
Qed.
Lemma psd_diag_ge0 n (A : 'M[R]_n) i : pos_semidef A -> 0 <= A i i.
Proof. by case=> _ pA; rewrite -qform_delta. Qed.
Lemma pd_diag_gt0 n (A : 'M[R]_n) i : pos_def A -> 0 < A i i.
Proof.
case=> _ pA; rewrite -qform_delta; apply: pA; apply/eqP => /matrixP /(_ i 0).
by rewrite !mxE !eqxx /= => /eqP; rewrite oner_eq0.
Qed.
Lemma psd_gram n p (B : 'M[R]_(p, n)) : pos_semidef (B^T *m B).
Proof. by rewrite -[B^T]mulmx1; apply: psd_congr; exact/pd_psd/pos_def1. Qed.

(* block forms *)
Lemma qform_block n1 n2 (A : 'M[R]_n1) (B : 'M[R]_(n1, n2)) C (D : 'M[R]_n2) x y :
  qform (block_mx A B C D) (col_mx x y) =
  qform A x + bilin B x y + bilin C y x + qform D y.
Proof.
rewrite /qform /bilin tr_col_mx mul_row_block mul_row_col !mulmxDl !mxE.
by rewrite -!addrA; congr (_ + _); rewrite addrCA.
Qed.

Lemma psd_block_ul n1 n2 (A : 'M[R]_n1) (B : 'M[R]_(n1, n2)) C (D : 'M[R]_n2) :
  pos_semidef (block_mx A B C D) -> pos_semidef A.
Proof.
case; rewrite /symmetric tr_block_mx => /eq_block_mx [sA _ _ _] pA; split=> // x.
by have := pA (col_mx x 0); rewrite qform_block /bilin /qform /bilin trmx0 !mulmx0 !mul0mx !mxE !addr0.
Qed.
Lemma psd_block_dr n1 n2 (A : 'M[R]_n1) (B : 'M[R]_(n1, n2)) C (D : 'M[R]_n2) :
  pos_semidef (block_mx A B C D) -> pos_semidef D.
Proof.
case; rewrite /symmetric tr_block_mx => /eq_block_mx [_ _ _ sD] pA; split=> // x.
by have := pA (col_mx 0 x); rewrite qform_block /bilin /qform /bilin trmx0 !mulmx0 !mul0mx !mxE !add0r.
Qed.
Lemma pd_block_ul n1 n2 (A : 'M[R]_n1) (B : 'M[R]_(n1, n2)) C (D : 'M[R]_n2) :
  pos_def (block_mx A B C D) -> pos_def A.
Proof.
case; rewrite /symmetric tr_block_mx => /eq_block_mx [sA _ _ _] pA; split=> // x xn0.
have := pA (col_mx x 0); rewrite qform_block /bilin /qform /bilin trmx0 !mulmx0 !mul0mx !mxE !addr0.
by apply; rewrite -col_mx0; apply: contra xn0 => /eqP /eq_col_mx [->].
Qed.
Lemma pd_block_dr n1 n2 (A : 'M[R]_n1) (B : 'M[R]_(n1, n2)) C (D : 'M[R]_n2) :
  pos_def (block_mx A B C D) -> pos_def D.
Proof.
case; rewrite /symmetric tr_block_mx => /eq_block_mx [_ _ _ sD] pA; split=> // x xn0.
have := pA (col_mx 0 x); rewrite qform_block /bilin /qform /bilin trmx0 !mulmx0 !mul0mx !mxE !add0r.
by apply; rewrite -col_mx0; apply: contra xn0 => /eqP /eq_col_mx [_ ->].
Qed.

(* completing the square *)
Lemma schur_qform n1 n2 (A : 'M[R]_n1) (B : 'M[R]_(n1, n2)) (D : 'M[R]_n2) x y :
  symmetric A -> A \in unitmx ->
  qform (block_mx A B B^T D) (col_mx x y) =
  qform A (x + invmx A *m B *m y) + qform (D - B^T *m invmx A *m B) y.
Proof.
move=> sA uA; rewrite qform_block qformD // [bilin B^T y x]bilin_tr trmxK.
have -> : bilin A x (invmx A *m B *m y) = bilin B x y.
  by rewrite -mulmxA !bilin_mulr mulmxV // mul1mx.
have -> : qform A (invmx A *m B *m y) = qform (B^T *m invmx A *m B) y.
  by rewrite qform_mul trmx_mul trmx_inv sA -!mulmxA; congr qform; rewrite mulKVmx.
rewrite /qform bilin_addm bilin_oppm; ring.
Qed.

Lemma schur_psd n1 n2 (A : 'M[R]_n1) (B : 'M[R]_(n1, n2)) (D : 'M[R]_n2) :
  pos_def A -> pos_semidef (block_mx A B B^T D) ->
  pos_semidef (D - B^T *m invmx A *m B).
Proof.
move=> pdA psdM; have uA := pd_unit pdA; have [sA _] := pdA.
have [sD _] := psd_block_dr psdM; split=> [|y].
  by rewrite /symmetric linearB /= sD !trmx_mul trmxK trmx_inv sA mulmxA.
case: psdM => _ /(_ (col_mx (- (invmx A *m B *m y)) y)).
by rewrite schur_qform // addNr qform0 add0r.
Qed.
Lemma schur_pd n1 n2 (A : 'M[R]_n1) (B : 'M[R]_(n1, n2)) (D : 'M[R]_n2) :
  pos_def (block_mx A B B^T D) -> pos_def (D - B^T *m invmx A *m B).
Proof.
move=> pdM; have pdA := pd_block_ul pdM; have uA := pd_unit pdA; have [sA _] := pdA.
have [sD _] := pd_block_dr pdM; split=> [|y yn0].
  by rewrite /symmetric linearB /= sD !trmx_mul trmxK trmx_inv sA mulmxA.
case: pdM => _ /(_ (col_mx (- (invmx A *m B *m y)) y)).
rewrite schur_qform // addNr qform0 add0r; apply.
by rewrite -col_mx0; apply: contra yn0 => /eqP /eq_col_mx [_ ->].
Qed.
Lemma schur_pd_inv n1 n2 (A : 'M[R]_n1) (B : 'M[R]_(n1, n2)) (D : 'M[R]_n2) :
  pos_def A -> pos_def (D - B^T *m invmx A *m B) ->
  pos_def (block_mx A B B^T D).
Proof.
move=> pdA pdS; have uA := pd_unit pdA; have [sA pA] := pdA.
have [sS pS] := pdS; split.
  have sD : D^T = D.
    move: sS; rewrite /symmetric linearB /= !trmx_mul trmxK trmx_inv sA mulmxA.
    by move/addIr.
  by rewrite /symmetric tr_block_mx trmxK sA sD.
move=> v; rewrite -(vsubmxK v); set x := usubmx v; set y := dsubmx v => vn0.
rewrite schur_qform //; have [y0|yn0] := eqVneq y 0.
  rewrite y0 qform0 mulmx0 !addr0; apply: pA; apply: contra vn0 => /eqP ->.
  by rewrite y0 col_mx0.
apply: ltr_paddl; last exact: pS.
exact: (pd_psd pdA).2.
Qed.

Lemma det_schur n1 n2 (A : 'M[R]_n1) (B : 'M[R]_(n1, n2)) C (D : 'M[R]_n2) :
  A \in unitmx ->
  \det (block_mx A B C D) = \det A * \det (D - C *m invmx A *m B).
Proof.
move=> uA.
have -> : block_mx A B C D =
  block_mx 1%:M 0 (C *m invmx A) 1%:M *m block_mx A B 0 (D - C *m invmx A *m B).
  rewrite mulmx_block !mul1mx !mul0mx ?mulmx0 !addr0 mulmxKV //.
  by rewrite addrCA subrr addr0.
by rewrite det_mulmx det_lblock det_ublock !det1 !mul1r.
Qed.

Lemma pd_mx11 (a : R) : pos_def (a%:M : 'M[R]_1) <-> 0 < a.
Proof.
split=> [H|a0]; first by have := pd_diag_gt0 0 H; rewrite mxE eqxx.
split=> [|x xn0]; first exact: tr_scalar_mx.
rewrite -scalemx1 /qform bilin_scalem -/(qform _ x) mulr_gt0 //.
exact: (pos_def1 1).2.
Qed.

Lemma sym_block n1 n2 (A : 'M[R]_(n1 + n2)) : symmetric A ->
  A = block_mx (ulsubmx A) (ursubmx A) (ursubmx A)^T (drsubmx A).
Proof.
move=> sA; rewrite -{1}[A]submxK; congr block_mx.
by rewrite -{1}sA -trmx_ursub.
Qed.

Lemma pd_det n (A : 'M[R]_n) : pos_def A -> 0 < \det A.
Proof.
elim: n A => [|n IH]; first by move=> A _; rewrite det_mx00 ltr01.
rewrite -[n.+1]/(1 + n)%N => A pdA.
have eA := sym_block (pd_sym pdA); move: (pdA); rewrite eA => pdB.
have pd1 := pd_block_ul pdB; rewrite det_schur ?pd_unit // mulr_gt0 //.
  by rewrite [ulsubmx A](mx11E) det_scalar1; apply: pd_diag_gt0.
exact/IH/schur_pd.
Qed.

(* trace of a Gram matrix *)
Lemma trace_gram n p (B : 'M[R]_(n, p)) :
  \tr (B^T *m B) = \sum_j \sum_i B i j ^+ 2.
Proof.
apply: eq_bigr => j _; rewrite mxE; apply: eq_bigr => i _.
by rewrite mxE expr2.
Qed.
Lemma trace_gram_ge0 n p (B : 'M[R]_(n, p)) : 0 <= \tr (B^T *m B).
Proof. by rewrite trace_gram; apply: sumr_ge0 => j _; apply: sumr_ge0 => i _; exact: sqr_ge0. Qed.
Lemma trace_gram_eq0 n p (B : 'M[R]_(n, p)) : \tr (B^T *m B) = 0 -> B = 0.
Proof.
rewrite trace_gram => /eqP; rewrite psumr_eq0; last first.
  by move=> j _; apply: sumr_ge0 => i _; exact: sqr_ge0.
move=> /allP H; apply/matrixP => i j; rewrite mxE.
have := H j (mem_index_enum _); rewrite psumr_eq0 => [/allP H2|k _]; last exact: sqr_ge0.
by have := H2 i (mem_index_enum _); rewrite sqrf_eq0 => /eqP.
Qed.
Lemma psd_trace_ge0 n (A : 'M[R]_n) : pos_semidef A -> 0 <= \tr A.
Proof. by move=> pA; apply: sumr_ge0 => i _; apply: psd_diag_ge0. Qed.
Lemma psd_trace_eq0 n (A : 'M[R]_n) : pos_semidef A -> \tr A = 0 -> A = 0.
Proof.
move=> pA /eqP; rewrite psumr_eq0 => [/allP H|i _]; last exact: psd_diag_ge0.
have key i : A *m (delta_mx i 0 : 'cV_n) = 0.
  apply: psd_qform0 => //; rewrite qform_delta.
  by apply/eqP; apply: H; exact: mem_index_enum.
apply/matrixP => i j; have /matrixP /(_ i 0) := key j.
by rewrite -colE !mxE.
Qed.

(* uniqueness of the positive semidefinite square root *)
Lemma psd_sqrt_unique n (A B : 'M[R]_n) :
  pos_semidef A -> pos_semidef B -> A *m A = B *m B -> A = B.
Proof.
move=> psA psB eAB; set D := A - B.
have [sA _] := psA; have [sB _] := psB.
have sD : D^T = D by rewrite /D linearB /= sA sB.
have e1 : A *m D + D *m B = 0.
  by rewrite /D mulmxBr mulmxBl eAB addrA subrK subrr.
have t1 : \tr (D *m A *m D) + \tr (D *m B *m D) = 0.
  have -> : \tr (D *m B *m D) = \tr (D *m (D *m B)).
    by rewrite mxtrace_mulC.
  by rewrite -mulmxA -linearD /= -mulmxDr e1 mulmx0 linear0.
have pA : pos_semidef (D *m A *m D) by rewrite -{1}sD; apply: psd_congr.
have pB : pos_semidef (D *m B *m D) by rewrite -{1}sD; apply: psd_congr.
move/eqP: t1; rewrite paddr_eq0 ?psd_trace_ge0 // => /andP [/eqP tA /eqP tB].
have DAD := psd_trace_eq0 pA tA; have DBD := psd_trace_eq0 pB tB.
have D3 : D *m D *m D = 0.
  have -> : D *m D *m D = D *m A *m D - D *m B *m D.
    by rewrite -mulmxBl -mulmxBr.
  by rewrite DAD DBD subrr.
have D2 : D *m D = 0.
  apply: trace_gram_eq0; rewrite trmx_mul sD.
  by rewrite mulmxA D3 mul0mx linear0.
have D0 : D = 0 by apply: trace_gram_eq0; rewrite sD D2 linear0.
by apply/eqP; rewrite -subr_eq0 -/D D0.
Qed.

End Lemmas.
