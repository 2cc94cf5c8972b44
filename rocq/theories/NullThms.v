(* NullThms.v
   Property C144: what qr_nullspace returns, and when its matrices are the bases announced by its documentation. *)
From mathcomp Require Import all_ssreflect all_algebra.
From Verif Require Import LinAlg KrigModel LinQR NullModel.
Set Implicit Arguments.
Unset Strict Implicit.
Unset Printing Implicit Defensive.
Import Order.TTheory GRing.Theory Num.Theory.
Local Open Scope ring_scope.

Section Null.
Variable R : rcfType.

(* v is a combination of the columns of A *)
Definition in_span n k (A : 'M[R]_(n, k)) (v : 'cV[R]_n) : Prop := exists c : 'cV[R]_k, v = A *m c.

(* For every P: the factorisation, orthonormal columns, contrasts. *)
Theorem C144_factors q r (qr : qr_fun R q r) (P : 'M[R]_(q + r, q)) Q1 W Rq :
  is_qr P (qr P) -> qr_nullspace qr P = (Q1, W, Rq) ->
  [/\ Q1 *m Rq = P, Q1^T *m Q1 = 1%:M, W^T *m W = 1%:M & Q1^T *m W = 0] /\
  [/\ P^T *m W = 0, forall i j : 'I_q, (j < i)%N -> Rq i j = 0, \det Rq ^+ 2 = \det (P^T *m P),
      forall v, in_span P v -> in_span Q1 v
    & forall v : 'cV[R]_(q + r), exists (a : 'cV[R]_q) (b : 'cV[R]_r), v = Q1 *m a + W *m b /\ forall a' b', v = Q1 *m a' + W *m b' -> a' = a /\ b' = b].
Proof.
rewrite /qr_nullspace; case E: (qr P) => [Q Rm] h [<- <- <-].
have [e1 e2 e3 e4 e5] := qr_blocks h; case: h => _ _ up; rewrite /= in e1 e2 e3 e4 e5 up.
split; first by split.
have e6 : (rsubmx Q)^T *m lsubmx Q = 0 by rewrite -[LHS]trmxK trmx_mul trmxK e4 trmx0.
split.
- by rewrite e1 trmx_mul -mulmxA e4 mulmx0.
- by move=> i j ji; rewrite mxE; apply: up.
- by rewrite e1 trmx_mul mulmxA -(mulmxA (usubmx Rm)^T) e2 mulmx1 det_mulmx det_tr expr2.
- by move=> v [c ->]; exists (usubmx Rm *m c); rewrite mulmxA -e1.
- move=> v; exists ((lsubmx Q)^T *m v), ((rsubmx Q)^T *m v); split; first by rewrite !mulmxA -mulmxDl e5 mul1mx.
  by move=> a b ->; rewrite !mulmxDr !mulmxA e2 e3 e4 e6 !mul1mx !mul0mx addr0 add0r.
Qed.

(* The columns of W span the null space of P', and those of Q1 the columns of P, exactly when P has full column rank. *)
Theorem C144_bases q r (qr : qr_fun R q r) (P : 'M[R]_(q + r, q)) Q1 W Rq :
  is_qr P (qr P) -> qr_nullspace qr P = (Q1, W, Rq) ->
  (full_col_rank P <-> forall v : 'cV[R]_(q + r), P^T *m v = 0 <-> in_span W v) /\
  (full_col_rank P <-> forall v, in_span P v <-> in_span Q1 v) /\
  (full_col_rank P <-> \det Rq != 0).
Proof.
move=> h E; have [[e1 e2 e3 e4] [e5 _ _ sub dec]] := C144_factors h E.
have U : full_col_rank P <-> Rq \in unitmx.
  split=> [f|u b pb].
    by apply: unit_of_inj => b eb; apply: f; rewrite -e1 -mulmxA eb mulmx0.
  apply: (inj_of_unit u); have -> : Rq *m b = Q1^T *m (P *m b) by rewrite -e1 -[in RHS]mulmxA [in RHS]mulmxA e2 mul1mx.
  by rewrite pb mulmx0.
split; [|split]; last by rewrite U unitmxE unitfE.
- rewrite U; split=> [u v|hv].
    split=> [hv|[c ->]]; last by rewrite mulmxA e5 mul0mx.
    have [a [b [ev _]]] := dec v; exists b; suff -> : v = Q1 *m 0 + W *m b by rewrite mulmx0 add0r.
    suff a0 : a = 0 by rewrite ev a0.
    apply: (@inj_of_unit _ _ _ Rq^T); first by rewrite unitmx_tr.
    by move: hv; rewrite ev mulmxDr (mulmxA _ W) e5 mul0mx addr0 -e1 trmx_mul -mulmxA (mulmxA Q1^T) e2 mul1mx.
  rewrite -unitmx_tr; apply: unit_of_inj => c ec.
  have /hv [w ew] : P^T *m (Q1 *m c) = 0 by rewrite -e1 trmx_mul -mulmxA (mulmxA Q1^T) e2 mul1mx.
  by rewrite -[c]mul1mx -e2 -mulmxA ew mulmxA e4 mul0mx.
- rewrite U; split=> [u v|hv].
    split; first exact: sub.
    by move=> [c ->]; exists (invmx Rq *m c); rewrite -e1 -mulmxA mulKVmx.
  rewrite -unitmx_tr; apply: unit_of_inj => c ec.
  have /hv [b eb] : in_span Q1 (Q1 *m c) by exists c.
  have eR : c = Rq *m b by rewrite -[c]mul1mx -e2 -mulmxA eb -e1 !mulmxA e2 mul1mx.
  have : c^T *m c = 0 by rewrite {2}eR mulmxA -[c^T *m Rq]trmxK trmx_mul trmxK ec trmx0 mul0mx.
  move=> /matrixP /(_ 0 0); rewrite !mxE => /eqP; rewrite psumr_eq0 => [/allP z|i _]; last by rewrite mxE -expr2 sqr_ge0.
  apply/matrixP=> i j; rewrite ord1 mxE; apply/eqP.
  by have := z i (mem_index_enum i); rewrite mxE -expr2 sqrf_eq0.
Qed.

End Null.
Print Assumptions C144_factors.
Print Assumptions C144_bases.

(* A matrix of zeros has an orthonormal Q1 although its columns span nothing; w = (1, 1)' has full rank. *)
Example C144_case (R : rcfType) : exists (qr : qr_fun R 1 1), (forall P, is_qr P (qr P)) /\
  full_col_rank (col_mx 1%:M 1%:M : 'M[R]_(1 + 1, 1)) /\
  ~ full_col_rank (0 : 'M[R]_(1 + 1, 1)).
Proof.
have [qr h] := qr_exists R 1 1; exists qr; split=> //; split.
- by move=> b /eqP; rewrite mul_col_mx !mul1mx -col_mx0 => /eqP /eq_col_mx [].
- by move=> /(_ 1%:M (mul0mx _ _)) /matrixP /(_ 0 0) /eqP; rewrite !mxE eqxx oner_eq0.
Qed.
