(* LinBackThms.v
   Property C133: the linear algebra helpers of gpmp.num in the two backends. *)
From mathcomp Require Import all_ssreflect all_algebra.
From Verif Require Import LinAlg KrigModel CholProofs LinBackModel.
Set Implicit Arguments.
Unset Strict Implicit.
Unset Printing Implicit Defensive.
Import Order.TTheory GRing.Theory Num.Theory.
Local Open Scope ring_scope.

Section Back.
Variable R : rcfType.

Lemma lower_trig n (A : 'M[R]_n) : is_trig_mx A -> lower_part A = A.
Proof.
move/is_trig_mxP => t; apply/matrixP => i j; rewrite mxE; case: leqP => // ij.
by rewrite t.
Qed.
Lemma upper_tr n (A : 'M[R]_n) : upper_part A^T = (lower_part A)^T.
Proof. by apply/matrixP => i j; rewrite !mxE. Qed.
Lemma lower_tr n (A : 'M[R]_n) : lower_part A^T = (upper_part A)^T.
Proof. by apply/matrixP => i j; rewrite !mxE. Qed.
Lemma part_tr n l (A : 'M[R]_n) : part l A^T = (part (~~ l) A)^T.
Proof. by case: l; rewrite /= ?upper_tr ?lower_tr. Qed.
Lemma upper_of_trig n (A : 'M[R]_n) : is_trig_mx A -> upper_part A = diag_mx (\row_i A i i).
Proof.
move/is_trig_mxP => t; apply/matrixP => i j; rewrite !mxE; case: eqP => [->|/eqP ij]; first by rewrite leqnn.
rewrite mulr0n; case: leqP => // h; rewrite t //.
by rewrite ltn_neqAle h andbT.
Qed.
Lemma solve_ok n m (A : 'M[R]_n) (B X : 'M[R]_(n, m)) : A \in unitmx -> solve A B = Ok X <-> A *m X = B.
Proof.
move=> u; rewrite /solve u; split => [[<-]|<-]; first by rewrite mulKVmx.
by rewrite mulKmx.
Qed.
Lemma trig_nz_unit n (A : 'M[R]_n) : is_trig_mx A -> (forall i, A i i != 0) -> A \in unitmx.
Proof.
move=> t d; rewrite unitmxE det_trig // unitfE prodf_seq_neq0.
by apply/allP => i _; exact: d.
Qed.

(* the two solvers agree without transposition; with it, each is the other with the opposite triangle *)
Theorem C133_backends n m (A : 'M[R]_n) (B : 'M[R]_(n, m)) lower :
  torch_solve_triangular false lower A B = np_solve_triangular false lower A B
  /\ torch_solve_triangular true lower A B = np_solve_triangular true (~~ lower) A B.
Proof. by split; rewrite // /torch_solve_triangular /np_solve_triangular part_tr. Qed.

(* a lower triangular matrix: NumPy solves A x = B and A^T x = B *)
Theorem C133_numpy n m (A : 'M[R]_n) (B X : 'M[R]_(n, m)) : is_trig_mx A -> (forall i, A i i != 0) ->
  (np_solve_triangular false true A B = Ok X <-> A *m X = B)
  /\ (np_solve_triangular true true A B = Ok X <-> A^T *m X = B)
  /\ (np_solve_triangular false false A^T B = Ok X <-> A^T *m X = B)
  /\ (np_solve_triangular true false A^T B = Ok X <-> A *m X = B).
Proof.
move=> t d; have u := trig_nz_unit t d; have ut : A^T \in unitmx by rewrite unitmx_tr.
rewrite /np_solve_triangular /= upper_tr lower_trig // trmxK.
by split; [exact: solve_ok|split; [exact: solve_ok|split; exact: solve_ok]].
Qed.

(* Torch: with trans the matrix is replaced by its diagonal *)
Theorem C133_torch n m (A : 'M[R]_n) (B : 'M[R]_(n, m)) : is_trig_mx A -> (forall i, A i i != 0) ->
  (forall X, torch_solve_triangular false true A B = Ok X <-> A *m X = B)
  /\ torch_solve_triangular true true A B = Ok (\matrix_(i, j) (B i j / A i i))
  /\ torch_solve_triangular true false A^T B = Ok (\matrix_(i, j) (B i j / A i i))
  /\ (forall X, torch_solve_triangular true false A B = Ok X <-> A^T *m X = B).
Proof.
move=> t d; have u := trig_nz_unit t d; have ut : A^T \in unitmx by rewrite unitmx_tr.
have du : diag_mx (\row_i A i i) \in unitmx.
  rewrite unitmxE det_diag unitfE prodf_seq_neq0; apply/allP => i _; rewrite mxE; exact: d.
have ds : solve (diag_mx (\row_i A i i)) B = Ok (\matrix_(i, j) (B i j / A i i)).
  apply/(solve_ok _ _ du); apply/matrixP => i j; rewrite mul_diag_mx !mxE mulrC divfK //; exact: d.
split; first by move=> X; rewrite /torch_solve_triangular /= lower_trig //; exact: solve_ok.
split; first by rewrite /torch_solve_triangular /= lower_tr upper_of_trig // tr_diag_mx.
split; first by rewrite /torch_solve_triangular /= trmxK upper_of_trig.
by move=> X; rewrite /torch_solve_triangular /= upper_tr lower_trig //; exact: solve_ok.
Qed.

(* so that its answer with trans and the flag of the matrix given is right for all right-hand sides only if A is diagonal *)
Theorem C133_wrong n (A : 'M[R]_n) : is_trig_mx A -> (forall i, A i i != 0) ->
  ((forall B X : 'cV[R]_n, torch_solve_triangular true true A B = Ok X -> A^T *m X = B)
   <-> (forall i j, i != j -> A i j = 0)).
Proof.
move=> t d; split => [h i j ij|h B X].
- (* the right-hand side A i i e_i *)
  have E := h (\col_k (A i i * (k == i)%:R)) _ (proj1 (proj2 (C133_torch _ t d))).
  have := congr1 (fun M : 'cV[R]_n => M j 0) E; rewrite !mxE (bigD1 i) //= big1 => [|k ki]; last first.
    by rewrite !mxE (negbTE ki) mulr0 mul0r mulr0.
  rewrite !mxE eqxx mulr1 divff ?mulr1 ?addr0 //.
  by rewrite eq_sym (negbTE ij) mulr0.
- rewrite (proj1 (proj2 (C133_torch B t d))) => -[<-]; apply/matrixP => i j.
  rewrite mxE (bigD1 i) //= big1 => [|k ki]; last by rewrite !mxE h // mul0r.
  by rewrite !mxE addr0 mulrC divfK.
Qed.

(* the Cholesky factorisation reads the lower triangle *)
Lemma chol_lower n (A A' : 'M[R]_n) : (forall i j : 'I_n, (j <= i)%N -> A i j = A' i j) -> chol A = chol A'.
Proof.
elim: n A A' => [|n IH] A A' h /=; first by congr Some; apply/matrixP => -[].
have -> : ulsubmx (A : 'M_(1 + n)) 0 0 = ulsubmx (A' : 'M_(1 + n)) 0 0 by rewrite !mxE; exact: h.
have -> : dlsubmx (A : 'M_(1 + n)) = dlsubmx (A' : 'M_(1 + n)).
  by apply/matrixP => i j; rewrite !mxE; apply: h; rewrite /= ord1.
case: ifP => // _.
set v := _ *: _.
rewrite (IH (drsubmx (A : 'M_(1 + n)) - v *m v^T) (drsubmx (A' : 'M_(1 + n)) - v *m v^T)) // => i j ij.
by rewrite [LHS]mxE [RHS]mxE; congr (_ + _); rewrite !mxE; apply: h; rewrite /= leq_add2l.
Qed.
(* the symmetric matrix with the lower triangle of A *)
Definition mirror n (A : 'M[R]_n) : 'M[R]_n := \matrix_(i, j) (if (j <= i)%N then A i j else A j i).
Lemma mirror_sym n (A : 'M[R]_n) : symmetric (mirror A).
Proof. by apply/matrixP => i j; rewrite !mxE; case: ltngtP => // /ord_inj ->. Qed.
Lemma mirror_id n (A : 'M[R]_n) : symmetric A -> mirror A = A.
Proof. by move=> s; apply/matrixP => i j; rewrite !mxE -{2}s mxE if_same. Qed.
Lemma chol_mirror n (A : 'M[R]_n) : chol A = chol (mirror A).
Proof. by apply: chol_lower => i j h; rewrite mxE h. Qed.
Lemma inv_ok n (A X : 'M[R]_n) : inv A = Ok X <-> A *m X = 1%:M.
Proof.
rewrite /inv; case: ifP => u; split => [E|h] //.
- by case: E => <-; rewrite mulmxV.
- by congr Ok; rewrite -[LHS]mulmx1 -h mulKmx.
- by have [uu _] := mulmx1_unit h; rewrite uu in u.
Qed.
Lemma pd_unit n (A : 'M[R]_n) : pos_def A -> A \in unitmx.
Proof.
move=> pA; have [L cL] := chol_complete pA; have iL := chol_sound (proj1 pA) cL.
case: (iL) => _ _ <-; rewrite unitmx_mul unitmx_tr andbb; exact: is_chol_unit iL.
Qed.
Lemma tci_ok n (A X : 'M[R]_n) : torch_cholesky_inv A = Ok X <-> pos_def (mirror A) /\ mirror A *m X = 1%:M.
Proof.
have sM := mirror_sym A; rewrite /torch_cholesky_inv chol_mirror.
case E: (chol (mirror A)) => [C|].
- have iC := chol_sound sM E; have pM := is_chol_pd iC; case: (iC) => _ _ ->.
  have u := pd_unit pM; split => [[<-]|[_ h]]; first by rewrite mulmxV.
  by congr Ok; rewrite -[LHS]mulmx1 -h mulKmx.
- by split => // -[pM _]; move/(chol_none_iff sM): E.
Qed.

(* cholesky_inv: NumPy inverts whatever has an inverse; Torch inverts the symmetric matrix that has the lower triangle of A,
   and only if it is positive definite *)
Theorem C133_inverse n (A X : 'M[R]_n) :
  (np_cholesky_inv A = Ok X <-> A *m X = 1%:M)
  /\ (torch_cholesky_inv A = Ok X <-> pos_def (mirror A) /\ mirror A *m X = 1%:M)
  /\ (pos_def A -> torch_cholesky_inv A = np_cholesky_inv A)
  /\ (symmetric A -> A \in unitmx -> ~ pos_def A ->
      np_cholesky_inv A = Ok (invmx A) /\ torch_cholesky_inv A = Err LinAlgError).
Proof.
split; first exact: inv_ok; split; first exact: tci_ok; split.
- move=> pA; have u := pd_unit pA; rewrite /np_cholesky_inv /inv u.
  by apply/tci_ok; rewrite mirror_id ?mulmxV //; exact: (proj1 pA).
- move=> sA u npA; rewrite /np_cholesky_inv /inv u; split=> //.
  by rewrite /torch_cholesky_inv (proj2 (chol_none_iff sA) npA).
Qed.

(* cho_factor then cho_solve solves the system, whichever triangle the factor is kept in *)
Theorem C133_cho n m (A : 'M[R]_n) (b X : 'M[R]_(n, m)) lower : symmetric A ->
  (rbind (torch_cho_factor lower A) (fun c => torch_cho_solve c b) = Ok X <-> pos_def A /\ A *m X = b)
  /\ (torch_cho_factor lower A = Err LinAlgError <-> ~ pos_def A).
Proof.
move=> sA; rewrite /torch_cho_factor; case E: (chol A) => [L|]; last first.
  have np := proj1 (chol_none_iff sA) E; split; last by split.
  by split => // -[].
have iL := chol_sound sA E; have pA := is_chol_pd iL; have u := pd_unit pA; case: (iL) => tL _ LL.
split; last by split.
rewrite /= ; have -> : (if lower then part lower (if lower then L else L^T) *m (part lower (if lower then L else L^T))^T
    else (part lower (if lower then L else L^T))^T *m part lower (if lower then L else L^T)) = A.
  by case: (lower); rewrite /= ?upper_tr lower_trig // trmxK.
by split => [/(solve_ok _ _ u)|[_ /(solve_ok _ _ u)]].
Qed.

(* logdet of NumPy tests the sign of the determinant *)
Lemma pd_det n (A : 'M[R]_n) : pos_def A -> 0 < \det A.
Proof.
move=> pA; have [L cL] := chol_complete pA; have iL := chol_sound (proj1 pA) cL.
rewrite (is_chol_det iL) exprn_gt0 //; apply: prodr_gt0 => i _; by case: iL.
Qed.
Lemma logdet_ok n ln (A : 'M[R]_n) v : np_logdet ln A = Ok v <-> 0 < \det A /\ v = ln (\det A).
Proof.
rewrite /np_logdet sgr_le0 leNgt; case: ifP => [/negP h|/negbFE h]; split => //; first by case.
- by rewrite gtr0_norm // => -[<-].
- by rewrite gtr0_norm // => -[_ ->].
Qed.
Lemma det_diag_sign n (d : 'rV[R]_n) :
  (0 < \det (diag_mx d)) = [forall i, d 0 i != 0] && ~~ odd (\sum_(i < n) (d 0 i < 0)%R).
Proof.
rewrite det_diag.
case Z: [forall i, d 0 i != 0] => /=; last first.
  move/forallP: Z => Z; have /existsP [i /negPn /eqP di] : [exists i, ~~ (d 0 i != 0)] by rewrite -negb_forall; apply/negP => /forallP.
  by rewrite (bigD1 i) //= di mul0r ltxx.
move/forallP: Z => Z.
have -> : \prod_i d 0 i = (\prod_i `|d 0 i|) * (-1) ^+ (\sum_(i < n) (d 0 i < 0)%R).
  rewrite expr_sum -big_split; apply: eq_bigr => i _ /=; case: ltrP => h.
  - by rewrite expr1 ltr0_norm // mulrN1 opprK.
  - by rewrite expr0 mulr1 ger0_norm.
have P : 0 < \prod_i `|d 0 i| by apply: prodr_gt0 => i _; rewrite normr_gt0.
by rewrite pmulr_rgt0 // -signr_odd; case: (odd _); rewrite /= ?expr1 ?expr0 ?ltr01 // oppr_gt0 ltr10.
Qed.
Theorem C133_logdet n ln (A : 'M[R]_n) :
  (forall v, np_logdet ln A = Ok v <-> 0 < \det A /\ v = ln (\det A))
  /\ (pos_def A -> exists L, is_chol A L /\ np_logdet ln A = Ok (ln ((\prod_i L i i) ^+ 2)))
  (* T^T diag(d) T is refused if and only if it is singular or d has an odd number of negative entries *)
  /\ (forall (T : 'M[R]_n) d, T \in unitmx -> A = T^T *m diag_mx d *m T ->
      (np_logdet ln A = Err ValueErr <-> (exists i, d 0 i = 0) \/ odd (\sum_(i < n) (d 0 i < 0)%R))
      /\ (pos_def A <-> forall i, 0 < d 0 i)).
Proof.
split; first exact: logdet_ok; split.
  move=> pA; have [L cL] := chol_complete pA; have iL := chol_sound (proj1 pA) cL; exists L; split=> //.
  by apply/logdet_ok; split; [exact: pd_det|rewrite (is_chol_det iL)].
move=> T d uT eA; split.
- have e : (0 < \det A) = (0 < \det (diag_mx d)).
    rewrite eA !det_mulmx det_tr mulrAC -expr2 pmulr_rgt0 // lt_def sqr_ge0 andbT expf_neq0 //.
    by rewrite -unitfE -unitmxE.
  rewrite /np_logdet sgr_le0 leNgt e det_diag_sign negb_and negbK.
  case: ifP => h; split => //.
  + move=> _; case/orP: h => [|->]; last by right.
    by rewrite negb_forall => /existsP [i /negPn /eqP di]; left; exists i.
  + move/negbT: h; rewrite negb_or negbK => /andP [/forallP Z /negbTE o]; rewrite o => -[[i di]|//].
    by have := Z i; rewrite di eqxx.
- have q (x : 'cV[R]_n) : qform A x = \sum_i d 0 i * (T *m x) i 0 ^+ 2.
    rewrite /qform /bilin; have -> : x^T *m A *m x = (T *m x)^T *m (diag_mx d *m (T *m x)) by rewrite eA trmx_mul !mulmxA.
    rewrite mul_diag_mx mxE; apply: eq_bigr => i _.
    by rewrite [X in X * _]mxE [X in _ * X]mxE mulrCA expr2.
  split => [[_ p] i|p].
  + have := p (invmx T *m delta_mx i 0).
    rewrite q mulKVmx // (bigD1 i) //= big1 => [|k ki]; last by rewrite mxE (negbTE ki) expr0n mulr0.
    rewrite mxE !eqxx expr1n mulr1 addr0; apply.
    apply/negP => /eqP z; have := mulKVmx uT (delta_mx i (0 : 'I_1)); rewrite z mulmx0.
    by move/matrixP/(_ i 0); rewrite !mxE !eqxx => /eqP; rewrite eq_sym oner_eq0.
  + split; first by rewrite /symmetric eA !trmx_mul trmxK tr_diag_mx mulmxA.
    move=> x x0; rewrite q.
    have : T *m x != 0 by apply/negP => /eqP z; move: x0; rewrite -(mulKmx uT x) z mulmx0 eqxx.
    case/cV0Pn => i ti; rewrite (bigD1 i) //=; apply: ltr_paddr.
      by apply: sumr_ge0 => k _; rewrite mulr_ge0 ?sqr_ge0 // ltW.
    by rewrite mulr_gt0 // lt_def sqr_ge0 andbT expf_neq0.
Qed.
End Back.

(* a lower triangular matrix with rows (1, 0) and (2, 1), and the matrix -I *)
Section Case.
Variable R : rcfType.
Definition low2 : 'M[R]_2 := \matrix_(i, j) (if (i : nat) == 1%N then (if (j : nat) == 1%N then 1 else 2%:R) else ((j : nat) == 0%N)%:R).
Definition neg2 : 'M[R]_2 := diag_mx (\row_i (- 1)).
Example C133_case ln :
  is_trig_mx low2 /\ (forall i, low2 i i != 0)
  /\ (exists X : 'cV[R]_2, torch_solve_triangular true true low2 (\col_i 1) = Ok X /\ low2^T *m X <> \col_i 1)
  /\ (exists v, np_logdet ln neg2 = Ok v) /\ ~ pos_def neg2
  /\ (exists X, np_cholesky_inv neg2 = Ok X) /\ torch_cholesky_inv neg2 = Err LinAlgError.
Proof.
have t : is_trig_mx low2.
  by apply/is_trig_mxP => -[[|[|//]] hi] [[|[|//]] hj] //= _; rewrite mxE.
have d i : low2 i i != 0 by rewrite mxE; case: i => -[|[|//]] h /=; exact: oner_neq0.
split=> //; split=> //; split.
  have [_ [E _]] := C133_torch (\col_(i < 2) (1 : R)) t d; eexists; split; first exact: E.
  move/matrixP/(_ 0 0); rewrite [LHS]mxE !big_ord_recl big_ord0 !mxE /= !divr1 !mulr1 addr0 => /eqP.
  by rewrite eq_sym -subr_eq0 opprD addNKr oppr_eq0 pnatr_eq0.
have np : ~ pos_def neg2.
  have [_ [_ H]] := C133_logdet ln neg2.
  case: (H 1%:M (\row_i (-1)) (unitmx1 _ _)); first by rewrite trmx1 mul1mx mulmx1.
  by move=> _ [h _] /h /(_ 0); rewrite mxE oppr_gt0 ltr10.
have dd : \det neg2 = 1 by rewrite det_diag !big_ord_recl big_ord0 !mxE mulr1 mulrNN mulr1.
split; first by exists (ln (\det neg2)); apply/(proj1 (C133_logdet ln neg2)); rewrite dd ltr01.
split=> //.
have u : neg2 \in unitmx by rewrite unitmxE dd unitr1.
have s : symmetric neg2 by rewrite /symmetric tr_diag_mx.
have [_ [_ [_ /(_ s u np) [h1 h2]]]] := C133_inverse neg2 neg2.
by split=> //; exists (invmx neg2).
Qed.
End Case.

Print Assumptions C133_backends.
Print Assumptions C133_numpy.
Print Assumptions C133_torch.
Print Assumptions C133_wrong.
Print Assumptions C133_inverse.
Print Assumptions C133_cho.
Print Assumptions C133_logdet.
