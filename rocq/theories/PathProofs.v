(* PathProofs.v: sample paths (C35, C36) and Fisher information (C32). *)
From mathcomp Require Import all_ssreflect all_algebra ring.
From Verif Require Import LinAlg KrigModel CholProofs LinQR KrigProofs KrigProofs2 KrigProofs3 LooProofs.
Set Implicit Arguments.
Unset Strict Implicit.
Unset Printing Implicit Defensive.
Import Order.TTheory GRing.Theory Num.Theory.
Local Open Scope ring_scope.

Section Spec.
Variable R : rcfType.

(* contract of a singular value decomposition: orthogonal factors, nonnegative
   singular values, product *)
Definition is_svd n (K : 'M[R]_n) (USV : 'M[R]_n * 'rV[R]_n * 'M[R]_n) : Prop :=
  let '(U, s, Vt) := USV in
  [/\ U^T *m U = 1%:M, Vt *m Vt^T = 1%:M, forall j, 0 <= s 0 j
    & U *m diag_mx s *m Vt = K].

(* A finite probability law on nb paths (columns of Z), column k having
   probability p k; its mean vector and covariance matrix. *)
Definition is_law nb (p : 'cV[R]_nb) : Prop :=
  (forall k, 0 <= p k 0) /\ \sum_k p k 0 = 1.
Definition mean_of N nb (p : 'cV[R]_nb) (Z : 'M[R]_(N, nb)) (i : 'I_N) : R :=
  \sum_k p k 0 * Z i k.
Definition cov_of N nb (p : 'cV[R]_nb) (Z : 'M[R]_(N, nb)) (i j : 'I_N) : R :=
  \sum_k p k 0 * ((Z i k - mean_of p Z i) * (Z j k - mean_of p Z j)).

(* the block of a covariance matrix of all simulated points seen by the
   observation and target indices *)
Definition sub_cov N n m (S : 'M[R]_N) (f : 'I_n -> 'I_N) (g : 'I_m -> 'I_N) : 'M[R]_(n, m) :=
  \matrix_(i, j) S (f i) (g j).
End Spec.

Section Paths.
Variable R : rcfType.

Lemma chol_factor n svd (K C : 'M[R]_n) : symmetric K ->
  path_factor svd MChol K = Ok C -> C *m C^T = K.
Proof.
move=> sK; rewrite /path_factor; case E: (chol K) => [L|//] [<-].
by case: (chol_sound sK E).
Qed.

Lemma chol_factor_ok n svd (K : 'M[R]_n) : symmetric K ->
  (exists C, path_factor svd MChol K = Ok C) <-> pos_def K.
Proof.
move=> sK; rewrite -(chol_some_iff sK) /path_factor; split=> [[C]|[L ->]]; last by exists L.
by case: (chol K) => [L|//] _; exists L.
Qed.

Lemma scale_cols n (U : 'M[R]_n) (s : 'rV[R]_n) :
  \matrix_(i, j) (U i j * s 0 j) = U *m diag_mx s.
Proof. by apply/matrixP => i j; rewrite mul_mx_diag !mxE. Qed.

Lemma diag_sqrt n (s : 'rV[R]_n) : (forall j, 0 <= s 0 j) ->
  diag_mx (\row_j Num.sqrt (s 0 j)) *m diag_mx (\row_j Num.sqrt (s 0 j)) = diag_mx s.
Proof.
move=> s0; rewrite mulmx_diag; congr diag_mx; apply/rowP => j.
by rewrite !mxE -expr2 sqr_sqrtr.
Qed.

(* the SVD factor: C C' is the symmetric positive semidefinite square root of
   K K', hence K itself exactly when K is positive semidefinite *)
Lemma gramC n m (C : 'M[R]_(n, m)) : pos_semidef (C *m C^T).
Proof. by rewrite -{1}[C]trmxK; exact: psd_gram. Qed.

Lemma svd_factor n svd (K : 'M[R]_n) : symmetric K -> is_svd K (svd K) ->
  exists C, [/\ path_factor svd MSvd K = Ok C,
    pos_semidef (C *m C^T), (C *m C^T) *m (C *m C^T) = K *m K
    & C *m C^T = K <-> pos_semidef K].
Proof.
move=> sK; rewrite /path_factor; case E: (svd K) => [[U s] Vt] [UU VV s0 eK].
set C := _ *m Vt; exists C.
have eC : C *m C^T = U *m (diag_mx s *m U^T).
  rewrite /C; have -> : \matrix_(i, j) (U i j * Num.sqrt (s 0 j)) =
      U *m diag_mx (\row_j Num.sqrt (s 0 j)).
    by rewrite -scale_cols; apply/matrixP => i j; rewrite !mxE.
  rewrite !trmx_mul tr_diag_mx -!mulmxA (mulmxA Vt) VV mul1mx.
  by rewrite (mulmxA (diag_mx _) (diag_mx _)) diag_sqrt.
have eKK : C *m C^T *m (C *m C^T) = K *m K.
  rewrite eC -{2}sK -eK !trmx_mul tr_diag_mx -!mulmxA (mulmxA U^T) UU mul1mx.
  by rewrite (mulmxA Vt) VV mul1mx.
split=> //; first exact: gramC.
split=> [<-|pK]; first exact: gramC.
by apply: psd_sqrt_unique => //; exact: gramC.
Qed.

(* ---- conditioning by kriging ---- *)
Definition sel_rows N n (f : 'I_n -> 'I_N) : 'M[R]_(n, N) := \matrix_(i, k) (k == f i)%:R.

Lemma sel_rowsE N n nb (f : 'I_n -> 'I_N) (Z : 'M[R]_(N, nb)) : take_rows Z f = sel_rows f *m Z.
Proof.
apply/matrixP => i j; rewrite !mxE (bigD1 (f i)) //= mxE eqxx mul1r big1 ?addr0 // => k kn.
by rewrite mxE (negbTE kn) mul0r.
Qed.

Lemma sub_covE N n m (S : 'M[R]_N) (f : 'I_n -> 'I_N) (g : 'I_m -> 'I_N) :
  sub_cov S f g = sel_rows f *m S *m (sel_rows g)^T.
Proof.
apply/matrixP => i j; rewrite -sel_rowsE !mxE (bigD1 (g j)) //= !mxE eqxx mulr1 big1 ?addr0 //.
by move=> k kn; rewrite !mxE (negbTE kn) mulr0.
Qed.

Section Cond.
Variables (N ni nt nb : nat) (xi : 'I_ni -> 'I_N) (xt : 'I_nt -> 'I_N).
Implicit Types (Z : 'M[R]_(N, nb)) (lam : 'M[R]_(ni, nt)) (zi : 'cV[R]_ni).

Lemma condE Z zi lam : conditional_sample_paths Z xi zi xt lam =
  (sel_rows xt - lam^T *m sel_rows xi) *m Z + \matrix_(j, k) lincomb (col j lam) zi.
Proof.
rewrite /conditional_sample_paths sel_rowsE.
have -> : \matrix_(i, j) (zi i 0 - take_rows Z xi i j) =
  (\matrix_(i, j) zi i 0 : 'M_(ni, nb)) - sel_rows xi *m Z.
  by rewrite -sel_rowsE; apply/matrixP => i j; rewrite !mxE.
rewrite mulmxBr mulmxBl addrA mulmxA addrAC; congr (_ + _).
by apply/matrixP => i j; rewrite !mxE; apply: eq_bigr => k _; rewrite !mxE.
Qed.

Lemma mean_ofE n m (p : 'cV[R]_m) (Z : 'M[R]_(n, m)) i : mean_of p Z i = (Z *m p) i 0.
Proof. by rewrite mxE; apply: eq_bigr => k _; rewrite mulrC. Qed.

(* mean and covariance of an affine image T Z + c *)
Lemma mean_affine n m k (p : 'cV[R]_m) (T : 'M[R]_(k, n)) (Z : 'M[R]_(n, m)) (c : 'I_k -> R) i :
  is_law p -> mean_of p (T *m Z + \matrix_(a, b) c a) i = (T *m (Z *m p)) i 0 + c i.
Proof.
case=> _ p1; rewrite mean_ofE mulmxDl maddE mulmxA; congr (_ + _).
by rewrite mxE -[RHS]mulr1 -p1 mulr_sumr; apply: eq_bigr => j _; rewrite !mxE.
Qed.

Lemma cov_affine n m k (p : 'cV[R]_m) (T : 'M[R]_(k, n)) (Z : 'M[R]_(n, m)) (c : 'I_k -> R)
  (S : 'M[R]_n) i j :
  is_law p -> (forall i j, cov_of p Z i j = S i j) ->
  cov_of p (T *m Z + \matrix_(a, b) c a) i j = (T *m S *m T^T) i j.
Proof.
move=> lp eS; rewrite /cov_of.
pose D : 'M[R]_(n, m) := \matrix_(a, b) (Z a b - mean_of p Z a).
have dev a b : (T *m Z + \matrix_(a, b) c a) a b - mean_of p (T *m Z + \matrix_(a, b) c a) a
    = (T *m D) a b.
  rewrite mean_affine // maddE [(\matrix_(_, _) _) a b]mxE opprD addrACA subrr addr0.
  have -> : D = Z - (\matrix_(a, b) mean_of p Z a : 'M_(n, m)) by apply/matrixP => u v; rewrite !mxE.
  rewrite mulmxBr msubE; congr (_ - _); rewrite !mxE; apply: eq_bigr => u _.
  by rewrite [in RHS]mxE mean_ofE.
have eS' : S = D *m diag_mx p^T *m D^T.
  apply/matrixP => u v; rewrite -eS /cov_of mul_mx_diag mxE; apply: eq_bigr => b _.
  by rewrite !mxE mulrA [p b 0 * _]mulrC.
under eq_bigr do rewrite !dev.
rewrite eS' -!mulmxA -trmx_mul mulmxA -mulmxA [T *m (_ *m _)]mulmxA mul_diag_mx mxE.
by move: (T *m D) => F; apply: eq_bigr => b _; rewrite !mxE; gring.
Qed.


Lemma joint_sub (S : 'M[R]_N) : S^T = S ->
  joint (sub_cov S xi xi) (sub_cov S xi xt) (sub_cov S xt xt) =
  col_mx (sel_rows xi) (sel_rows xt) *m S *m (col_mx (sel_rows xi) (sel_rows xt))^T.
Proof.
move=> sS; rewrite /joint !sub_covE !trmx_mul trmxK sS tr_col_mx mul_col_mx mul_col_row.
by rewrite !mulmxA.
Qed.

Lemma cond_cov_form (S : 'M[R]_N) lam : S^T = S ->
  (sel_rows xt - lam^T *m sel_rows xi) *m S *m (sel_rows xt - lam^T *m sel_rows xi)^T =
  (col_mx (- lam) 1%:M)^T *m joint (sub_cov S xi xi) (sub_cov S xi xt) (sub_cov S xt xt)
     *m col_mx (- lam) 1%:M.
Proof.
move=> sS; rewrite joint_sub //.
have -> : sel_rows xt - lam^T *m sel_rows xi =
   (col_mx (- lam) 1%:M)^T *m col_mx (sel_rows xi) (sel_rows xt).
  by rewrite tr_col_mx trmx1 linearN /= mul_row_col mul1mx mulNmx addrC.
by rewrite trmx_mul trmxK !mulmxA.
Qed.

Lemma zm_postcov_form (K : 'M[R]_ni) (Kit : 'M[R]_(ni, nt)) Ktt : pos_def K ->
  let lam := zm_lambda K Kit in
  Ktt - lam^T *m Kit = (col_mx (- lam) 1%:M)^T *m joint K Kit Ktt *m col_mx (- lam) 1%:M.
Proof.
move=> pK lam; have e : K *m lam = Kit by rewrite /lam /zm_lambda mulKVmx // pd_unit.
have e' : lam^T *m K = Kit^T by rewrite -[X in _ *m X](pd_sym pK) -trmx_mul e.
rewrite /joint tr_col_mx trmx1 linearN /= mul_row_block mul_row_col !mul1mx !mulmx1 !mulNmx e'.
by rewrite addNr mul0mx add0r addrC.
Qed.

Lemma cov_sym (p : 'cV[R]_nb) Z (S : 'M[R]_N) : (forall i j, cov_of p Z i j = S i j) -> S^T = S.
Proof.
move=> eS; apply/matrixP => i j; rewrite mxE -!eS; apply: eq_bigr => k _.
by rewrite [(Z j k - _) * _]mulrC.
Qed.

Lemma cond_law (p : 'cV[R]_nb) Z (S : 'M[R]_N) zi lam :
  is_law p -> (forall i, mean_of p Z i = 0) -> (forall i j, cov_of p Z i j = S i j) ->
  (forall j, mean_of p (conditional_sample_paths Z xi zi xt lam) j = lincomb (col j lam) zi) /\
  (forall i j, cov_of p (conditional_sample_paths Z xi zi xt lam) i j =
    ((col_mx (- lam) 1%:M)^T *m joint (sub_cov S xi xi) (sub_cov S xi xt) (sub_cov S xt xt)
     *m col_mx (- lam) 1%:M) i j).
Proof.
move=> lp m0 eS; split=> [j|i j]; rewrite condE.
  rewrite mean_affine //.
  have -> : Z *m p = 0 by apply/colP => i; rewrite -mean_ofE m0 mxE.
  by rewrite mulmx0 mxE add0r.
by rewrite (cov_affine _ _ _ _ lp eS) cond_cov_form // (cov_sym eS).
Qed.

(* zero-mean kriging weights: mean and covariance of the conditioned law *)
Lemma cond_law_zero (p : 'cV[R]_nb) Z (S : 'M[R]_N) zi tt :
  is_law p -> (forall i, mean_of p Z i = 0) -> (forall i j, cov_of p Z i j = S i j) ->
  pos_def (sub_cov S xi xi) -> tt_full tt = sub_cov S xt xt ->
  exists lam C,
  [/\ kriging_predictor_with_zero_mean (sub_cov S xi xi) (sub_cov S xi xt) tt 1 = Ok (lam, PVCov C),
      forall j, mean_of p (conditional_sample_paths Z xi zi xt lam) j = lincomb (col j lam) zi
    & forall i j, cov_of p (conditional_sample_paths Z xi zi xt lam) i j = C i j].
Proof.
move=> lp m0 eS pK ett; do 2 eexists; have [h1 h2] := cond_law zi (zm_lambda (sub_cov S xi xi) (sub_cov S xi xt)) lp m0 eS.
split; [exact: krig_zero_ok1 | exact: h1 | move=> i j].
by rewrite h2 -zm_postcov_form // ett.
Qed.

Lemma cond_law_linear q (p : 'cV[R]_nb) Z (S : 'M[R]_N) zi (P : 'M[R]_(ni, q)) (Pt : 'M[R]_(nt, q)) tt :
  is_law p -> (forall i, mean_of p Z i = 0) -> (forall i j, cov_of p Z i j = S i j) ->
  cond_pos_def (sub_cov S xi xi) P -> full_col_rank P -> tt_full tt = sub_cov S xt xt ->
  exists lam C,
  [/\ kriging_predictor_block (sub_cov S xi xi) P (sub_cov S xi xt) Pt tt 1 = Ok (lam, PVCov C),
      forall j, mean_of p (conditional_sample_paths Z xi zi xt lam) j = lincomb (col j lam) zi
    & forall i j, cov_of p (conditional_sample_paths Z xi zi xt lam) i j = C i j].
Proof.
move=> lp m0 eS cK fP ett; do 2 eexists.
have u := uk_lhs_unit cK fP.
have [h1 h2] := cond_law zi (uk_lambda (sub_cov S xi xi) P (sub_cov S xi xt) Pt) lp m0 eS.
split; [exact: krig_block_ok1 | exact: h1 | move=> i j].
by rewrite h2 -uk_postcov_form ?ett //; exact: cK.1.
Qed.

(* pathwise: exact at the observed points, and untouched when the path already
   agrees with the data *)
Lemma cond_interp Z zi lam i j k : col j lam = delta_mx i 0 -> xt j = xi i ->
  conditional_sample_paths Z xi zi xt lam j k = zi i 0.
Proof.
move=> ej ex; rewrite /conditional_sample_paths maddE mxE ex mxE (bigD1 i) //= !mxE.
have lE u : lam u j = (u == i)%:R by have /colP /(_ u) := ej; rewrite !mxE eqxx andbT.
rewrite lE eqxx mul1r big1 ?addr0; first by rewrite addrC subrK.
by move=> u un; rewrite [lam^T _ _]mxE lE (negbTE un) mul0r.
Qed.

Lemma cond_fixed Z zi lam : (forall i k, Z (xi i) k = zi i 0) ->
  conditional_sample_paths Z xi zi xt lam = take_rows Z xt.
Proof.
move=> h; rewrite /conditional_sample_paths.
have -> : \matrix_(i, j) (zi i 0 - take_rows Z xi i j) = 0 :> 'M[R]_(ni, nb).
  by apply/matrixP => i j; rewrite !mxE h subrr.
by rewrite mulmx0 addr0.
Qed.

(* the parameterized-mean variant is the plain one on centred data, plus the
   prior mean at the targets *)
Lemma cond_param Z zi mi (mt : 'cV[R]_nt) lam j k :
  conditional_sample_paths_parameterized_mean Z xi zi mi xt mt lam j k =
  conditional_sample_paths Z xi (zi - mi) xt lam j k + mt j 0.
Proof. by rewrite maddE [(\matrix_(_, _) _) j k]mxE. Qed.

Lemma cond_param_interp Z zi (mi : 'cV[R]_ni) (mt : 'cV[R]_nt) lam i j k :
  col j lam = delta_mx i 0 -> xt j = xi i -> mt j 0 = mi i 0 ->
  conditional_sample_paths_parameterized_mean Z xi zi mi xt mt lam j k = zi i 0.
Proof. by move=> e1 e2 e3; rewrite cond_param (cond_interp _ _ _ e1 e2) e3 msubE subrK. Qed.
End Cond.

(* every positive semidefinite matrix with a square root is the covariance of a
   finite law with mean zero, so the hypotheses above are met *)
Lemma law_exists n (C : 'M[R]_n) : (0 < n)%N ->
  exists (p : 'cV[R]_(n + n)) (Z : 'M[R]_(n, n + n)),
  [/\ is_law p, forall i, mean_of p Z i = 0 & forall i j, cov_of p Z i j = (C *m C^T) i j].
Proof.
move=> n0; pose a : R := (n + n)%:R^-1; pose b : R := Num.sqrt n%:R.
have nn : n%:R != 0 :> R by rewrite pnatr_eq0 -lt0n.
have nn2 : (n + n)%:R != 0 :> R by rewrite pnatr_eq0 addn_eq0 andbb -lt0n.
exists (const_mx a), (row_mx (b *: C) (- (b *: C))).
have m0 i : mean_of (const_mx a) (row_mx (b *: C) (- (b *: C))) i = 0.
  rewrite /mean_of big_split_ord /=.
  under eq_bigr do rewrite row_mxEl; under [X in _ + X]eq_bigr do rewrite row_mxEr.
  rewrite -big_split /= big1 // => k _; rewrite !mxE; gring.
split=> //.
  split=> [k|]; first by rewrite mxE invr_ge0 ler0n.
  by rewrite (eq_bigr (fun=> a)) => [|k _]; rewrite ?mxE // sumr_const card_ord -[a *+ _]mulr_natl divff.
move=> i j; rewrite /cov_of.
under eq_bigr do rewrite !m0 !subr0.
rewrite big_split_ord /=.
under eq_bigr do rewrite !row_mxEl; under [X in _ + X]eq_bigr do rewrite !row_mxEr.
rewrite -big_split /= mxE; apply: eq_bigr => k _; rewrite !mxE.
have b2 : b * b = n%:R by rewrite -expr2 sqr_sqrtr // ler0n.
have ab : a * (n%:R + n%:R) = 1 by rewrite -natrD mulVf.
transitivity ((a * (b * b + b * b)) * (C i k * C j k)); first by gring.
by rewrite b2 ab mul1r.
Qed.
End Paths.

Section Fisher.
Variable R : rcfType.

Definition fisher_trace n (B D1 D2 : 'M[R]_n) : R := 2%:R^-1 * \tr (B *m D1 *m B *m D2).

Lemma fisher_trace_sym n (B D1 D2 : 'M[R]_n) : fisher_trace B D1 D2 = fisher_trace B D2 D1.
Proof.
by rewrite /fisher_trace -!mulmxA [in LHS]mulmxA mxtrace_mulC !mulmxA.
Qed.

Lemma fisher_entries n p (K : 'M[R]_n) (dK : 'I_p -> 'M[R]_n) : K \in unitmx ->
  fisher_information K dK = Ok (\matrix_(i, j) fisher_trace (invmx K) (dK i) (dK j)).
Proof.
move=> u; rewrite /fisher_information /inv u; congr (Ok _); apply/matrixP => i j; rewrite !mxE.
by case: (leqP i j) => _ //; rewrite -/(fisher_trace _ _ _) fisher_trace_sym.
Qed.

Lemma fisher_singular n p (K : 'M[R]_n) (dK : 'I_p -> 'M[R]_n) : K \notin unitmx ->
  fisher_information K dK = Err RuntimeErr.
Proof. by move=> u; rewrite /fisher_information /inv (negbTE u). Qed.

Lemma fisher_qform n p (B : 'M[R]_n) (dK : 'I_p -> 'M[R]_n) (c : 'cV[R]_p) :
  qform (\matrix_(i, j) fisher_trace B (dK i) (dK j)) c =
  let A := \sum_i c i 0 *: dK i in 2%:R^-1 * \tr (B *m A *m (B *m A)).
Proof.
cbv zeta; set A := \sum_i _; rewrite /qform bilinE.
have eBA : B *m A = \sum_i c i 0 *: (B *m dK i).
  by rewrite /A mulmx_sumr; apply: eq_bigr => i _; rewrite scalemxAr.
rewrite eBA mulmx_suml raddf_sum mulr_sumr; apply: eq_bigr => i _.
rewrite mulmx_sumr raddf_sum mulr_sumr; apply: eq_bigr => j _ /=.
rewrite mxE /fisher_trace -scalemxAl -scalemxAr !mxtraceZ !mulmxA.
by move: (\tr _) (c i 0) (c j 0) => t a b; gring.
Qed.

Lemma fisher_sq n (K A : 'M[R]_n) : pos_def K -> A^T = A ->
  0 <= \tr (invmx K *m A *m (invmx K *m A)) /\
  (\tr (invmx K *m A *m (invmx K *m A)) = 0 -> A = 0).
Proof.
move=> pK sA; have [L cL] : exists L, is_chol K L.
  by have [L /(chol_sound (pd_sym pK))] := chol_complete pK; exists L.
have uL := is_chol_unit cL; have uLt : L^T \in unitmx by rewrite unitmx_tr.
pose M := invmx L *m A *m invmx L^T.
have sM : M^T = M by rewrite /M !trmx_mul trmx_inv trmxK sA trmx_inv !mulmxA.
have e : \tr (invmx K *m A *m (invmx K *m A)) = \tr (M^T *m M).
  by rewrite sM (is_chol_inv cL) /M -!mulmxA mxtrace_mulC !mulmxA.
rewrite e; split=> [|/trace_gram_eq0 M0]; first exact: trace_gram_ge0.
have : L *m M *m L^T = 0 by rewrite M0 mulmx0 mul0mx.
by rewrite /M !mulmxA mulmxV // mul1mx -mulmxA mulVmx // mulmx1.
Qed.

Lemma sum_sym n p (dK : 'I_p -> 'M[R]_n) (c : 'cV[R]_p) : (forall i, symmetric (dK i)) ->
  (\sum_i c i 0 *: dK i)^T = \sum_i c i 0 *: dK i.
Proof. by move=> s; rewrite raddf_sum; apply: eq_bigr => i _; rewrite /= linearZ /= s. Qed.

Lemma fisher_psd_gen n p (K : 'M[R]_n) (dK : 'I_p -> 'M[R]_n) : pos_def K ->
  (forall i, symmetric (dK i)) ->
  let I := \matrix_(i, j) fisher_trace (invmx K) (dK i) (dK j) in
  pos_semidef I /\ forall c : 'cV[R]_p, qform I c = 0 <-> \sum_i c i 0 *: dK i = 0.
Proof.
move=> pK sD I.
have sI : symmetric I by apply/matrixP => i j; rewrite !mxE fisher_trace_sym.
have h (c : 'cV[R]_p) : qform I c = 2%:R^-1 *
     \tr (invmx K *m (\sum_i c i 0 *: dK i) *m (invmx K *m (\sum_i c i 0 *: dK i))).
  exact: fisher_qform.
have p2 : 0 < 2%:R^-1 :> R by rewrite invr_gt0 ltr0n.
split=> [|c].
  split=> // c; rewrite h pmulr_rge0 //.
  by case: (fisher_sq pK (sum_sym c sD)).
rewrite h; split=> [|->]; last by rewrite mulmx0 mul0mx linear0 mulr0.
by move/eqP; rewrite mulf_eq0 (gt_eqF p2) /= => /eqP; case: (fisher_sq pK (sum_sym c sD)).
Qed.

Lemma fisher_psd n p (K : 'M[R]_n) (dK : 'I_p -> 'M[R]_n) : pos_def K ->
  (forall i, symmetric (dK i)) ->
  exists I, [/\ fisher_information K dK = Ok I,
    forall i j, I i j = \tr (invmx K *m dK i *m invmx K *m dK j) / 2%:R,
    pos_semidef I
    & forall c : 'cV[R]_p, qform I c = 0 <-> \sum_i c i 0 *: dK i = 0].
Proof.
move=> pK sD; exists (\matrix_(i, j) fisher_trace (invmx K) (dK i) (dK j)).
have [h1 h2] := fisher_psd_gen pK sD.
split=> //; first by rewrite fisher_entries ?pd_unit.
by move=> i j; rewrite mxE mulrC.
Qed.

(* finite differences of a symmetric-matrix-valued function are symmetric *)
Lemma fd_sym n (f : R -> 'M[R]_n) x h : (forall t, symmetric (f t)) ->
  symmetric (derivative_finite_diff f x h).
Proof.
move=> s; apply/matrixP => i j; rewrite !mxE.
have e t : f t j i = f t i j by rewrite -{1}(s t) mxE.
by rewrite !e.
Qed.

Lemma fisher_fd n p (cov : 'rV[R]_p -> 'M[R]_n) theta eps :
  (forall t, symmetric (cov t)) -> pos_def (cov theta) ->
  exists I, fisher_information_fd cov theta eps = Ok I /\ pos_semidef I.
Proof.
move=> s pK; have [I [h1 _ h2 _]] := fisher_psd pK
  (fun i => fd_sym (f := fun v => cov (set_coord theta i v)) (theta 0 i) eps (fun t => s _)).
by exists I.
Qed.

(* contrast space *)
Section Cpd.
Variables (q r p : nat) (qr : qr_fun R q r) (K : 'M[R]_(q + r)) (P : 'M[R]_(q + r, q)).
Variable dK : 'I_p -> 'M[R]_(q + r).
Hypothesis qrP : is_qr P (qr P).
Hypothesis cK : cond_pos_def K P.
Let W := rsubmx (qr P).1.
Let G := W^T *m (K *m W).

Lemma fisher_cpd_entries :
  fisher_information_cpd qr K P dK =
    Ok (\matrix_(i, j) fisher_trace (invmx G) (W^T *m dK i *m W) (W^T *m dK j *m W)).
Proof.
rewrite /fisher_information_cpd; case E: (qr P) => [Q Rm].
have eW : rsubmx Q = W by rewrite /W E.
rewrite eW -/G; have pG : pos_def G by exact: G_pd.
have [L EL] := chol_complete pG; rewrite EL; have cL := chol_sound (pd_sym pG) EL.
congr (Ok _); apply/matrixP => i j; rewrite !mxE.
have t a b : 2%:R^-1 * \tr (invmx L^T *m (invmx L *m (W^T *m (dK a *m W))) *m
   (invmx L^T *m (invmx L *m (W^T *m (dK b *m W))))) =
   fisher_trace (invmx G) (W^T *m dK a *m W) (W^T *m dK b *m W).
  by rewrite /fisher_trace (is_chol_inv cL) !mulmxA.
by case: (leqP i j) => _; rewrite t // fisher_trace_sym.
Qed.

(* the returned matrix depends on the trend only through the unique matrix B
   with P'B = 0 and KB + PC = 1 *)
Lemma fisher_cpd_B (B : 'M[R]_(q + r)) (C : 'M[R]_(q, q + r)) : full_col_rank P ->
  P^T *m B = 0 -> K *m B + P *m C = 1%:M ->
  exists I, fisher_information_cpd qr K P dK = Ok I /\
    forall i j, I i j = \tr (B *m dK i *m B *m dK j) / 2%:R.
Proof.
move=> fP PB KB; rewrite fisher_cpd_entries; eexists; split=> // i j.
have eB : W *m (invmx G *m W^T) = B.
  have [C0 [_ PB0 KB0]] := cpd_B qrP cK fP.
  have u := uk_lhs_unit cK fP.
  have tz : P^T *m B = (0 : 'M[R]_(q + r, q))^T by rewrite trmx0.
  have tz' : P^T *m (W *m (invmx G *m W^T)) = (0 : 'M[R]_(q + r, q))^T by rewrite trmx0.
  by have [-> _] := uk_uniq u KB0 tz'; have [-> _] := uk_uniq u KB tz.
rewrite mxE /fisher_trace mulrC; congr (_ / _); rewrite -eB.
by rewrite -!mulmxA [RHS]mxtrace_mulC -!mulmxA.
Qed.

Lemma fisher_cpd_psd : full_col_rank P -> (forall i, symmetric (dK i)) ->
  exists I, [/\ fisher_information_cpd qr K P dK = Ok I, pos_semidef I
   & forall c : 'cV[R]_p, qform I c = 0 <->
       (forall u v : 'cV[R]_(q + r), P^T *m u = 0 -> P^T *m v = 0 ->
          bilin (\sum_i c i 0 *: dK i) u v = 0)].
Proof.
move=> fP sD; rewrite fisher_cpd_entries; eexists; split; first reflexivity.
all: have pG : pos_def G by exact: G_pd.
all: have sG i : symmetric (W^T *m dK i *m W) by rewrite /symmetric !trmx_mul trmxK sD mulmxA.
  by case: (fisher_psd_gen pG sG).
move=> c; have [_ ->] := fisher_psd_gen pG sG.
have -> : \sum_i c i 0 *: (W^T *m dK i *m W) = W^T *m (\sum_i c i 0 *: dK i) *m W.
  rewrite mulmx_sumr mulmx_suml; apply: eq_bigr => i _.
  by rewrite -scalemxAr -scalemxAl.
set A := \sum_i _; have [eP QQ WW QW QQW] := qr_blocks qrP; rewrite -/W in WW QW QQW.
split=> [h u v Pu Pv|h].
  have wu (x : 'cV[R]_(q + r)) : P^T *m x = 0 -> x = W *m (W^T *m x).
    rewrite {1}eP trmx_mul -mulmxA => h0.
    have uR : (usubmx (qr P).2)^T \in unitmx by rewrite unitmx_tr; exact: qr_Rq_unit qrP fP.
    have h1 := inj_of_unit uR h0.
    by rewrite -[LHS]mul1mx -QQW mulmxDl -mulmxA h1 mulmx0 add0r mulmxA.
  rewrite (wu u Pu) (wu v Pv) /bilin trmx_mul -!mulmxA.
  by rewrite (mulmxA A) (mulmxA W^T) [W^T *m (A *m W)]mulmxA h mul0mx mulmx0 mxE.
have PW : P^T *m W = 0 by rewrite eP trmx_mul -mulmxA QW mulmx0.
apply/matrixP => i j; rewrite [RHS]mxE -bilin_delta -bilin_mulr -bilin_mull.
by apply: h; rewrite mulmxA PW mul0mx.
Qed.
End Cpd.
End Fisher.
