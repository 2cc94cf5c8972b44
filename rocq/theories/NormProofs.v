(* NormProofs.v: the squared norm z'Bz, and traces of products with B, when some of the
   data are left out (properties C124 and C125). *)
From mathcomp Require Import all_ssreflect all_algebra ring.
From Verif Require Import LinAlg KrigModel CholProofs LinQR KrigProofs KrigProofs2
  KrigProofs3 LooProofs PathProofs OrderModel OrderProofs UpdProofs.
Set Implicit Arguments.
Unset Strict Implicit.
Unset Printing Implicit Defensive.
Import Order.TTheory GRing.Theory Num.Theory.
Local Open Scope ring_scope.

Section Norm.
Variables (R : rcfType) (n k q q' : nat).
Variables (K B : 'M[R]_n) (P : 'M[R]_(n, q)) (C : 'M[R]_(q, n)).
Variables (K' B' : 'M[R]_k) (P' : 'M[R]_(k, q')) (C' : 'M[R]_(q', k)).
Variables (S : 'M[R]_(n, k)) (A : 'M[R]_(q', q)).
Hypothesis cK : cond_pos_def K P.
Hypothesis sB : symmetric B.
Hypothesis PB : P^T *m B = 0.
Hypothesis KB : K *m B + P *m C = 1%:M.
Hypothesis sB' : symmetric B'.
Hypothesis PB' : P'^T *m B' = 0.
Hypothesis KB' : K' *m B' + P' *m C' = 1%:M.
Hypothesis sK' : symmetric K'.
Hypothesis SP : S^T *m P = P' *m A.
Hypothesis le : forall w : 'cV[R]_k, qform K (S *m w) <= qform K' w.

Lemma BP0 : B *m P = 0.
Proof. by rewrite -[B]sB -[P]trmxK -trmx_mul PB trmx0. Qed.
Lemma BP0' : B' *m P' = 0.
Proof. by rewrite -[B']sB' -[P']trmxK -trmx_mul PB' trmx0. Qed.
Lemma BKB : B *m K *m B = B.
Proof.
have e : K *m B = 1%:M - P *m C by rewrite -KB addrK.
by rewrite -mulmxA e mulmxBr mulmx1 mulmxA BP0 mul0mx subr0.
Qed.
Lemma BKB' : B' *m K' *m B' = B'.
Proof.
have e : K' *m B' = 1%:M - P' *m C' by rewrite -KB' addrK.
by rewrite -mulmxA e mulmxBr mulmx1 mulmxA BP0' mul0mx subr0.
Qed.

Lemma bilinE m (M : 'M[R]_m) (x y : 'cV[R]_m) : bilin M x y = (x^T *m M *m y) 0 0.
Proof. by []. Qed.
Lemma qE m (M : 'M[R]_m) (x : 'cV[R]_m) : qform M x = (x^T *m M *m x) 0 0.
Proof. by []. Qed.

Lemma PSB : P^T *m (S *m B') = 0.
Proof.
have h : P^T *m S = A^T *m P'^T by rewrite -trmx_mul -SP trmx_mul trmxK.
by rewrite mulmxA h -mulmxA PB' mulmx0.
Qed.

Let w z : 'cV[R]_n := B *m z.
Let u z : 'cV[R]_n := S *m (B' *m (S^T *m z)).

(* the two combinations have no component along the trend *)
Lemma qform_w z : qform K (w z) = qform B z.
Proof.
rewrite !qE /w [(B *m z)^T]trmx_mul sB; congr (fun_of_matrix _ 0 0).
by rewrite -[in RHS]BKB !mulmxA.
Qed.
Lemma bilin_wu z : ((w z)^T *m K *m u z) 0 0 = qform B' (S^T *m z).
Proof.
rewrite /w /u qE [(B *m z)^T]trmx_mul sB [(S^T *m z)^T]trmx_mul trmxK.
congr (fun_of_matrix _ 0 0).
have e : B *m K = 1%:M - C^T *m P^T.
  have h : (K *m B)^T = 1%:M - (P *m C)^T.
    rewrite -[1%:M]trmx1 -KB; have -> : (K *m B + P *m C)^T = (K *m B)^T + (P *m C)^T by apply/matrixP => i j; rewrite !mxE.
    by rewrite addrK.
  by rewrite -trmx_mul -h trmx_mul sB (cK.1).
by rewrite -(mulmxA z^T) e mulmxBr mulmx1 mulmxBl !mulmxA -(mulmxA _ P^T S) -(mulmxA _ (P^T *m S) B') -(mulmxA P^T) PSB mulmx0 !mul0mx subr0.
Qed.
Lemma qform_u' z : qform K' (B' *m (S^T *m z)) = qform B' (S^T *m z).
Proof.
rewrite !qE [(B' *m (S^T *m z))^T]trmx_mul sB'; congr (fun_of_matrix _ 0 0).
by rewrite -[in RHS]BKB' !mulmxA.
Qed.

Lemma norm_diff z : qform K (w z - u z) = qform B z - 2%:R * qform B' (S^T *m z) + qform K (u z).
Proof.
have sw : ((u z)^T *m K *m w z) 0 0 = ((w z)^T *m K *m u z) 0 0.
  have -> : (u z)^T *m K *m w z = ((w z)^T *m K *m u z)^T.
    by move: (w z) (u z) => a b; rewrite !trmx_mul trmxK (cK.1) mulmxA.
  by rewrite mxE.
rewrite -qform_w -bilin_wu !qE.
have -> : (w z - u z)^T = (w z)^T - (u z)^T by apply/matrixP => i j; rewrite !mxE.
rewrite !mulmxBl !mulmxBr.
move: sw; set a := (w z)^T *m K *m w z; set b := (w z)^T *m K *m u z.
set d := (u z)^T *m K *m w z; set e := (u z)^T *m K *m u z => sw.
have E (M N : 'M[R]_1) : (M - N) 0 0 = M 0 0 - N 0 0 by rewrite !mxE.
rewrite !E sw; move: (a 0 0) (b 0 0) (e 0 0) => f g h; clear; ring.
Qed.

Lemma w_contrast z : P^T *m (w z - u z) = 0.
Proof. by rewrite mulmxBr /w /u !mulmxA PB -(mulmxA P^T) PSB !mul0mx subrr. Qed.

Lemma cpd_ge0 (v : 'cV[R]_n) : P^T *m v = 0 -> 0 <= qform K v.
Proof.
move=> hv; have [->|vn] := eqVneq v 0; first by rewrite qE mulmx0 mxE.
by apply: ltW; case: cK => _; apply.
Qed.

Lemma norm_le z : qform B' (S^T *m z) <= qform B z.
Proof.
have h := cpd_ge0 (w_contrast z); rewrite norm_diff in h.
have h' := le (B' *m (S^T *m z)); rewrite qform_u' -/(u z) in h'.
move: h h'; move: (qform B z) (qform B' _) (qform K (u z)) => a b c h h'.
rewrite -subr_ge0; have -> : a - b = (a - 2%:R * b + c) + (b - c) by clear; ring.
by apply: addr_ge0; rewrite // subr_ge0.
Qed.

(* with the covariance unchanged *)
Lemma norm_eq z : K' = S^T *m K *m S -> qform B' (S^T *m z) = qform B z <-> B *m z = S *m (B' *m (S^T *m z)).
Proof.
move=> eK; have hu : qform K (u z) = qform B' (S^T *m z).
  by rewrite -qform_u' eK /u qform_mul.
have := norm_diff z; rewrite hu; set b := qform B' _; set a := qform B z => E.
have E' : qform K (w z - u z) = a - b by rewrite E; clear; ring.
split=> [ab|h]; last first.
  have : w z - u z = 0 by rewrite /w /u -h subrr.
  by move=> e0; move: E'; rewrite e0 qE mulmx0 mxE => /esym /eqP; rewrite subr_eq0 => /eqP ->.
rewrite ab subrr in E'; apply/eqP; rewrite -subr_eq0; apply/negPn/negP => nz.
by have := cK.2 (w z - u z) (w_contrast z) nz; rewrite E' ltxx.
Qed.

Lemma norm_ge0 z : 0 <= qform B z.
Proof. by rewrite -qform_w; apply: cpd_ge0; rewrite /w mulmxA PB mul0mx. Qed.
Lemma norm_0 z : qform B z = 0 <-> exists b, z = P *m b.
Proof.
split=> [h|[b ->]]; last by rewrite qE -!mulmxA (mulmxA B) BP0 mul0mx !mulmx0 mxE.
have : w z = 0.
  apply/eqP/negPn/negP => nz; have hc : P^T *m w z = 0 by rewrite /w mulmxA PB mul0mx.
  by have := cK.2 (w z) hc nz; rewrite qform_w h ltxx.
by rewrite /w => h0; exists (C *m z); rewrite -[LHS]mul1mx -KB mulmxDl -(mulmxA K) h0 mulmx0 add0r mulmxA.
Qed.
End Norm.

Section Trace.
Variable R : rcfType.

Lemma tr_psd n l (E : 'M[R]_n) (M : 'M[R]_(n, l)) : (forall z : 'cV[R]_n, 0 <= qform E z) -> 0 <= \tr (M^T *m E *m M).
Proof.
move=> h; rewrite /mxtrace; apply: sumr_ge0 => j _.
have := h (col j M); rewrite qE.
suff -> : ((col j M)^T *m E *m col j M) 0 0 = (M^T *m E *m M) j j by [].
rewrite tr_col -row_mul [LHS]mxE [RHS]mxE; apply: eq_bigr => a _.
by congr (_ * _); [rewrite [LHS]mxE | rewrite [LHS]mxE].
Qed.

(* the trace of (BD)^2 grows with B *)
Lemma tr_le n l l' (B B0 D : 'M[R]_n) (N : 'M[R]_(n, l)) (N0 : 'M[R]_(n, l')) :
  B = N *m N^T -> B0 = N0 *m N0^T -> symmetric D -> (forall z : 'cV[R]_n, qform B0 z <= qform B z) ->
  \tr (B0 *m D *m B0 *m D) <= \tr (B *m D *m B *m D).
Proof.
move=> eB eB0 sD le; set E := B - B0.
have pE (z : 'cV[R]_n) : 0 <= qform E z.
  by rewrite /E /qform bilin_addm bilin_oppm subr_ge0; exact: le.
have -> : B *m D *m B *m D = B0 *m D *m B0 *m D + (E *m D *m B *m D + B0 *m D *m E *m D).
  rewrite /E !(mulmxBl, mulmxBr) (addrA (B0 *m D *m B0 *m D)).
  have al (a b c : 'M[R]_n) : a = c + (a - b) + (b - c) by rewrite -addrA subrKA addrC subrK.
  exact: al.
rewrite mxtraceD ler_addl mxtraceD; apply: addr_ge0.
  have -> : \tr (E *m D *m B *m D) = \tr ((D *m N)^T *m E *m (D *m N)).
    rewrite trmx_mul sD eB -!mulmxA; rewrite !mulmxA -(mulmxA _ N^T D) mxtrace_mulC.
    by rewrite !mulmxA.
  exact: tr_psd.
have -> : \tr (B0 *m D *m E *m D) = \tr ((D *m N0)^T *m E *m (D *m N0)).
  rewrite trmx_mul sD eB0 -!mulmxA mxtrace_mulC; by rewrite !mulmxA.
exact: tr_psd.
Qed.

(* B = W G^-1 W' as a product *)
Lemma G_factor n r (W : 'M[R]_(n, r)) (G : 'M[R]_r) : pos_def G ->
  exists N : 'M[R]_(n, r), W *m (invmx G *m W^T) = N *m N^T.
Proof.
move=> pG; have [L EL] := chol_complete pG; have cL := chol_sound (pd_sym pG) EL.
by exists (W *m invmx L^T); rewrite trmx_mul (is_chol_inv cL) [(invmx L^T)^T]trmx_inv trmxK !mulmxA.
Qed.
End Trace.

(* the norm of a subset of the data equals that of all of them exactly when the others
   are predicted without error *)
Section Subset.
Variables (R : rcfType) (n k q : nat) (f : 'I_k -> 'I_n).
Variables (K B : 'M[R]_n) (P : 'M[R]_(n, q)) (C : 'M[R]_(q, n)).
Let S := sel R f.
Let K1 := S^T *m K *m S.
Let P1 := S^T *m P.
Variables (B1 : 'M[R]_k) (C1 : 'M[R]_(q, k)) (Kx : 'M[R]_(k, n)).
Hypothesis fi : injective f.
Hypothesis cK : cond_pos_def K P.
Hypothesis fP : full_col_rank P1.
Hypothesis sB : symmetric B.
Hypothesis PB : P^T *m B = 0.
Hypothesis KB : K *m B + P *m C = 1%:M.
Hypothesis sB1 : symmetric B1.
Hypothesis PB1 : P1^T *m B1 = 0.
Hypothesis KB1 : K1 *m B1 + P1 *m C1 = 1%:M.
Hypothesis hx : forall l a, (forall i, f i != l) -> Kx a l = (S^T *m K) a l.

Lemma sub_norm_eq (z : 'cV[R]_n) : qform B1 (S^T *m z) = qform B z <->
  forall l, (forall i, f i != l) -> z l 0 = ((uk_lambda K1 P1 Kx P)^T *m (S^T *m z)) l 0.
Proof.
have c1 : cond_pos_def K1 P1 by exact: sub_cpd.
have u1 := uk_lhs_unit c1 fP.
have le0 (w : 'cV[R]_k) : qform K (S *m w) <= qform K1 w by rewrite qform_mul.
have eP : S^T *m P = P1 *m 1%:M by rewrite mulmx1.
have iff := @norm_eq _ _ _ _ _ _ _ _ C _ _ _ C1 S 1%:M cK sB PB KB sB1 PB1 KB1 eP z erefl.
apply: (iff_trans iff).
pose y := S^T *m z; pose b := B1 *m y; pose beta := C1 *m y.
have e1 : K1 *m b + P1 *m beta = y by rewrite /b /beta (mulmxA K1) (mulmxA P1) -mulmxDl KB1 mul1mx.
have e2 : P1^T *m b = 0 by rewrite /b mulmxA PB1 mul0mx.
have ePb : P^T *m (S *m b) = 0 by move: e2; rewrite /P1 trmx_mul trmxK mulmxA.
have pE l : (forall i, f i != l) ->
    ((uk_lambda K1 P1 Kx P)^T *m y) l 0 = (K *m (S *m b) + P *m beta) l 0.
  move=> nl; rewrite (uk_dual Kx P c1.1 u1 e1 e2) !maddE; congr (_ + _).
  have -> : K *m (S *m b) = (S^T *m K)^T *m b by rewrite trmx_mul trmxK cK.1 mulmxA.
  by rewrite [LHS]mxE [RHS]mxE; apply: eq_bigr => a _; rewrite 2![_^T l a]mxE (hx _ nl).
split=> [h l nl|h].
  rewrite (pE l nl); congr (fun_of_matrix _ l 0).
  have ez : K *m (S *m b) + P *m (C *m z) = z.
    by rewrite /b -h !mulmxA -mulmxDl KB mul1mx.
  rewrite -[LHS]ez; congr (_ + P *m _); apply/eqP; rewrite -subr_eq0; apply/eqP; apply: fP.
  have : y = K1 *m b + P1 *m (C *m z) by rewrite /K1 /P1 -!mulmxA -mulmxDr ez.
  by rewrite -[LHS]e1 => /addrI e; rewrite mulmxBr e subrr.
have ez : z = K *m (S *m b) + P *m beta.
  apply/colP => l; have [/existsP [i /eqP <-]|/existsPn nl] := boolP [exists i, f i == l].
    have := e1; rewrite /K1 /P1 -!mulmxA -mulmxDr => /colP /(_ i).
    by rewrite /y -!rows_ofE mxE [RHS]mxE.
  by rewrite (h l nl) pE.
have BP : B *m P = 0 by exact: BP0.
have e : B *m K = 1%:M - C^T *m P^T.
  have h0 : (K *m B)^T = 1%:M - (P *m C)^T.
    rewrite -[1%:M]trmx1 -KB; have -> : (K *m B + P *m C)^T = (K *m B)^T + (P *m C)^T by apply/matrixP => i j; rewrite !mxE.
    by rewrite addrK.
  by rewrite -trmx_mul -h0 trmx_mul sB (cK.1).
have -> : B *m z = B *m K *m (S *m b) + B *m P *m beta by rewrite {1}ez mulmxDr -!(mulmxA B).
by rewrite BP mul0mx addr0 e mulmxBl mul1mx -mulmxA ePb mulmx0 subr0.
Qed.
End Subset.
