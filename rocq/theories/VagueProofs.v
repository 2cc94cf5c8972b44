(* VagueProofs.v
   Matrix lemmas for C120: a covariance K + s P P^T with s large. *)
From Coq Require Import Reals.
From mathcomp Require Import all_ssreflect all_fingroup all_algebra ring.
From Verif Require Import LinAlg KrigModel CholProofs LinQR KrigProofs KrigProofs2
  KrigProofs3 LooProofs UpdProofs.
Set Implicit Arguments.
Unset Strict Implicit.
Unset Printing Implicit Defensive.
Import Order.TTheory GRing.Theory Num.Theory.
Local Open Scope ring_scope.

Section Vague.
Variable R : rcfType.

Lemma sq_prod (a b : R) : a * b <= (a ^+ 2 + b ^+ 2) / 2%:R.
Proof.
rewrite ler_pdivl_mulr ?ltr0n // -subr_ge0.
have -> : a ^+ 2 + b ^+ 2 - a * b * 2%:R = (a - b) ^+ 2 by ring.
exact: sqr_ge0.
Qed.

(* squared length *)
Definition norm2 n (v : 'cV[R]_n) : R := \sum_i v i 0 ^+ 2.
Lemma norm2E n (v : 'cV[R]_n) : qform 1%:M v = norm2 v. Proof. exact: qform1. Qed.
Lemma norm2_ge0 n (v : 'cV[R]_n) : 0 <= norm2 v. Proof. by rewrite -norm2E; exact: qform1_ge0. Qed.
Lemma norm2_gt0 n (v : 'cV[R]_n) : v != 0 -> 0 < norm2 v.
Proof. by move=> vn; rewrite -norm2E; exact: (pos_def1 R n).2. Qed.
Lemma norm2_le n (v : 'cV[R]_n) i : v i 0 ^+ 2 <= norm2 v.
Proof. by rewrite /norm2 (bigD1 i) //= ler_addl; apply: sumr_ge0 => j _; exact: sqr_ge0. Qed.

Lemma bilin_entry n1 n2 m1 m2 (A : 'M[R]_(n1, n2)) (Y : 'M[R]_(n1, m1)) (Z : 'M[R]_(n2, m2)) i j :
  (Y^T *m A *m Z) i j = bilin A (col i Y) (col j Z).
Proof. by rewrite !colE bilin_mull bilin_mulr bilin_delta. Qed.

(* size of a matrix *)
Definition size1 n (F : 'M[R]_n) : R := \sum_i \sum_j `|F i j|.
Lemma size1_ge0 n (F : 'M[R]_n) : 0 <= size1 F.
Proof. by apply: sumr_ge0 => i _; apply: sumr_ge0 => j _; exact: normr_ge0. Qed.
Lemma qform_size1 n (F : 'M[R]_n) v : `|qform F v| <= size1 F * norm2 v.
Proof.
rewrite /qform bilinE; apply: le_trans (ler_norm_sum _ _ _) _.
rewrite /size1 mulr_suml; apply: ler_sum => i _.
apply: le_trans (ler_norm_sum _ _ _) _; rewrite mulr_suml; apply: ler_sum => j _.
rewrite !normrM mulrAC mulrC; apply: ler_wpmul2l; first exact: normr_ge0.
apply: le_trans (sq_prod _ _) _; rewrite !real_normK ?num_real // ler_pdivr_mulr ?ltr0n //.
by rewrite mulr_natr mulr2n; apply: ler_add; exact: norm2_le.
Qed.

(* determinants between powers of the bounds of a quadratic form *)
Lemma det_bounds n (A : 'M[R]_n) m M : symmetric A -> 0 < m ->
  (forall v, m * norm2 v <= qform A v) -> (forall v, qform A v <= M * norm2 v) ->
  m ^+ n <= \det A <= M ^+ n.
Proof.
move=> + m0; elim: n A => [|n IH]; first by move=> A _ _ _; rewrite det_mx00 !expr0 lexx.
rewrite -[n.+1]/(1 + n)%N => A sA lo hi.
have pdA : pos_def A.
  by split=> // v vn; apply: lt_le_trans (lo v); rewrite mulr_gt0 // norm2_gt0.
have eA := sym_block sA; move: lo hi (pdA); rewrite eA.
move: (ulsubmx A) (ursubmx A) (drsubmx A) => a B D lo hi pd.
have pda := pd_block_ul pd; have sa := pda.1; have ua := pd_unit pda.
rewrite det_schur //.
have nb (x : 'cV[R]_1) (y : 'cV[R]_n) : norm2 (col_mx x y) = norm2 x + norm2 y.
  by rewrite /norm2 big_split_ord; congr (_ + _); apply: eq_bigr => i _; rewrite ?col_mxEu ?col_mxEd.
have n0 k : norm2 (0 : 'cV[R]_k) = 0 by rewrite -norm2E qform0.
have d1 : m <= a 0 0 <= M.
  have := lo (col_mx 1%:M 0); have := hi (col_mx 1%:M 0).
  rewrite nb n0 addr0 /norm2 big_ord1 mxE eqxx expr1n !mulr1.
  rewrite qform_block qform0 addr0 {1 3}/bilin mulmx0 {1 2}mxE addr0 /bilin trmx0 !mul0mx {1 2}mxE addr0.
  by rewrite /qform /bilin trmx1 mul1mx mulmx1 => -> ->.
have dS : m ^+ n <= \det (D - B^T *m invmx a *m B) <= M ^+ n.
  apply: IH; first exact: (schur_pd pd).1.
  - move=> y; have := lo (col_mx (- (invmx a *m B *m y)) y).
    rewrite schur_qform // addNr qform0 add0r nb; apply: le_trans.
    by rewrite mulrDr ler_addr mulr_ge0 ?norm2_ge0 // ltW.
  - move=> y; have := hi (col_mx 0 y).
    rewrite schur_qform // nb n0 !add0r; apply: le_trans.
    by rewrite ler_addr; exact: (pd_psd pda).2.
have -> : \det a = a 0 0 by rewrite {1}[a]mx11E det_scalar1.
rewrite !exprS; move: d1 dS => /andP[h1 h2] /andP[h3 h4].
have Mp : 0 <= M by apply: le_trans h2; apply: le_trans h1; exact: ltW.
apply/andP; split.
  by apply: ler_pmul => //; [exact: ltW | apply: exprn_ge0; exact: ltW].
by apply: ler_pmul => //; [apply: le_trans h1; exact: ltW | apply: le_trans h3; apply: exprn_ge0; exact: ltW].
Qed.

(* s I - F *)
Section Shift.
Variables (n : nat) (F : 'M[R]_n) (s : R).
Hypothesis sF : symmetric F.
Hypothesis sf : size1 F < s.
Let A : 'M[R]_n := s%:M - F.
Let N := invmx A.

Lemma shift_q v : qform A v = s * norm2 v - qform F v.
Proof. by rewrite /A -scalemx1 /qform bilin_addm bilin_oppm bilin_scalem -!/(qform _ _) norm2E. Qed.
Lemma shift_sym : symmetric A.
Proof. by rewrite /symmetric /A linearB /= tr_scalar_mx sF. Qed.
Lemma shift_lo v : (s - size1 F) * norm2 v <= qform A v.
Proof.
rewrite shift_q mulrBl ler_add2l ler_oppl opprK.
exact: le_trans (ler_norm _) (qform_size1 F v).
Qed.
Lemma shift_hi v : qform A v <= (s + size1 F) * norm2 v.
Proof.
rewrite shift_q mulrDl ler_add2l.
by apply: le_trans (qform_size1 F v); rewrite -normrN; exact: ler_norm.
Qed.
Lemma shift_pos : 0 < s - size1 F. Proof. by rewrite subr_gt0. Qed.
Lemma shift_pd : pos_def A.
Proof.
split=> [|v vn]; first exact: shift_sym.
by apply: lt_le_trans (shift_lo v); rewrite mulr_gt0 ?shift_pos ?norm2_gt0.
Qed.
Lemma shift_det : (s - size1 F) ^+ n <= \det A <= (s + size1 F) ^+ n.
Proof. exact: det_bounds shift_sym shift_pos shift_lo shift_hi. Qed.
Lemma shiftN_pd : pos_def N. Proof. exact: pd_inv shift_pd. Qed.

Lemma shiftN_q v : qform N v <= norm2 v / (s - size1 F).
Proof.
have sp := shift_pos; set e := s - size1 F in sp *.
have uA := pd_unit shift_pd.
pose w := N *m v.
have qw : qform A w = qform N v.
  by rewrite /w qform_mul shiftN_pd.1 /N mulVmx // mul1mx.
have vw : bilin 1%:M v w = qform N v by rewrite /w bilin_mulr mul1mx.
have lo := shift_lo w; rewrite qw -/e in lo.
have sq : 0 <= norm2 (v - e *: w) by exact: norm2_ge0.
rewrite -norm2E qformD ?norm2E ?tr_scalar_mx // in sq; last exact: trmx1.
move: sq; rewrite -[norm2 (- _)]norm2E qformN qformZ bilinNr bilinZr vw !norm2E => sq.
rewrite ler_pdivl_mulr //.
have h1 : e ^+ 2 * norm2 w <= e * qform N v by rewrite expr2 -mulrA ler_pmul2l.
have h2 : 0 <= norm2 v + 2%:R * - (e * qform N v) + e * qform N v.
  by apply: le_trans sq _; rewrite ler_add2l.
rewrite -subr_ge0; apply: le_trans h2 _.
by rewrite le_eqVlt; apply/orP; left; apply/eqP; ring.
Qed.
Lemma shiftN_ge0 v : 0 <= qform N v. Proof. exact: (pd_psd shiftN_pd).2. Qed.

Lemma shiftN_bilin u v : `|bilin N u v| <= (norm2 u + norm2 v) / (s - size1 F).
Proof.
have h (x y : 'cV[R]_n) : bilin N x y <= (norm2 x + norm2 y) / (s - size1 F).
  have q0 := shiftN_ge0 (x - y).
  rewrite (qformD _ _ shiftN_pd.1) qformN bilinNr in q0.
  have q1 : 2%:R * bilin N x y <= qform N x + qform N y.
    by rewrite -subr_ge0; apply: le_trans q0 _; rewrite le_eqVlt; apply/orP; left; apply/eqP; ring.
  have q2 := shiftN_q x; have q3 := shiftN_q y.
  have q4 : 2%:R * bilin N x y <= (norm2 x + norm2 y) / (s - size1 F).
    by apply: le_trans q1 _; rewrite mulrDl; apply: ler_add.
  have [b0|/ltW b0] := leP 0 (bilin N x y).
    by apply: le_trans q4; rewrite mulr_natl mulr2n ler_addl.
  apply: le_trans b0 _; apply: divr_ge0; [apply: addr_ge0; exact: norm2_ge0 | exact: ltW shift_pos].
rewrite ler_norml h andbT ler_oppl -bilinNl.
apply: le_trans (h _ _) _; by rewrite -norm2E qformN norm2E.
Qed.
End Shift.

(* K + s P P^T *)
Section Trend.
Variables (n q : nat) (K : 'M[R]_n) (P : 'M[R]_(n, q)).
Hypothesis cK : cond_pos_def K P.
Hypothesis fP : full_col_rank P.

Lemma trend_blocks : exists B D F,
  [/\ symmetric B, symmetric F, P^T *m B = 0, K *m B + P *m D^T = 1%:M
    & K *m D + P *m F = 0 /\ P^T *m D = 1%:M].
Proof.
have u := uk_lhs_unit cK fP.
pose A := invmx (uk_lhs K P).
have sL : (uk_lhs K P)^T = uk_lhs K P by rewrite /uk_lhs tr_block_mx trmxK trmx0 cK.1.
have sA : symmetric A by rewrite /symmetric /A trmx_inv sL.
have e : uk_lhs K P *m A = 1%:M by rewrite mulmxV.
have eA := sym_block sA; rewrite eA /uk_lhs mulmx_block !mul0mx !addr0 scalar_mx_block in e.
have [e1 e2 e3 e4] := eq_block_mx e.
exists (ulsubmx A), (ursubmx A), (drsubmx A); split=> //.
  by rewrite /symmetric trmx_ulsub sA.
by rewrite /symmetric trmx_drsub sA.
Qed.

Variables (B : 'M[R]_n) (D : 'M[R]_(n, q)) (F : 'M[R]_q) (s : R).
Hypothesis sB : symmetric B.
Hypothesis sF : symmetric F.
Hypothesis PB : P^T *m B = 0.
Hypothesis KB : K *m B + P *m D^T = 1%:M.
Hypothesis KD : K *m D + P *m F = 0.
Hypothesis PD : P^T *m D = 1%:M.
Hypothesis sf : size1 F < s.
Let Ks := K + s *: (P *m P^T).
Let A := s%:M - F.
Let N := invmx A.
Let Bs := B + D *m N *m D^T.

Lemma DP : D^T *m P = 1%:M.
Proof. by apply: trmx_inj; rewrite trmx_mul trmxK trmx1. Qed.
Lemma BP : B *m P = 0.
Proof. by apply: trmx_inj; rewrite trmx_mul sB trmx0. Qed.

Lemma trend_inv : Ks *m Bs = 1%:M.
Proof.
have uA := pd_unit (shift_pd sF sf).
have e1 : Ks *m B = 1%:M - P *m D^T.
  by rewrite /Ks mulmxDl -scalemxAl -mulmxA PB mulmx0 scaler0 addr0 -KB addrK.
have e2 : Ks *m D = P *m A.
  rewrite /Ks /A mulmxDl -scalemxAl -mulmxA PD mulmx1 mulmxBr mul_mx_scalar addrC; congr (_ + _).
  by apply/eqP; rewrite -subr_eq0 opprK KD.
rewrite /Bs mulmxDr e1 (mulmxA Ks) (mulmxA Ks) e2 -(mulmxA P A N) /N mulmxV // mulmx1.
by rewrite subrK.
Qed.
Lemma trend_sym : symmetric Ks.
Proof. by rewrite /symmetric /Ks linearD linearZ /= trmx_mul trmxK cK.1. Qed.

Lemma B_psd v : 0 <= qform B v.
Proof.
have -> : qform B v = qform K (B *m v) by rewrite qform_mul sB (BKB sB PB KB).
have [->|n0] := eqVneq (B *m v) 0; first by rewrite qform0.
by apply/ltW/cK.2 => //; rewrite mulmxA PB mul0mx.
Qed.

Lemma trend_pd : pos_def Ks.
Proof.
have [u1 u2] := mulmx1_unit trend_inv.
have eBs : invmx Bs = Ks by rewrite -[invmx Bs]mul1mx -trend_inv -mulmxA mulmxV // mulmx1.
rewrite -eBs; apply: pd_inv.
have sN := (shiftN_pd sF sf).1.
split; first by rewrite /symmetric /Bs linearD /= !trmx_mul trmxK sB sN mulmxA.
move=> v vn; rewrite /Bs /qform bilin_addm -!/(qform _ _).
have -> : qform (D *m N *m D^T) v = qform N (D^T *m v) by rewrite qform_mul trmxK.
have b0 := B_psd v; have [d0|dn] := eqVneq (D^T *m v) 0; last first.
  by apply: ltr_paddl => //; exact: (shiftN_pd sF sf).2.
rewrite d0 qform0 addr0 lt_neqAle b0 andbT eq_sym; apply: contra vn => /eqP h.
have Bv : B *m v = 0.
  by apply: psd_qform0 h; split=> //; exact: B_psd.
by rewrite -[v]mul1mx -KB mulmxDl -!mulmxA Bv d0 !mulmx0 addr0.
Qed.
Lemma trend_invE : invmx Ks = Bs.
Proof. by rewrite -[LHS]mulmx1 -trend_inv mulmxA mulVmx ?mul1mx // pd_unit //; exact: trend_pd. Qed.

(* the kriging system *)
Section Target.
Variables (m : nat) (Kit : 'M[R]_(n, m)) (Pt : 'M[R]_(m, q)).
Let lam := uk_lambda K P Kit Pt.
Let mu := uk_mu K P Kit Pt.
Let Kits := Kit + s *: (P *m Pt^T).

Lemma trend_uk : lam = B *m Kit + D *m Pt^T /\ mu = D^T *m Kit + F *m Pt^T.
Proof.
have u := uk_lhs_unit cK fP.
have e1 : K *m (B *m Kit + D *m Pt^T) + P *m (D^T *m Kit + F *m Pt^T) = Kit.
  by rewrite !mulmxDr addrACA !mulmxA -!mulmxDl KB KD mul1mx mul0mx addr0.
have e2 : P^T *m (B *m Kit + D *m Pt^T) = Pt^T.
  by rewrite mulmxDr !mulmxA PB PD mul0mx mul1mx add0r.
by have [h1 h2] := uk_uniq u e1 e2; split.
Qed.

Lemma trend_lam : invmx Ks *m Kits = lam + D *m N *m mu.
Proof.
have uA := pd_unit (shift_pd sF sf).
rewrite trend_invE; have [-> ->] := trend_uk; rewrite /Bs /Kits mulmxDl !mulmxDr -!scalemxAr !mulmxA.
rewrite BP mul0mx scaler0 addr0 -[RHS]addrA; congr (_ + _); rewrite [RHS]addrCA; congr (_ + _).
have -> : D *m N *m D^T *m P *m Pt^T = D *m N *m Pt^T.
  by rewrite -(mulmxA (D *m N) D^T P) DP mulmx1.
have -> : s *: (D *m N *m Pt^T) = D *m N *m (s%:M *m Pt^T).
  by rewrite mul_scalar_mx -scalemxAr.
have -> : s%:M = A + F by rewrite /A subrK.
rewrite mulmxDl mulmxDr -(mulmxA D N) (mulmxA N A) /N mulVmx // mul1mx mulmxA //.
Qed.

(* means, with prior means b of the coefficients *)
Lemma trend_mean (z : 'cV[R]_n) (b : 'cV[R]_q) j :
  ((invmx Ks *m Kits)^T *m (z - P *m b)) j 0 + (Pt *m b) j 0 - (lam^T *m z) j 0 =
  bilin N (col j mu) (D^T *m z - b).
Proof.
have sN := (shiftN_pd sF sf).1.
have u := uk_lhs_unit cK fP; have [e1 e2] := uk_eqs Kit Pt u; rewrite -/lam -/mu in e1 e2.
have lP : lam^T *m P = Pt by apply: trmx_inj; rewrite trmx_mul trmxK.
have -> : (invmx Ks *m Kits)^T *m (z - P *m b) = lam^T *m z - Pt *m b + mu^T *m N *m (D^T *m z - b).
  rewrite trend_lam.
  have -> : (lam + D *m N *m mu)^T = lam^T + mu^T *m N *m D^T by rewrite linearD /= !trmx_mul sN mulmxA.
  rewrite mulmxDl mulmxBr mulmxA lP; congr (_ + _).
  by rewrite -(mulmxA (mu^T *m N)) mulmxBr (mulmxA D^T) DP mul1mx.
have -> : bilin N (col j mu) (D^T *m z - b) = (mu^T *m N *m (D^T *m z - b)) j 0.
  rewrite bilin_entry; congr (bilin _ _ _); by apply/colP => i; rewrite [RHS]mxE.
move: (lam^T *m z) (Pt *m b) (mu^T *m N *m _) => a1 a2 a3.
by rewrite !mxE addrAC addrC; move: (a1 j 0) (a2 j 0) (a3 j 0) => x y t; clear; ring.
Qed.
Lemma trend_weight i j : (invmx Ks *m Kits - lam) i j = bilin N (row i D)^T (col j mu).
Proof.
rewrite trend_lam addrC addKr -[D]trmxK bilin_entry; congr (bilin _ _ _).
by rewrite trmxK tr_row.
Qed.

(* variances: the vague one is smaller by mu^T N mu *)
Lemma trend_var j :
  s * (Pt *m Pt^T) j j - ((invmx Ks *m Kits)^T *m Kits) j j =
  - einsum_ii (uk_sol K P Kit Pt) (uk_rhs Kit Pt) 0 j - qform N (col j mu).
Proof.
have uA := pd_unit (shift_pd sF sf).
rewrite einsum_iiE uk_sol_rhs -/lam -/mu trend_lam.
have sN := (shiftN_pd sF sf).1.
have u := uk_lhs_unit cK fP; have [e1 e2] := uk_eqs Kit Pt u; rewrite -/lam -/mu in e1 e2.
have h : (lam + D *m N *m mu)^T *m Kits =
   lam^T *m Kit + s *: (Pt *m Pt^T) + mu^T *m N *m (D^T *m Kit + s *: Pt^T).
  have -> : (lam + D *m N *m mu)^T = lam^T + mu^T *m N *m D^T by rewrite linearD /= !trmx_mul sN mulmxA.
  rewrite mulmxDl /Kits; congr (_ + _).
    rewrite mulmxDr -scalemxAr mulmxA; congr (_ + s *: (_ *m _)).
    by apply: trmx_inj; rewrite trmx_mul trmxK.
  rewrite -(mulmxA (mu^T *m N) D^T); congr (_ *m _).
  by rewrite mulmxDr -scalemxAr mulmxA DP mul1mx.
have h2 : D^T *m Kit + s *: Pt^T = mu + A *m Pt^T.
  have [_ ->] := trend_uk; rewrite /A mulmxBl mul_scalar_mx -addrA; congr (_ + _).
  by rewrite addrCA subrr addr0.
rewrite h h2 mulmxDr -(mulmxA mu^T N (A *m _)) (mulmxA N A) /N mulVmx // mul1mx -/N.
have h3 : (mu^T *m N *m mu) j j = qform N (col j mu).
  by rewrite colE qform_mul qform_delta.
rewrite -h3; move: (mu^T *m N *m mu) (mu^T *m Pt^T) (lam^T *m Kit) (Pt *m Pt^T) => a b c d.
rewrite !mxE; move: (a j j) (b j j) (c j j) (d j j) => a1 b1 c1 d1.
by clear; ring.
Qed.
End Target.

(* quadratic form and determinant of the likelihood *)
Lemma trend_quad (z : 'cV[R]_n) (b : 'cV[R]_q) :
  qform (invmx Ks) (z - P *m b) = qform B z + qform N (D^T *m z - b).
Proof.
rewrite trend_invE /Bs /qform bilin_addm -!/(qform _ _); congr (_ + _).
  rewrite (qformD _ _ sB) qformN bilinNr qform_mul bilin_mulr BP.
  by rewrite bilin0m -mulmxA BP mulmx0 /qform bilin0m oppr0 mulr0 !addr0.
have -> : qform (D *m N *m D^T) (z - P *m b) = qform N (D^T *m (z - P *m b)) by rewrite qform_mul trmxK.
by rewrite mulmxBr mulmxA DP mul1mx.
Qed.
Lemma trend_det : \det Ks = (-1) ^+ q * \det (uk_lhs K P) * \det A.
Proof.
have uA := pd_unit (shift_pd sF sf); have uK := pd_unit trend_pd.
have e : \det (uk_lhs K P) = \det (uk_lhs Ks P).
  have -> : uk_lhs Ks P = block_mx 1%:M (s *: P) 0 1%:M *m uk_lhs K P.
    by rewrite /uk_lhs mulmx_block !mul1mx !mul0mx mulmx0 !addr0 !add0r -scalemxAl.
  by rewrite det_mulmx det_ublock !det1 !mul1r.
rewrite e /uk_lhs det_schur // trend_invE.
have -> : 0 - P^T *m Bs *m P = - N.
  rewrite sub0r; congr (- _); rewrite /Bs mulmxDr mulmxDl PB mul0mx add0r.
  by rewrite !mulmxA PD mul1mx -mulmxA DP mulmx1.
have -> : - N = (-1) *: N by rewrite scaleN1r.
have dn : \det A != 0 by move: uA; rewrite unitmxE unitfE.
rewrite detZ mulrCA -!mulrA -[LHS]mulr1; congr (_ * _).
rewrite mulrA -exprD addnn -mul2n exprM sqrrN !expr1n mul1r.
by rewrite /N det_inv mulVf.
Qed.
Lemma trend_row (z : 'cV[R]_n) (b : 'cV[R]_q) : invmx Ks *m (z - P *m b) = B *m z + D *m (N *m (D^T *m z - b)).
Proof.
rewrite trend_invE /Bs mulmxDl; congr (_ + _); first by rewrite mulmxBr mulmxA BP mul0mx subr0.
by rewrite -[D *m N *m D^T]mulmxA -mulmxA -(mulmxA N) mulmxBr (mulmxA D^T) DP mul1mx.
Qed.
End Trend.
End Vague.
