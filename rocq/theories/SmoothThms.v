(* SmoothThms.v
   Property C128: predictions and standard deviations vary no faster than the covariance allows. *)
From Coq Require Import Reals.
From mathcomp Require Import all_ssreflect all_fingroup all_algebra ring.
From Verif Require Import ConfigModel LinAlg KrigModel LikModel RealAux Rinst CholProofs LinQR KrigProofs KrigProofs2 KrigProofs3
  LooProofs PathProofs LikProofs MaternModel MaternProofs MaternCov MaternCovProofs OrderModel OrderProofs UpdProofs UpdThms
  InfoProofs InfoThms NormProofs NormThms UnitsProofs UnitsThms UnitsMatThms FarThms SmoothReal.
Set Implicit Arguments.
Unset Strict Implicit.
Unset Printing Implicit Defensive.
Import Order.TTheory GRing.Theory Num.Theory.
Local Open Scope ring_scope.
Local Arguments exp : clear scopes.
Local Arguments sqrt : clear scopes.
Local Notation RR := R_rcfType.

Section Psd.
Variable R : rcfType.

Lemma psd_cs n (M : 'M[R]_n) u v : pos_semidef M -> bilin M u v ^+ 2 <= qform M u * qform M v.
Proof.
case=> sM pM; set a := qform M u; set b := bilin M u v; set e := qform M v.
have h t : 0 <= a + 2%:R * (t * b) + t ^+ 2 * e.
  by have := pM (u + t *: v); rewrite qformD // qformZ bilinZr.
have e0 : 0 <= e by exact: pM.
have [ez|en] := eqVneq e 0.
  have [->|bn] := eqVneq b 0; first by rewrite expr0n /= ez mulr0.
  have := h (- ((a + 1) / (2%:R * b))); rewrite ez mulr0 addr0.
  have -> : 2%:R * (- ((a + 1) / (2%:R * b)) * b) = - (a + 1).
    have al (w : R) : 2%:R * (- w * b) = - (w * (2%:R * b)) by clear; ring.
    by rewrite al divfK // mulf_neq0 // pnatr_eq0.
  by rewrite opprD addrA subrr add0r oppr_ge0 leNgt ltr01.
have ep : 0 < e by rewrite lt_def en.
have := h (- (b / e)).
have -> : a + 2%:R * (- (b / e) * b) + (- (b / e)) ^+ 2 * e = a - b ^+ 2 / e.
  have -> : (- (b / e)) ^+ 2 * e = b ^+ 2 / e by rewrite sqrrN expr_div_n -mulrA; congr (_ * _); rewrite expr2 invfM -mulrA mulVf // mulr1.
  by rewrite expr2; move: (e^-1) => i; clear; ring.
by rewrite subr_ge0 ler_pdivr_mulr.
Qed.

Lemma psd_tri n (M : 'M[R]_n) u v : pos_semidef M ->
  Num.sqrt (qform M (u + v)) <= Num.sqrt (qform M u) + Num.sqrt (qform M v).
Proof.
move=> p; have cs := psd_cs u v p; have [sM pM] := p.
have s0 (w : R) : 0 <= Num.sqrt w by exact: sqrtr_ge0.
rewrite -[X in _ <= X]ger0_norm ?addr_ge0 // -sqrtr_sqr; apply: ler_wsqrtr.
rewrite sqrrD !sqr_sqrtr ?pM // qformD //; apply: ler_add => //; apply: ler_add => //.
rewrite mulr_natl ler_pmuln2r // -sqrtrM ?pM //; apply: le_trans (ler_norm _) _.
by rewrite -sqrtr_sqr; apply: ler_wsqrtr.
Qed.
End Psd.

Section Smooth.
Variables (R : rcfType) (X : Type).

(* a covariance function: symmetric and positive semi-definite *)
Definition psd_kern (k : X -> X -> R) : Prop := forall n (y : 'I_n -> X) (v : 'I_n -> R), 0 <= form k y v.
(* the variance of the difference between the values at two points *)
Definition dist2 (k : X -> X -> R) (s t : X) : R := k s s - 2%:R * k s t + k t t.

Section Joint.
Variables (n m : nat) (c : kernel R X) (x : 'I_n -> X) (xt : 'I_m -> X).
Hypothesis sk : sym_kern (kfun c).
Hypothesis pk : psd_kern (kfun c).
Hypothesis n0 : 0 <= knug c.
Let J := joint (cov_same c x) (cov_cross c x xt) (kmx (kfun c) xt xt).

Lemma joint_psd : pos_semidef J.
Proof.
pose y (i : 'I_(n + m)) := match split i with inl a => x a | inr b => xt b end.
have yl a : y (lshift m a) = x a by rewrite /y (unsplitK (inl a)).
have yr b : y (rshift n b) = xt b by rewrite /y (unsplitK (inr b)).
have e : J = kmx (kfun c) y y + block_mx (knug c)%:M 0 0 0.
  rewrite -[kmx _ y y]submxK add_block_mx !addr0 /J /joint /cov_same; congr (block_mx (_ + _) _ _ _);
    apply/matrixP => i j; rewrite !mxE ?yl ?yr //; exact: sk.
rewrite e; apply: LinAlg.psd_add.
  split=> [|v]; first by apply/matrixP => i j; rewrite !mxE sk.
  by rewrite -formE; exact: pk.
split=> [|v]; first by rewrite /symmetric tr_block_mx !trmx0 tr_scalar_mx.
rewrite -[v]vsubmxK qform_block /bilin !mulmx0 !mul0mx /qform /bilin mulmx0 mul0mx.
have z0 a b (i : 'I_a) (j : 'I_b) : (0 : 'M[R]_(a, b)) i j = 0 by rewrite mxE.
rewrite !z0 !addr0 mul_mx_scalar -scalemxAl mxE.
apply: mulr_ge0 => //; rewrite mxE; apply: sumr_ge0 => i _; by rewrite mxE -expr2 sqr_ge0.
Qed.

Lemma joint_D j l : qform J (col_mx 0 (delta_mx j 0 - delta_mx l 0)) = dist2 (kfun c) (xt j) (xt l).
Proof.
have [_ pJ] := joint_psd.
rewrite /J /joint qform_block /bilin !trmx0 !mul0mx mulmx0 /qform /bilin trmx0 !mul0mx.
have z0 a b (i : 'I_a) (i' : 'I_b) : (0 : 'M[R]_(a, b)) i i' = 0 by rewrite mxE.
rewrite !z0 !add0r.
rewrite -/(bilin _ _ _) -/(qform _ _) qformD; last by apply/matrixP => a b; rewrite !mxE sk.
rewrite qformN !qform_delta bilinNr bilin_delta !mxE /dist2.
by rewrite mulrN.
Qed.
End Joint.

Section Pred.
Variables (q r : nat) (qr : qr_fun R q r) (mk : mean_kind R X q) (c : kernel R X) (x : 'I_(q + r) -> X).
Hypothesis sk : sym_kern (kfun c).
Hypothesis pk : psd_kern (kfun c).
Hypothesis n0 : 0 <= knug c.
Hypothesis fK : fits mk (cov_same c x) x.

Lemma joint_cross m (xt : 'I_m -> X) (b : 'cV[R]_(q + r)) (e : 'cV[R]_m) :
  bilin (joint (cov_same c x) (cov_cross c x xt) (kmx (kfun c) xt xt)) (col_mx b 0) (col_mx 0 e) =
  bilin (cov_cross c x xt) b e.
Proof. by rewrite /bilin /joint tr_col_mx trmx0 mul_row_block !mul0mx !addr0 mul_row_col mulmx0 add0r. Qed.
Lemma joint_left m (xt : 'I_m -> X) (b : 'cV[R]_(q + r)) :
  qform (joint (cov_same c x) (cov_cross c x xt) (kmx (kfun c) xt xt)) (col_mx b 0) = qform (cov_same c x) b.
Proof. by rewrite /qform /bilin /joint tr_col_mx trmx0 mul_row_block !mul0mx !addr0 mul_row_col mulmx0 addr0. Qed.
Lemma joint_right m (xt : 'I_m -> X) j :
  qform (joint (cov_same c x) (cov_cross c x xt) (kmx (kfun c) xt xt)) (col_mx 0 (delta_mx j 0)) = kfun c (xt j) (xt j).
Proof.
rewrite /qform /bilin /joint tr_col_mx trmx0 mul_row_block !mul0mx !add0r mul_row_col mulmx0 add0r.
by rewrite -/(bilin _ _ _) bilin_delta mxE.
Qed.

(* Variances are error variances: nonnegative, and least over the unbiased weights. *)
Lemma var_mse m (xt : 'I_m -> X) ss z neg :
  let J := joint (cov_same c x) (cov_cross c x xt) (kmx (kfun c) xt xt) in
  let P := design (@rp _ _ q mk) x in let Pt := design (@rp _ _ q mk) xt in
  exists mu v lam, predict_at qr ss mk c x z xt neg = Ok (mu, v, lam) /\
    forall j, [/\ v 0 j = mse J (col j lam) j, 0 <= v 0 j, unbiased P Pt (col j lam) j
      & forall w, unbiased P Pt w j -> v 0 j <= mse J w j].
Proof.
move=> J P Pt; have [cK fP nN] := fits_rep fK; have u := uk_lhs_unit cK fP.
do 3 eexists; split; first exact: predict_rep.
have pJ : pos_semidef J by exact: joint_psd.
have et : tt_pairwise (cov_tt c xt) = diag_of (kmx (kfun c) xt xt) by apply/rowP => j; rewrite !mxE.
have [lam [v [E H]]] := uk_blup (cov_cross c x xt) Pt cK fP et.
move: E H; rewrite krig_block_ok0 // => -[<- ev] H.
set v0 := cov_same_pairwise c xt - _; have e0 : v = v0 by rewrite -ev.
move=> j; have [h1 h2 h3] := H j.
have v0j : v0 0 j = mse J (col j (uk_lambda (cov_same c x) P (cov_cross c x xt) Pt)) j by rewrite -e0.
have v00 : 0 <= v0 0 j by rewrite v0j; exact: pJ.2.
have -> : (if neg then clip0 v0 else v0) 0 j = v0 0 j.
  by case: (neg) => //; rewrite [clip0 _ _ _]mxE max_l.
split=> // w wu; rewrite -e0; have [->|wn] := eqVneq w (col j (uk_lambda (cov_same c x) P (cov_cross c x xt) Pt)).
  by rewrite h2.
exact/ltW/h3.
Qed.

(* The prediction minus a fitted mean function moves no faster than the covariance allows: N is the squared norm of
   the data that the library reports. *)
Theorem C128_mean z : (forall P, is_qr P (qr P)) ->
  exists h N, [/\ admits mk h, norm_at qr mk c x z = Ok N
    & forall m (xt : 'I_m -> X) ss neg, exists mu v lam, predict_at qr ss mk c x z xt neg = Ok (mu, v, lam) /\
      forall j l, (mu 0 j - h (xt j)) ^+ 2 <= N * kfun c (xt j) (xt j) /\
        ((mu 0 j - h (xt j)) - (mu 0 l - h (xt l))) ^+ 2 <= N * dist2 (kfun c) (xt j) (xt l)].
Proof.
move=> hqr; have [B [C [sB PB KB _ E]]] := norm_ex z hqr fK.
have [cK fP nN] := fits_rep fK; have u := uk_lhs_unit cK fP.
set y := z - mean_col (rm mk) x in E; pose b := B *m y; pose beta := C *m y.
have e1 : cov_same c x *m b + design (@rp _ _ q mk) x *m beta = y by rewrite !mulmxA -mulmxDl KB mul1mx.
have e2 : (design (@rp _ _ q mk) x)^T *m b = 0 by rewrite mulmxA PB mul0mx.
have qb : qform (cov_same c x) b = qform B y by rewrite qform_mul sB (BKB sB PB KB).
exists (fun t => (\sum_k @rp _ _ q mk t k * beta k 0) + rm mk t), (qform B y); split=> //.
  move: beta {e1}; case: (mk) nN => [|p|[h|]] //= _ beta.
  + by move=> t; rewrite big_ord0 addr0.
  + by exists (fun k => beta k 0) => t; rewrite addr0.
  + by move=> t; rewrite big_ord0 add0r.
move=> m xt ss neg; do 3 eexists; split; first exact: predict_rep.
have pJ := joint_psd x xt sk pk n0.
have mE j : (\row_j0 (((uk_lambda (cov_same c x) (design (@rp _ _ q mk) x) (cov_cross c x xt) (design (@rp _ _ q mk) xt))^T *m y) j0 0
    + rm mk (xt j0))) 0 j - (\sum_k @rp _ _ q mk (xt j) k * beta k 0 + rm mk (xt j)) =
    bilin (cov_cross c x xt) b (delta_mx j 0).
  rewrite [X in X - _]mxE (uk_dual _ _ cK.1 u e1 e2) maddE.
  have -> : (design (@rp _ _ q mk) xt *m beta) j 0 = \sum_k @rp _ _ q mk (xt j) k * beta k 0.
    by rewrite [LHS]mxE; apply: eq_bigr => k _; rewrite [design _ _ _ _]mxE.
  rewrite -[_ + _ + rm _ _]addrA addrK bilin_tr /bilin trmx_delta -mulmxA -rowE.
  by rewrite [RHS]mxE.
move=> j l; rewrite !mE; split.
  by rewrite -joint_cross -qb -(joint_left xt) -(joint_right xt); exact: psd_cs.
rewrite -bilinNr -bilinDr -joint_cross -qb -(joint_left xt) -(joint_D x xt sk pk n0); exact: psd_cs.
Qed.

(* Standard deviations at two targets with the same values of the trend functions. *)
Theorem C128_sd z m (xt : 'I_m -> X) ss neg :
  exists mu v lam, predict_at qr ss mk c x z xt neg = Ok (mu, v, lam) /\
    forall j l, (match mk with KLinear p => forall k, p (xt j) k = p (xt l) k | _ => True end) ->
      `|Num.sqrt (v 0 j) - Num.sqrt (v 0 l)| <= Num.sqrt (dist2 (kfun c) (xt j) (xt l)).
Proof.
have [mu [v [lam [E H]]]] := var_mse xt ss z neg; exists mu, v, lam; split=> // j l tr.
have pJ := joint_psd x xt sk pk n0.
have st : forall k, @rp _ _ q mk (xt j) k = @rp _ _ q mk (xt l) k by move: tr; case: (mk).
have dC s t : dist2 (kfun c) s t = dist2 (kfun c) t s.
  by rewrite /dist2 sk; move: (kfun c s s) (kfun c t s) (kfun c t t) => a1 a2 a3; clear; ring.
have half a b : (forall k, @rp _ _ q mk (xt a) k = @rp _ _ q mk (xt b) k) ->
    Num.sqrt (v 0 a) - Num.sqrt (v 0 b) <= Num.sqrt (dist2 (kfun c) (xt a) (xt b)).
  move=> sab; have [_ _ _ Ha] := H a; have [eb _ ub _] := H b.
  have ua : unbiased (design (@rp _ _ q mk) x) (design (@rp _ _ q mk) xt) (col b lam) a.
    by move=> w; rewrite (ub w) !mxE; apply: eq_bigr => k _; rewrite !mxE sab.
  rewrite ler_subl_addl; apply: le_trans (ler_wsqrtr (Ha _ ua)) _.
  rewrite eb -(joint_D x xt sk pk n0) /mse.
  have -> : col_mx (- col b lam) (delta_mx a 0) =
      col_mx (- col b lam) (delta_mx b 0) + col_mx 0 (delta_mx a 0 - delta_mx b 0) :> 'cV[R]_(_ + _).
    by rewrite add_col_mx addr0 addrC subrK.
  exact: psd_tri.
rewrite ler_norml half // andbT ler_oppl opprB dC; apply: half => k; by rewrite st.
Qed.

(* How errors in the observed values reach the predictions, with a zero or given mean. *)
Theorem C128_data z z' : known mk ->
  exists N, [/\ norm_k_sqrd_with_zero_mean (cov_same c x) (z - z') = Ok N,
      knug c * N <= \sum_i (z i 0 - z' i 0) ^+ 2
    & forall m (xt : 'I_m -> X) ss neg, exists mu mu' v lam,
      [/\ predict_at qr ss mk c x z xt neg = Ok (mu, v, lam), predict_at qr ss mk c x z' xt neg = Ok (mu', v, lam)
        & forall j, (mu 0 j - mu' 0 j) ^+ 2 <= N * (kfun c (xt j) (xt j) - v 0 j)]].
Proof.
move=> kn; set K := cov_same c x; set d := z - z'.
have pK : pos_def K by move: fK kn; case: (mk) => [|p|[h|]].
have uK := pd_unit pK; pose b := invmx K *m d.
have dK : d = K *m b by rewrite mulKVmx.
have N0 : 0 <= qform (invmx K) d by apply: (pd_psd (pd_inv pK)).2.
have qb : qform K b = qform (invmx K) d.
  by rewrite /b qform_mul trmx_inv pK.1 -mulmxA mulmxV // mulmx1.
exists (qform (invmx K) d); split.
- rewrite /norm_k_sqrd_with_zero_mean; have [L cL -> /=] := cholesky_solve_ok d pK.
  by rewrite (@einsum_q _ _ (invmx K)).
- have -> : \sum_i (z i 0 - z' i 0) ^+ 2 = qform 1%:M d.
    rewrite /qform /bilin mulmx1 [RHS]mxE; apply: eq_bigr => i _; by rewrite !mxE -expr2.
  have [->|Nn] := eqVneq (qform (invmx K) d) 0; first by rewrite mulr0; apply: (pd_psd (pos_def1 R _)).2.
  have Np : 0 < qform (invmx K) d by rewrite lt_def Nn.
  have nb : knug c * qform 1%:M b <= qform (invmx K) d.
    rewrite -qb nug_form; have -> : qform 1%:M b = \sum_i b i 0 ^+ 2.
      rewrite /qform /bilin mulmx1 [LHS]mxE; apply: eq_bigr => i _; by rewrite !mxE -expr2.
    by rewrite ler_addr; exact: pk.
  have cs := psd_cs b d (pd_psd (pos_def1 R _)).
  have bd : bilin 1%:M b d = qform (invmx K) d by rewrite -qb [in LHS]dK /bilin mulmx1 mulmxA.
  rewrite bd in cs; rewrite -(ler_pmul2l Np) mulrCA -expr2.
  apply: le_trans (ler_wpmul2l n0 cs) _; rewrite mulrA; apply: ler_wpmul2r => //; exact: (pd_psd (pos_def1 R _)).2.
move=> m xt ss neg.
have [mu [v [lam [E H]]]] := var_mse xt ss z neg; have [mu' [v' [lam' [E' _]]]] := var_mse xt ss z' neg.
have [cK fP nN] := fits_rep fK; have u := uk_lhs_unit cK fP.
set P := design (@rp _ _ q mk) x in cK fP u H; set Pt := design (@rp _ _ q mk) xt in H.
have E1 := E'; have E2 := E; rewrite (predict_rep _ _ _ _ _ cK fP nN) in E1; rewrite (predict_rep _ _ _ _ _ cK fP nN) in E2.
case: E1 => m1 v1 l1; case: E2 => m2 v2 l2.
exists mu, mu', v, lam; split=> //; first by rewrite E' -m1 -v1 -l1 -v2 -l2.
move=> j; have [vj _ _ _] := H j.
have Kl : K *m lam = cov_cross c x xt.
  have [e1 _] := uk_eqs (cov_cross c x xt) Pt u; rewrite -l2 -[RHS]e1.
  have -> : P *m uk_mu K P (cov_cross c x xt) Pt = 0.
    move: (P) (uk_mu _ _ _ _); move: kn; case: (mk) => [|p|h] //= _ A B; apply/matrixP => i k; by rewrite !mxE big_ord0.
  by rewrite addr0.
have ql : qform K (col j lam) = kfun c (xt j) (xt j) - v 0 j.
  rewrite vj mseE [kmx _ _ _ _ _]mxE -Kl.
  have -> : bilin 1%:M (col j lam) (col j (K *m lam)) = qform K (col j lam).
    by rewrite col_mulmx /qform /bilin mulmx1 mulmxA.
  move: (qform _ _) (kfun c _ _) => a1 a2; clear; ring.
have dE : mu 0 j - mu' 0 j = bilin K b (col j lam).
  rewrite -m1 -m2 [X in X - _]mxE [X in _ - X]mxE opprD addrACA subrr addr0 l2.
  have sE (A B : 'M[R]_(m, 1)) : A j 0 - B j 0 = (A - B) j 0 by rewrite !mxE.
  rewrite sE -mulmxBr opprB addrA subrK -/d dK bilin_tr pK.1.
  by rewrite /bilin -mulmxA tr_col -row_mul [RHS]mxE.
rewrite dE -ql -qb; exact: psd_cs (pd_psd pK).
Qed.
End Pred.
End Smooth.

(* Matern covariances: predictions are uniformly continuous, and so are the standard deviations. *)
Lemma matern_psd p d (th : R * 'rV[R]_d) : sym_kern (kfun (matern_kernel p th)) /\ psd_kern (kfun (matern_kernel p th)).
Proof.
split=> [s t|n y v] /=.
  congr (_ * maternp_kernel p (sqrt _)); apply: eq_bigr => k _.
  by rewrite -sqrrN opprB.
have s0 : 0 < exp th.1 by apply/ltRP; exact: exp_pos.
pose Y : 'M[R]_(n, d) := \matrix_(i, k) (exp (th.2 0 k) * y i 0 k).
have := (kern_psd p Y).2 (\col_i v i); rewrite /qform LinAlg.bilinE => h.
have -> : form (kfun (matern_kernel p th)) y v = exp th.1 * \sum_i \sum_j (\col_i v i) i 0 * kern_mx p Y Y i j * (\col_i v i) j 0.
  rewrite /form mulr_sumr; apply: eq_bigr => i _; rewrite mulr_sumr; apply: eq_bigr => j _; rewrite !mxE /=.
  have -> : sqdist Y Y i j = \sum_(k < d) (exp (th.2 0 k) * y i 0 k - exp (th.2 0 k) * y j 0 k) ^+ 2.
    by apply: eq_bigr => k _; rewrite !mxE.
  have al (a b g e : R) : a * b * (g * e) = g * (a * e * b) by ring.
  exact: al.
by apply: mulr_ge0 => //; exact: ltW.
Qed.

Theorem C128_matern p d q r (qr : qr_fun RR q r) mk th (x : 'I_(q + r) -> 'rV[R]_d) z :
  (forall P, is_qr P (qr P)) -> identified mk x ->
  exists h, admits mk h /\ forall eps : R, 0 < eps -> exists2 dl : R, 0 < dl &
    forall m (xt : 'I_m -> 'rV[R]_d) ss neg,
      exists mu v lam, predict_at qr ss mk (matern_kernel p th) x z xt neg = Ok (mu, v, lam) /\
        forall j l, (forall k, `|xt j 0 k - xt l 0 k| < dl) ->
          `|(mu 0 j - h (xt j)) - (mu 0 l - h (xt l))| <= eps /\
          ((match mk with KLinear f => forall k, f (xt j) k = f (xt l) k | _ => True end) ->
             `|Num.sqrt (v 0 j) - Num.sqrt (v 0 l)| <= eps).
Proof.
move=> hqr idn; set c := matern_kernel p th.
have pK : pos_def (cov_same c x) by have [-> _ _] := matern_kernelE p NumPy th x x; exact: cov_ii_pd.
have fK : fits mk (cov_same c x) x by move: idn; case: (mk) => [|f|[f|]] //= fr; split=> //; exact: pd_cpd.
have [sk pk] := matern_psd p th.
have s0 : 0 < exp th.1 by apply/ltRP; exact: exp_pos.
have n0 : 0 <= knug c.
  by apply: mulr_ge0; [apply: mulr_ge0; [exact: ler0n | exact: ltW] | exact: ltW eps_gt0].
have k0 (y : 'rV[R]_d) : kfun c y y = exp th.1.
  by rewrite /= big1 => [|k _]; rewrite ?sqrt_0 ?kernel_at_0 ?mulr1 // subrr expr0n.
have [h [N [ah EN H]]] := C128_mean sk pk n0 fK z hqr; exists h; split=> // eps e0.
have N0 : 0 <= N.
  have [mu [v [lam [_ /(_ ord0 ord0) [H1 _]]]]] := H 1%N (fun _ => 0) (fun _ _ => Ok 0) false.
  by rewrite -(pmulr_lge0 _ s0); apply: le_trans (sqr_ge0 _) _; rewrite -(k0 0); exact: H1.
pose S2 := \sum_k exp (th.2 0 k) ^+ 2.
have S20 : 0 <= S2 by apply: sumr_ge0 => k _; exact: sqr_ge0.
have S21 : 0 < S2 + 1 by rewrite ltr_paddl ?ltr01.
have N1 : 0 < N + 1 by rewrite ltr_paddl ?ltr01.
pose den := 2%:R * exp th.1 * (N + 1).
have den0 : 0 < den by rewrite !mulr_gt0 // ltr0n.
pose eta := eps ^+ 2 / den.
have eta0 : 0 < eta by rewrite divr_gt0 // exprn_gt0.
have [d0 [d0p Hd]] : exists d0, Rlt (IZR 0) d0 /\ forall h, (Rle (IZR 0) h /\ Rlt h d0) -> Rle (Rminus (IZR 1) eta) (maternp_kernel p h).
  by apply: kernel_near; exact/ltRP.
have d0' : 0 < d0 by exact/ltRP.
exists (d0 / (S2 + 1)); first by rewrite divr_gt0.
move=> m xt ss neg; have [mu [v [lam [E Hm]]]] := H m xt ss neg.
have [mu' [v' [lam' [E' Hs]]]] := C128_sd qr sk pk n0 fK z xt ss neg.
have vv : v = v' by move: E'; rewrite E => -[].
rewrite -{}vv {mu' v' lam' E'} in Hs.
exists mu, v, lam; split=> // j l near.
have D : dist2 (kfun c) (xt j) (xt l) * (N + 1) <= eps ^+ 2.
  have -> : dist2 (kfun c) (xt j) (xt l) * (N + 1) = (1 - kfun c (xt j) (xt l) / exp th.1) * den.
    have se : exp th.1 != 0 by rewrite gt_eqF.
    rewrite /dist2 !k0 /den; move: (kfun c _ _) (exp th.1) se => a1 a2 se; clear - se; field.
    exact: se.
  rewrite -ler_pdivl_mulr // -/eta ler_subl_addr -ler_subl_addl.
  have -> : kfun c (xt j) (xt l) / exp th.1 = maternp_kernel p (sqrt (\sum_k (exp (th.2 0 k) * xt j 0 k - exp (th.2 0 k) * xt l 0 k) ^+ 2)).
    by rewrite /= [exp th.1 * _]mulrC mulfK // gt_eqF.
  apply/leRP/Hd; split; first exact: sqrt_pos.
  rewrite -(sqrt_square d0 (Rlt_le _ _ d0p)); apply: sqrt_lt_1_alt; split.
    by apply/leRP; apply: sumr_ge0 => k _; exact: sqr_ge0.
  apply/ltRP; apply: le_lt_trans (_ : (d0 / (S2 + 1)) ^+ 2 * S2 < _).
    rewrite /S2 mulr_sumr; apply: ler_sum => k _.
    rewrite -mulrBr exprMn mulrC; apply: ler_wpmul2r; first exact: sqr_ge0.
    rewrite -[X in X <= _]real_normK ?num_real //; apply: ler_expn2r; rewrite ?nnegrE ?normr_ge0 //.
      by apply/ltW; rewrite divr_gt0.
    exact/ltW/near.
  have -> : Rmult d0 d0 = (d0 / (S2 + 1)) ^+ 2 * (S2 + 1) ^+ 2.
    by rewrite -exprMn divfK ?gt_eqF // expr2.
  rewrite ltr_pmul2l ?exprn_gt0 ?divr_gt0 //.
  apply: lt_le_trans (_ : S2 + 1 <= _); first by rewrite ltr_addl ltr01.
  by rewrite expr2 ler_pmull // ler_addr.
have [D1 D2] : dist2 (kfun c) (xt j) (xt l) <= eps ^+ 2 /\ N * dist2 (kfun c) (xt j) (xt l) <= eps ^+ 2.
  have [g0|/ltW l0] := leP 0 (dist2 (kfun c) (xt j) (xt l)).
    split; apply: le_trans D; first by rewrite -[X in X <= _]mulr1; apply: ler_wpmul2l; rewrite ?ler_addr.
    by rewrite mulrC; apply: ler_wpmul2l => //; rewrite ler_addl ler01.
  split; apply: le_trans (sqr_ge0 eps) => //.
  by rewrite mulr_ge0_le0.
have eE : eps = Num.sqrt (eps ^+ 2) by rewrite sqrtr_sqr ger0_norm // ltW.
split.
  rewrite eE -sqrtr_sqr; apply: ler_wsqrtr; exact: le_trans (Hm j l).2 D2.
by move=> tr; apply: le_trans (Hs j l tr) _; rewrite [X in _ <= X]eE; exact: ler_wsqrtr.
Qed.
Print Assumptions C128_mean.
Print Assumptions C128_sd.
Print Assumptions C128_data.
Print Assumptions C128_matern.

(* a covariance of independent increments, known mean and positive nugget, two observations *)
Example C128_case (R : rcfType) :
  let k : kernel R R := Kernel (fun s t => s * t) 1 in let x : 'I_(0 + 2) -> R := fun i => (i : nat)%:R in
  [/\ sym_kern (kfun k), psd_kern (kfun k), 0 <= knug k, fits (KParam (Some (fun t : R => t)) : mean_kind R R 0) (cov_same k x) x
    & dist2 (kfun k) 3%:R 1 = 4%:R].
Proof.
move=> k x.
have pk : psd_kern (kfun k).
  move=> n y v; have -> : form (kfun k) y v = (\sum_i v i * y i) ^+ 2.
    rewrite expr2 mulr_suml; apply: eq_bigr => i _; rewrite mulr_sumr; apply: eq_bigr => j _ /=.
    by move: (v i) (v j) (y i) (y j) => a b e f; clear; ring.
  exact: sqr_ge0.
split=> //; [by move=> s t; rewrite /= mulrC | exact: ler01 | | by rewrite /dist2 /=; ring].
split; first by apply/matrixP => i j; rewrite !mxE /= mulrC [i == j]eq_sym.
move=> w wn; rewrite nug_form mul1r; apply: ltr_paddl => //; have [i wi] : exists i, w i 0 != 0.
  apply/existsP; apply: contraNT wn; rewrite negb_exists => /forallP h; apply/eqP/colP => i.
  by apply/eqP; rewrite [X in _ == X]mxE; have := h i; rewrite negbK.
by rewrite (bigD1 i) //= ltr_paddr ?sumr_ge0 // => [j _|]; rewrite ?sqr_ge0 // lt_def sqr_ge0 sqrf_eq0 wi.
Qed.
