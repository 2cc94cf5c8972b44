(* FarThms.v
   Property C126: predictions far from the data. *)
From Coq Require Import Reals.
From mathcomp Require Import all_ssreflect all_fingroup all_algebra ring.
From Verif Require Import ConfigModel LinAlg KrigModel LikModel RealAux Rinst CholProofs LinQR KrigProofs KrigProofs2 KrigProofs3
  LooProofs PathProofs LikProofs MaternModel MaternProofs MaternCov MaternCovProofs OrderModel OrderProofs UpdProofs UpdThms InfoProofs InfoThms NormThms
  UnitsProofs UnitsThms UnitsMatThms FarProofs.
Set Implicit Arguments.
Unset Strict Implicit.
Unset Printing Implicit Defensive.
Import Order.TTheory GRing.Theory Num.Theory.
Local Open Scope ring_scope.
Local Arguments exp : clear scopes.
Local Arguments sqrt : clear scopes.
Local Notation RR := R_rcfType.

Section Bound.
Variables (R : rcfType) (X : Type) (q r : nat).

Lemma sum_bound n (a b : 'I_n -> R) d : 0 <= d -> (forall i, `|a i| <= d) -> `|\sum_i a i * b i| <= (\sum_i `|b i|) * d.
Proof.
move=> d0 h; apply: le_trans (ler_norm_sum _ _ _) _; rewrite mulr_suml; apply: ler_sum => i _.
by rewrite normrM mulrC; apply: ler_wpmul2l.
Qed.

(* the mean is known *)
Definition known (mk : mean_kind R X q) : bool := if mk is KLinear _ then false else true.

(* With small covariances d between a target and the data, the prediction is close to one of the mean functions of the
   model, chosen by the data alone, and the variance is not much less than the prior one. *)
Theorem C126_bound (qr : qr_fun R q r) mk c (x : 'I_(q + r) -> X) z :
  pos_def (cov_same c x) -> fits mk (cov_same c x) x ->
  exists h A, [/\ admits mk h, 0 <= A
    & forall m (xt : 'I_m -> X) ss neg d, 0 <= d -> (forall i j, `|kfun c (x i) (xt j)| <= d) ->
      exists mu v lam, predict_at qr ss mk c x z xt neg = Ok (mu, v, lam) /\
        forall j, [/\ `|mu 0 j - h (xt j)| <= A * d, kfun c (xt j) (xt j) - A * d ^+ 2 <= v 0 j
          & known mk -> 0 <= kfun c (xt j) (xt j) -> v 0 j <= kfun c (xt j) (xt j)]].
Proof.
move=> pK /fits_rep [cK fP nN]; set K := cov_same c x in cK *.
have u := uk_lhs_unit cK fP.
have [b [beta [e1 e2]]] := uk_dual_ex (z - mean_col (rm mk) x) u.
pose A1 := \sum_i `|b i 0|; pose A2 := \sum_i \sum_l `|invmx K i l|.
have A10 : 0 <= A1 by apply: sumr_ge0.
have A20 : 0 <= A2 by apply: sumr_ge0 => i _; apply: sumr_ge0.
exists (fun y => (\sum_k @rp _ _ q mk y k * beta k 0) + rm mk y), (A1 + A2); split.
- case: (mk) beta e1 nN {cK fP u e2} => [|p|[h|]] //= beta _ _.
  + by move=> y; rewrite big_ord0 addr0.
  + by exists (fun k => beta k 0) => y; rewrite addr0.
  + by move=> y; rewrite big_ord0 add0r.
- exact: addr_ge0.
move=> m xt ss neg d d0 hd; do 3 eexists; split; first exact: predict_rep.
move=> j; set Kit := cov_cross c x xt; set Pt := design _ xt.
set v := cov_same_pairwise c xt - _.
have kE i : Kit i j = kfun c (x i) (xt j) by rewrite mxE.
pose e := einsum_ii (zm_lambda K Kit) Kit 0 j.
have zv : `|e| <= A2 * d ^+ 2.
  rewrite /e einsum_iiE [(_^T *m _) _ _]mxE expr2 mulrA.
  under eq_bigr => i _ do rewrite mulrC.
  apply: le_trans (_ : (\sum_i `|(zm_lambda K Kit)^T j i|) * d <= _).
    by apply: sum_bound => // i; rewrite kE.
  apply: ler_wpmul2r => //; rewrite mulr_suml; apply: ler_sum => i _.
  rewrite mxE [zm_lambda _ _ _ _]mxE; under eq_bigr => l _ do rewrite mulrC.
  by apply: sum_bound => // l; rewrite kE.
have zv0 : 0 <= e.
  rewrite /e einsum_iiE /zm_lambda trmx_mul trmx_inv pK.1.
  by apply: psd_diag_ge0; apply: psd_congr; exact/pd_psd/pd_inv.
have vl : kfun c (xt j) (xt j) - e <= v 0 j.
  have -> : kfun c (xt j) (xt j) - e = (cov_same_pairwise c xt - einsum_ii (zm_lambda K Kit) Kit) 0 j.
    by rewrite msubE [cov_same_pairwise _ _ _ _]mxE.
  have -> : (cov_same_pairwise c xt - einsum_ii (zm_lambda K Kit) Kit) 0 j =
      (cov_same_pairwise c xt - einsum_ii (uk_sol K (0 : 'M[R]_(q + r, 0)) Kit 0) (uk_rhs Kit 0)) 0 j.
    by rewrite !msubE (zm_uk Kit pK).2.
  apply: (@info_var _ _ _ _ _ _ _ _ _ _ 1%:M (0 : 'M[R]_(rq mk, 0))) => //.
  - exact: pd_cpd.
  - by rewrite mulmx0 mulmx0.
  - by move=> b' _; apply/colP => -[].
  - by rewrite mulmx0.
  - by move=> w; rewrite trmx1 !mul1mx.
split.
- rewrite [X in X - _]mxE (uk_dual Kit Pt cK.1 u e1 e2) maddE.
  have -> : (Pt *m beta) j 0 = \sum_k @rp _ _ q mk (xt j) k * beta k 0.
    by rewrite [LHS]mxE; apply: eq_bigr => k _; rewrite [Pt _ _]mxE.
  rewrite -[_ + _ + rm _ _]addrA addrK.
  apply: le_trans (_ : A1 * d <= _); last by rewrite ler_wpmul2r // ler_addl.
  rewrite [(_ *m _) _ _]mxE; apply: sum_bound => // i; by rewrite [_^T _ _]mxE kE.
- apply: le_trans (_ : v 0 j <= _).
    apply: le_trans vl; rewrite ler_add2l ler_opp2; apply: le_trans (ler_norm _) _; apply: le_trans zv _.
    by rewrite ler_wpmul2r ?sqr_ge0 // ler_addr.
  by case: (neg) => //; rewrite [clip0 _ _ _]mxE le_maxr lexx.
- move=> kn k0.
  suff h : v 0 j <= kfun c (xt j) (xt j).
    by case: (neg) => //; rewrite [clip0 _ _ _]mxE le_maxl h k0.
  have -> : v 0 j = kfun c (xt j) (xt j) - e.
    rewrite /v msubE [cov_same_pairwise _ _ _ _]mxE /e (zm_uk Kit pK).2; congr (_ - _).
    rewrite /Pt; move: kn; case: (mk) => [|p|h] //= _; congr (einsum_ii (uk_sol _ _ _ _) (uk_rhs _ _) 0 j); apply/matrixP => a a'; by case: a'.
  by rewrite ler_subl_addr ler_addl.
Qed.
End Bound.

(* Matern covariances: the prediction tends to a mean function of the model and the variance to the prior one, uniformly
   over the targets that are far from every data point in at least one coordinate. *)
Theorem C126_matern p d q r (qr : qr_fun RR q r) mk th (x : 'I_(q + r) -> 'rV[R]_d) z : identified mk x ->
  exists h, admits mk h /\ forall eps : R, 0 < eps -> exists D : R,
    forall m (xt : 'I_m -> 'rV[R]_d) ss neg, (forall i j, exists k, D < `|x i 0 k - xt j 0 k|) ->
      exists mu v lam, predict_at qr ss mk (matern_kernel p th) x z xt neg = Ok (mu, v, lam) /\
        forall j, [/\ `|mu 0 j - h (xt j)| <= eps, exp th.1 - eps <= v 0 j & known mk -> v 0 j <= exp th.1].
Proof.
move=> idn; set c := matern_kernel p th.
have pK : pos_def (cov_same c x) by have [-> _ _] := matern_kernelE p NumPy th x x; exact: cov_ii_pd.
have fK : fits mk (cov_same c x) x by move: idn; case: (mk) => [|f|[f|]] //= fr; split=> //; exact: pd_cpd.
have [h [A [ha A0 H]]] := C126_bound qr z pK fK; exists h; split=> // eps e0.
have s0 : 0 < exp th.1 by apply/ltRP; exact: exp_pos.
have k0 (y : 'rV[R]_d) : kfun c y y = exp th.1.
  by rewrite /= big1 => [|k _]; rewrite ?sqrt_0 ?kernel_at_0 ?mulr1 // subrr expr0n.
have A1 : 0 < A + 1 by rewrite ltr_paddl ?ltr01.
pose dl := Num.min 1 (eps / (A + 1)).
have dl0 : 0 < dl by rewrite lt_minr ltr01 divr_gt0.
have dl1 : A * dl <= eps.
  apply: le_trans (_ : (A + 1) * (eps / (A + 1)) <= _); last by rewrite mulrC divfK // gt_eqF.
  by apply: ler_pmul => //; rewrite ?ler_addl ?ler01 ?(ltW dl0) // le_minl lexx orbT.
have dl2 : A * dl ^+ 2 <= eps.
  apply: le_trans dl1; apply: ler_wpmul2l => //; rewrite expr2 ger_pmulr // le_minl lexx //.
have [D0 [D0p HD]] : exists D, Rlt (IZR 0) D /\ forall h, Rlt D h -> Rle (maternp_kernel p h) (dl / exp th.1).
  by apply: kernel_vanishes; apply/ltRP; rewrite divr_gt0.
exists (D0 * \sum_k exp (- th.2 0 k)) => m xt ss neg far.
have sm i j : `|kfun c (x i) (xt j)| <= dl.
  have [k hk] := far i j; rewrite /=.
  set w := sqrt _.
  have kw : 0 <= maternp_kernel p w by apply/leRP/Rlt_le; apply: kernel_pos; exact: sqrt_pos.
  have -> : `|exp th.1 * maternp_kernel p w| = maternp_kernel p w * exp th.1.
    by rewrite [RHS]mulrC; apply: ger0_norm; apply: mulr_ge0 => //; exact: ltW.
  rewrite -ler_pdivl_mulr //; apply/leRP/HD.
  rewrite /w -(sqrt_square D0 (Rlt_le _ _ D0p)); apply: sqrt_lt_1_alt; split; first exact: Rle_0_sqr.
  have el : 0 < exp (th.2 0 k) by apply/ltRP; exact: exp_pos.
  have D0' : 0 < D0 by exact/ltRP.
  have D1 : D0 < exp (th.2 0 k) * `|x i 0 k - xt j 0 k|.
    rewrite mulrC -ltr_pdivr_mulr //; apply: le_lt_trans hk; apply: ler_wpmul2l; first exact: ltW.
    rewrite (bigD1 k) //= -[X in X <= _]addr0; apply: ler_add; first by rewrite exp_Ropp Rinv_ring // gt_eqF.
    by apply: sumr_ge0 => l _; apply/leRP/Rlt_le; exact: exp_pos.
  apply/ltRP; rewrite (bigD1 k) //=.
  apply: lt_le_trans (_ : (exp (th.2 0 k) * `|x i 0 k - xt j 0 k|) ^+ 2 <= _).
    by rewrite -[X in X < _]/(D0 ^+ 2) ltr_expn2r // ?nnegrE ltW // (lt_trans D0' D1).
  rewrite -mulrBr !exprMn real_normK ?num_real // ler_addl; apply: sumr_ge0 => l _; exact: sqr_ge0.
have [mu [v [lam [E F]]]] := H m xt ss neg dl (ltW dl0) sm.
exists mu, v, lam; split=> // j; have [f1 f2 f3] := F j; rewrite k0 in f2 f3; split.
- exact: le_trans f1 dl1.
- by apply: le_trans f2; rewrite ler_add2l ler_opp2.
- by move=> kn; apply: f3 => //; exact: ltW.
Qed.
Print Assumptions C126_bound.
Print Assumptions C126_matern.

(* Two points on a line with a constant but unknown mean: there are targets as far as one wants. *)
Example C126_case : let x : 'I_(1 + 1) -> 'rV[R]_1 := fun i => const_mx (i : nat)%:R in
  identified (KLinear (fun (_ : 'rV[R]_1) (_ : 'I_1) => 1 : RR)) x /\
  forall D : R, exists t : 'rV[R]_1, forall i, exists k, D < `|x i 0 k - t 0 k|.
Proof.
move=> x; split.
  move=> b /colP /(_ 0); rewrite !mxE big_ord1 mxE mul1r => e; apply/colP => k.
  by rewrite ord1 e mxE.
move=> D; exists (const_mx (`|D| + 2%:R)) => i; exists 0; rewrite !mxE distrC.
have i1 : (i : nat)%:R <= 1 :> R by rewrite -[X in _ <= X]/(1%:R) ler_nat -ltnS.
apply: lt_le_trans (ler_norm _); apply: le_lt_trans (ler_norm _) _.
rewrite ltr_subr_addr ltr_add2l; apply: le_lt_trans i1 _; by rewrite -[X in X < _]/(1%:R) ltr_nat.
Qed.
