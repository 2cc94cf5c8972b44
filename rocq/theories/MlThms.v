(* MlThms.v: C110, joint maximum likelihood of the mean and the variance. *)
From Coq Require Import Reals Lra.
From mathcomp Require Import all_ssreflect all_algebra ring.
From Verif Require Import LinAlg KrigModel RealAux RealAux2 Rinst LikModel MaternModel MaternProofs MaternCov InitModel
  CholProofs LinQR KrigProofs KrigProofs2 KrigProofs3 LooProofs LikProofs MaternCovProofs InitProofs PriorCritModel PriorCritThms MlModel FlModel ConfigModel.
Set Implicit Arguments.
Unset Strict Implicit.
Unset Printing Implicit Defensive.
Import Order.TTheory GRing.Theory Num.Theory.
Local Open Scope ring_scope.
Local Arguments exp : clear scopes.
Local Arguments ln : clear scopes.
Bind Scope ring_scope with R.

(* (beta, u) is the only minimum of f *)
Definition joint_min q (f : 'cV[R]_q -> R -> res fl) (beta : 'cV[R]_q) (u : R) : Prop :=
  exists v, f beta u = Ok (Fin v) /\ forall beta' u', (beta', u') <> (beta, u) -> exists v', f beta' u' = Ok (Fin v') /\ Rlt v v'.

Lemma gauss_mono n (K : 'M[R]_n) (z z' : 'cV[R]_n) (c : R) : pos_def K -> 0 < c ->
  (gauss_nll (c *: K) z < gauss_nll (c *: K) z') = (qform (invmx K) z < qform (invmx K) z').
Proof.
move=> pd c0; rewrite !gauss_nll_scale // ltr_pmul2r ?invr_gt0 ?ltr0n // ltr_add2l ltr_pmul2r ?invr_gt0 //.
Qed.
Lemma gls_split n q (K : 'M[R]_n) (P : 'M[R]_(n, q)) z (beta beta' : 'cV[R]_q) : pos_def K -> gls_minimiser K P z beta ->
  qform (invmx K) (z - P *m beta') = qform (invmx K) (z - P *m beta) + qform (invmx K) (P *m (beta - beta')).
Proof.
move=> pd g; have nb := gls_normal pd g; have pV := pd_inv pd.
have -> : z - P *m beta' = (z - P *m beta) + P *m (beta - beta') by rewrite mulmxBr addrA subrK.
rewrite qformD; last exact: pV.1.
by rewrite bilin_tr pV.1 bilin_mull /bilin -mulmxA nb mulmx0 mxE mulr0 addr0.
Qed.

Section C110.
Variables (b b' : backend) (p d q r : nat).
Variables (x : 'M[R]_(q + r, d)) (P : 'M[R]_(q + r, q)).
Let n := (q + r)%N.
Definition cov1 (l : 'rV[R]_d) : 'M[R]_(q + r) := maternp_covariance_ii b p (mkparam (ln 1) l) x.
Lemma cov1_pd l : pos_def (cov1 l). Proof. exact: cov_ii_pd. Qed.
Lemma mlE z beta u l : matern_ml b b' p x P z beta u l = Ok (Fin (gauss_nll (exp u *: cov1 l) (z - P *m beta))).
Proof.
rewrite /matern_ml; have -> : row_mx u%:M l = mkparam (ln (exp u)) l by rewrite /mkparam ln_exp.
by rewrite cov_at ?exp_gt0 // /nll nll_zero_ok //; apply: pd_scale; [exact: exp_gt0 | exact: cov1_pd].
Qed.

(* at fixed length scales the likelihood has one minimum over the mean parameters and the variance: the generalised least squares
   estimate, the mean square of its residuals in the metric of the correlations *)
Theorem C110_joint z l : full_col_rank P -> (forall beta, z != P *m beta) -> exists beta u,
  [/\ joint_min (fun beta u => matern_ml b b' p x P z beta u l) beta u, gls_minimiser (cov1 l) P z beta
    & exp u = n%:R^-1 * qform (invmx (cov1 l)) (z - P *m beta)].
Proof.
move=> fP zP; have pd := cov1_pd l; have g := gls_exists z pd fP; set beta := invmx _ *m _ in g.
have e0 : z - P *m beta != 0 by rewrite subr_eq0.
have [a0 _] := @nll_profile n (cov1 l) (z - P *m beta) 1 pd e0 ltr01; set a := n%:R^-1 * _ in a0.
exists beta, (ln a); split=> //; last by rewrite exp_ln //; exact/ltRP.
have ea : exp (ln a) = a by rewrite exp_ln //; exact/ltRP.
exists (gauss_nll (a *: cov1 l) (z - P *m beta)); rewrite mlE ea; split=> // beta' u' ne.
exists (gauss_nll (exp u' *: cov1 l) (z - P *m beta')); rewrite mlE; split=> //; apply/ltRP.
have c0 := exp_gt0 u'.
have [_ lt] := @nll_profile n (cov1 l) (z - P *m beta) (exp u') pd e0 c0.
have le : gauss_nll (exp u' *: cov1 l) (z - P *m beta) <= gauss_nll (exp u' *: cov1 l) (z - P *m beta').
  by rewrite leNgt gauss_mono // -leNgt; exact: g.
have [eu|nu] := eqVneq (exp u') a; last exact: lt_le_trans (lt nu) le.
rewrite eu gauss_mono //; rewrite [X in _ < X](gls_split beta' pd g) ltr_addl; apply: (pd_inv pd).2; apply/eqP => e.
have : beta - beta' = 0 by apply: fP.
by move/eqP; rewrite subr_eq0 => /eqP eb; case: ne; rewrite -eb -(ln_exp u') eu.
Qed.

Lemma gls_uniq K z (b1 b2 : 'cV[R]_q) : pos_def K -> full_col_rank P -> gls_minimiser K P z b1 -> gls_minimiser K P z b2 -> b1 = b2.
Proof.
move=> pd fP g1 g2; have := g2 b1; rewrite (gls_split b2 pd g1) ger_addl => h.
apply/eqP; rewrite -subr_eq0; apply/eqP; apply: fP; apply/eqP; apply: contraTT h => e.
by rewrite -ltNge; apply: (pd_inv pd).2.
Qed.
Lemma joint_uniq (f : 'cV[R]_q -> R -> res fl) b1 u1 b2 u2 : joint_min f b1 u1 -> joint_min f b2 u2 -> (b1, u1) = (b2, u2).
Proof.
case=> v1 [e1 h1] [v2 [e2 h2]]; apply/eqP; case: eqP => // ne; exfalso.
have [w1 [E1 L1]] := h1 b2 u2 (fun e => ne (esym e)); have [w2 [E2 L2]] := h2 b1 u1 ne.
by move: E1 E2; rewrite e1 e2 => -[E1] [E2]; subst; lra.
Qed.
(* the residual sum of squares of the restricted likelihood *)
Lemma contrast_gls qr z l beta : is_qr P (qr P) -> full_col_rank P -> gls_minimiser (cov1 l) P z beta ->
  let W := rsubmx (qr P).1 in
  qform (invmx (W^T *m (cov1 l *m W))) (W^T *m z) = qform (invmx (cov1 l)) (z - P *m beta).
Proof.
move=> qrP fP g W; have pK := cov1_pd l; set K := cov1 l in g pK *.
have nb := gls_normal pK g.
have cK := pd_cpd P pK.
have pG : pos_def (W^T *m (K *m W)) by exact: (@G_pd _ _ _ qr K P).
have [C [sB PB KB]] := @cpd_B _ _ _ qr K P qrP cK fP.
move: PB KB; rewrite -/W; set G := W^T *m _ => PB KB.
have -> : qform (invmx G) (W^T *m z) = qform (W *m (invmx G *m W^T)) z by rewrite qform_mul trmxK mulmxA.
set B := W *m (invmx G *m W^T) in PB KB sB *.
have BP : B *m P = 0.
  by apply: trmx_inj; rewrite trmx_mul trmx0 sB.
set e := z - P *m beta in nb *.
have -> : qform B z = qform B e.
  have -> : z = e + P *m beta by rewrite /e subrK.
  have Z t : bilin B t (P *m beta) = 0 by rewrite /bilin -mulmxA [B *m (_ *m _)]mulmxA BP mul0mx mulmx0 mxE.
  by rewrite (qformD e _ sB) Z /qform Z mulr0 !addr0.
have -> : qform (invmx K) e = qform (invmx K *m (K *m B + P *m C)) e by rewrite KB mulmx1.
rewrite mulmxDr mulKmx ?pd_unit // /qform bilin_addm.
have -> : bilin (invmx K *m (P *m C)) e e = 0.
  rewrite /bilin !mulmxA.
  have -> : e^T *m invmx K *m P = 0 by apply: trmx_inj; rewrite !trmx_mul trmxK (pd_sym (pd_inv pK)) trmx0 mulmxA.
  by rewrite !mul0mx mxE.
by rewrite addr0.
Qed.
(* the estimate of the variance by restricted likelihood is n / (n - q) times the one by maximum likelihood *)
Theorem C110_reml (qr : qr_fun R_rcfType q r) z l : is_qr P (qr P) -> full_col_rank P -> (forall beta, z != P *m beta) ->
  exists beta u, joint_min (fun beta u => matern_ml b b' p x P z beta u l) beta u /\
    unique_min (fun s => matern_reml b b' p qr x P z s l) (u + ln (n%:R / r%:R)).
Proof.
move=> qrP fP zP; have [beta [u [jm g eu]]] := C110_joint l fP zP; exists beta, u; split=> //.
have pK := cov1_pd l; have cG := contrast_gls qrP fP g; cbv zeta in cG.
have cpd (c : R) : 0 < c -> cond_pos_def (c *: cov1 l) P by move=> c0; apply: pd_cpd; exact: pd_scale.
have pG : pos_def ((rsubmx (qr P).1)^T *m (cov1 l *m rsubmx (qr P).1)) by apply: (@G_pd _ _ _ qr (cov1 l) P qrP); exact: pd_cpd.
have Wz : (rsubmx (qr P).1)^T *m z != 0.
  by apply/eqP => e; have [b0 eb] := contrast_zero qrP fP e; have := zP b0; rewrite -eb eqxx.
have V t : matern_reml b b' p qr x P z t l = Ok (Fin (gauss_nll (exp t *: ((rsubmx (qr P).1)^T *m (cov1 l *m rsubmx (qr P).1))) ((rsubmx (qr P).1)^T *m z))).
  rewrite /matern_reml; have -> : row_mx t%:M l = mkparam (ln (exp t)) l by rewrite /mkparam ln_exp.
  by rewrite cov_at ?exp_gt0 // nrl_ok //=; [rewrite /nrl_of -scalemxAl -scalemxAr | apply: cpd; exact: exp_gt0].
have rp := r_pos qrP fP zP.
have r0 : 0 < r%:R :> R by rewrite ltr0n.
have n0 : 0 < n%:R :> R by rewrite ltr0n addn_gt0 rp orbT.
have [a0 _] := @nll_profile r _ _ 1 pG Wz ltr01.
have es : exp (u + ln (n%:R / r%:R)) = r%:R^-1 * qform (invmx ((rsubmx (qr P).1)^T *m (cov1 l *m rsubmx (qr P).1))) ((rsubmx (qr P).1)^T *m z).
  rewrite [exp _]exp_plus exp_ln; last by apply/ltRP; rewrite divr_gt0.
  have H (Q m k : R) : m != 0 -> m^-1 * Q * (m / k) = k^-1 * Q by move=> m0; rewrite mulrC mulrA [m / k * _]mulrAC divff // mul1r.
  by rewrite -[Rmult _ _]/(exp u * (n%:R / r%:R)) eu cG H // gt_eqF.
eexists; split; first exact: V.
move=> t ne; eexists; split; first exact: V.
apply/ltRP; rewrite es; apply: (nll_profile pG Wz (exp_gt0 t)).2; rewrite -es; apply/eqP => e; apply: ne.
by rewrite -(ln_exp t) e ln_exp.
Qed.

(* equivariance: data multiplied by a and translated by a trend *)
Theorem C110_equivariance z c (a : R) beta u l v : a != 0 ->
  matern_ml b b' p x P z beta u l = Ok (Fin v) ->
  matern_ml b b' p x P (a *: z + P *m c) (a *: beta + c) (u + ln (a ^+ 2)) l = Ok (Fin (v + n%:R * ln (a ^+ 2) / 2%:R)).
Proof.
move=> a0; rewrite !mlE => -[<-]; congr (Ok (Fin _)).
have a2 : 0 < a ^+ 2 by rewrite lt_def sqr_ge0 andbT sqrf_eq0.
have ea : exp (u + ln (a ^+ 2)) = exp u * a ^+ 2 by rewrite [exp _]exp_plus exp_ln //; exact/ltRP.
have -> : a *: z + P *m c - P *m (a *: beta + c) = a *: (z - P *m beta).
  by rewrite mulmxDr -scalemxAr scalerBr opprD addrACA subrr addr0.
have pK := cov1_pd l; have e0 := exp_gt0 u.
rewrite ea (gauss_nll_scale _ (mulr_gt0 e0 a2) pK) (gauss_nll_scale _ e0 pK).
have -> : ln (exp u * a ^+ 2) = u + ln (a ^+ 2) by rewrite lnM // ln_exp.
rewrite qformZ ln_exp; set Q := qform _ _.
have -> : a ^+ 2 * Q / (exp u * a ^+ 2) = Q / exp u by rewrite [a ^+ 2 * Q]mulrC -mulrA invfM mulrA mulrACA [_ / a ^+ 2]divff ?mulr1 // gt_eqF.
have H (t1 t2 t3 t4 t5 t6 : R) : (t1 + t2 * (t3 + t4) + t5 + t6) / 2%:R = (t1 + t2 * t3 + t5 + t6) / 2%:R + t2 * t4 / 2%:R by rewrite -mulrDl; congr (_ / _); ring.
exact: H.
Qed.
End C110.
Print Assumptions C110_joint.
Print Assumptions C110_reml.
Print Assumptions C110_equivariance.

(* the initial guess for a linear mean is the maximum likelihood estimate at its length scales *)
Theorem C110_guess_linear b b' p d glog q r (qr : qr_fun R_rcfType q r) (i0 : 'I_(q + r)) (x : 'M[R]_(q + r, d)) (P : 'M[R]_(q + r, q)) z :
  is_qr P (qr P) -> full_col_rank P -> (forall beta, z != P *m beta) ->
  exists beta u l, init_linear_mean b p glog qr i0 x P z = Ok (row_mx u%:M l) /\ joint_min (fun beta u => matern_ml b b' p x P z beta u l) beta u.
Proof.
move=> qrP fP zP; pose l : 'rV[R]_d := \row_k - ln (init_rho glog i0 x k).
have [beta [u [jm g eu]]] := @C110_joint b b' p d q r x P z l fP zP; exists beta, u, l; split=> //.
have cG := contrast_gls qrP fP g; cbv zeta in cG.
rewrite /init_linear_mean /norm_k_sqrd /compute_contrast_matrix /compute_contrast_covariance covparamE -/l -[maternp_covariance_ii _ _ _ _]/(cov1 b p x l).
have pG : pos_def ((rsubmx (qr P).1)^T *m (cov1 b p x l *m rsubmx (qr P).1)).
  by apply: (@G_pd _ _ _ qr (cov1 b p x l) P qrP); apply: pd_cpd; exact: cov1_pd.
move: pG cG; case: (qr P) => [Q Rm] /= pG cG.
have [L _ ->] := cholesky_solve_ok ((rsubmx Q)^T *m z) pG.
by rewrite /= einsum_qform cG -eu covparamE ln_exp.
Qed.
Print Assumptions C110_guess_linear.
(* the one for a constant mean has its mean, and a variance in excess by m^2 1'R^-1 1 / n *)
Theorem C110_guess_constant b b' p d glog r (i0 : 'I_(1 + r)) (x : 'M[R]_(1 + r, d)) (z : 'cV[R]_(1 + r)) : (exists i j, z i 0 != z j 0) ->
  let one : 'cV[R]_(1 + r) := const_mx 1 in
  exists m u w l, [/\ init_constant_mean b p glog i0 x z = Ok (m, row_mx w%:M l),
    joint_min (fun beta u => matern_ml b b' p x (one : 'M_(1 + r, 1)) z beta u l) m%:M u,
    exp w = exp u + m ^+ 2 * qform (invmx (cov1 b p x l)) one / (1 + r)%:R
    & u <= w /\ (u = w <-> m = 0)].
Proof.
move=> [i [j zij]] one; pose l : 'rV[R]_d := \row_k - ln (init_rho glog i0 x k).
have fP : full_col_rank (one : 'M_(1 + r, 1)).
  move=> c e; apply/matrixP => k k'; rewrite !ord1; have /matrixP /(_ i0 0) := e; rewrite !mxE big_ord1 !mxE mul1r //.
have zP beta : z != (one : 'M_(1 + r, 1)) *m beta.
  by apply: contraNneq zij => ->; rewrite !mxE !big_ord1 !mxE.
have [beta [u [jm g eu]]] := @C110_joint b b' p d 1 r x one z l fP zP.
have [m [w [e lt ew]]] := init_constant_mean_val b p glog i0 x z.
have sc (t : R) : (one : 'M_(1 + r, 1)) *m t%:M = t *: one by rewrite mul_mx_scalar.
have eb : beta = m%:M.
  rewrite (mx11_scalar beta); congr _%:M; apply/eqP; apply: contraT => ne.
  by have := lt _ ne; rewrite -!sc -(mx11_scalar beta) ltNge => /negP[]; exact: g.
rewrite eb in jm eu; exists m, u, w, l.
have one0 : one != 0 by apply/eqP => /matrixP /(_ i0 0); rewrite !mxE => /eqP; rewrite oner_eq0.
have q1 := (pd_inv (cov1_pd b p x l)).2 one one0.
have n0 : 0 < (1 + r)%:R :> R by rewrite ltr0n.
have exw : exp w = exp u + m ^+ 2 * qform (invmx (cov1 b p x l)) one / (1 + r)%:R.
  have pos : 0 < exp u + m ^+ 2 * qform (invmx (cov1 b p x l)) one / (1 + r)%:R.
    by apply: ltr_paddr; [rewrite divr_ge0 ?ler0n // mulr_ge0 ?sqr_ge0 // ltW | exact: exp_gt0].
  rewrite -[RHS]exp_ln; last exact/ltRP.
  congr exp; rewrite ew; congr ln; rewrite eu sc mulrDr; congr (_ + _); exact: mulrC.
have mono (t : R) : 0 <= t -> exp w = exp u + t -> u <= w /\ (u = w <-> t = 0).
  move=> /leRP t0 E; have E' : exp w = Rplus (exp u) t by exact: E.
  split.
    apply/leRP; apply: Rnot_lt_le => h; have := exp_increasing _ _ h; move: t0; rewrite E'.
    by change (GRing.zero _ : R) with (IZR 0); move=> *; lra.
  split=> [ee|t00]; last by apply: exp_inv; rewrite E t00 addr0.
  by have := E; rewrite ee -[X in X = _]addr0 => /addrI.
have c0 : 0 <= m ^+ 2 * qform (invmx (cov1 b p x l)) one / (1 + r)%:R by rewrite divr_ge0 ?ler0n // mulr_ge0 ?sqr_ge0 // ltW.
have [le eqv] := mono _ c0 exw; split=> //; split=> //; rewrite eqv; split=> [/eqP|->]; last by rewrite expr0n /= !mul0r.
by rewrite mulf_eq0 invr_eq0 mulf_eq0 sqrf_eq0 !(gt_eqF q1) (gt_eqF n0) !orbF => /eqP.
Qed.
Print Assumptions C110_guess_constant.
(* two observations of a constant mean *)
Example C110_joint_case : exists (qr : qr_fun R_rcfType 1 1) (z : 'cV[R]_(1 + 1)),
  [/\ is_qr (w_P R_rcfType) (qr (w_P R_rcfType)), full_col_rank (w_P R_rcfType), forall beta, z != w_P R_rcfType *m beta
    & exists i j, z i 0 != z j 0].
Proof.
have [qr h] := qr_exists R_rcfType 1 1; exists qr, (delta_mx (lshift 1 0) 0); split=> //; first exact: w_full.
- move=> beta; apply/eqP => e.
  have /matrixP /(_ (lshift 1 0) 0) := e; have /matrixP /(_ (rshift 1 0) 0) := e.
  rewrite !mxE !big_ord1 /w_P col_mxEu col_mxEd !mxE !eqxx /= !mul1r => <- /eqP; by rewrite oner_eq0.
- by exists (lshift 1 0), (rshift 1 0); rewrite !mxE !eqxx /= oner_eq0.
Qed.
