(* InitProofs.v: the initial variance guess and the likelihood (C74). *)
From Coq Require Import Reals Lra.
From mathcomp Require Import all_ssreflect all_algebra ring.
From Verif Require Import LinAlg KrigModel RealAux RealAux2 Rinst LikModel MaternModel MaternProofs MaternCov InitModel
  CholProofs LinQR KrigProofs KrigProofs2 LooProofs LikProofs MaternCovProofs.
Set Implicit Arguments.
Unset Strict Implicit.
Unset Printing Implicit Defensive.
Import Order.TTheory GRing.Theory Num.Theory.
Local Open Scope ring_scope.
Local Arguments exp : clear scopes.
Local Arguments ln : clear scopes.
Local Arguments sqrt : clear scopes.
Bind Scope ring_scope with R.

Lemma lnX (c : R) n : 0 < c -> ln (c ^+ n) = n%:R * ln c.
Proof.
move=> c0; elim: n => [|n IH]; first by rewrite expr0 mul0r ln_1.
by rewrite exprS (lnM c0) ?exprn_gt0 // IH mulrS mulrDl mul1r.
Qed.
Lemma pd_det n (K : 'M[R]_n) : pos_def K -> 0 < \det K.
Proof.
move=> pd; have [L eL] := chol_complete pd; have cL := chol_sound (pd_sym pd) eL.
by rewrite (is_chol_det cL); apply: exprn_gt0; have [_ dC _] := cL; apply: prodr_gt0.
Qed.
Lemma pd_scale n (K : 'M[R]_n) (c : R) : 0 < c -> pos_def K -> pos_def (c *: K).
Proof.
move=> c0 [sK pK]; split; first by rewrite /symmetric linearZ /= sK.
by move=> x xn; rewrite /qform bilin_scalem; apply: mulr_gt0 => //; exact: pK.
Qed.
Lemma gauss_nll_scale n (K : 'M[R]_n) z (c : R) : 0 < c -> pos_def K ->
  gauss_nll (c *: K) z =
  (n%:R * ln (2%:R * PI) + n%:R * ln c + ln (\det K) + qform (invmx K) z / c) / 2%:R.
Proof.
move=> c0 pd; rewrite /gauss_nll detZ (lnM (exprn_gt0 n c0) (pd_det pd)) lnX // invmxZ; last first.
  by rewrite unitmxZ ?unitfE ?gt_eqF //; exact: pd_unit.
rewrite /qform bilin_scalem; congr (_ / _); rewrite addrA; congr (_ + _); exact: mulrC.
Qed.

(* profile likelihood in the variance: the unique minimiser is q/n *)
Lemma nll_profile n (K : 'M[R]_n) z (c : R) : pos_def K -> z != 0 -> 0 < c ->
  let a := n%:R^-1 * qform (invmx K) z in
  0 < a /\ (c != a -> gauss_nll (a *: K) z < gauss_nll (c *: K) z).
Proof.
move=> pd zn c0 a; have q0 := (pd_inv pd).2 z zn.
have n0 : (0 < n)%N.
  by case: n z zn K pd {a q0} => // z; rewrite (_ : z = 0) ?eqxx //; apply/matrixP => -[].
have nr : 0 < n%:R :> R by rewrite ltr0n.
have a0 : 0 < a by rewrite mulr_gt0 ?invr_gt0.
split=> // ne; rewrite !gauss_nll_scale // ltr_pmul2r ?invr_gt0 ?ltr0n //.
have eq : qform (invmx K) z = n%:R * a by rewrite /a mulVKf // gt_eqF.
have /ltRP L : Rlt (Rplus (ln a) (IZR 1)) (Rplus (ln c) (Rdiv a c)).
  by apply: ln_quot_min; [exact/ltRP | exact/ltRP | exact/eqP].
have ac : Rdiv a c = a / c by rewrite /Rdiv Rinv_ring // gt_eqF.
have h1 : ln a + 1 < ln c + a / c by rewrite -ac.
rewrite eq -mulrA divff ?gt_eqF // mulr1 -mulrA.
have h2 : n%:R * (ln a + 1) < n%:R * (ln c + a / c) by rewrite ltr_pmul2l.
rewrite !mulrDr mulr1 in h2.
set A := n%:R * ln (2%:R * PI); set D := ln (\det K).
have e1 (x y : R) : A + x + D + y = (A + D) + (x + y) by ring.
by rewrite !e1 ltr_add2l.
Qed.

Section Thm.
Variables (b b' : backend) (p d : nat) (glog : R).

Lemma covparamE n (s2 : R) (i0 : 'I_n) (x : 'M[R]_(n, d)) :
  covparam_of glog s2 i0 x = mkparam (ln s2) (\row_k - ln (init_rho glog i0 x k)).
Proof. by []. Qed.

(* the covariance at variance s2 is s2 times the one at variance 1 *)
Lemma cov_at n (s2 : R) l (x : 'M[R]_(n, d)) : 0 < s2 ->
  maternp_covariance_ii b p (mkparam (ln s2) l) x = s2 *: maternp_covariance_ii b p (mkparam (ln 1) l) x.
Proof.
move=> s0; have [_ <- _] := cov_sigma2 b p (ln 1) l x x s0.
by rewrite ln_1 add0r.
Qed.

(* zero mean: the returned parameter minimises the negative log-likelihood over
   all variances, the length scales being those returned *)
Lemma init_zero_mean_ml n (i0 : 'I_n) (x : 'M[R]_(n, d)) z : z != 0 ->
  let l := \row_k - ln (init_rho glog i0 x k) in
  exists u, init_zero_mean b p glog i0 x z = Ok (mkparam u l) /\
    forall u', u' != u ->
      exists L L', [/\ nll_zero_mean b' (maternp_covariance_ii b p (mkparam u l) x) z = Ok (Fin L),
        nll_zero_mean b' (maternp_covariance_ii b p (mkparam u' l) x) z = Ok (Fin L') & L < L'].
Proof.
move=> zn l; set K := maternp_covariance_ii b p (mkparam (ln 1) l) x.
have pd : pos_def K by exact: cov_ii_pd.
pose a : R := n%:R^-1 * qform (invmx K) z.
have a0 : 0 < a by case: (@nll_profile n K z 1 pd zn ltr01).
exists (ln a); split.
  rewrite /init_zero_mean /norm_k_sqrd_with_zero_mean covparamE -/l -/K.
  by have [L _ ->] := cholesky_solve_ok z pd; rewrite /= einsum_qform covparamE.
move=> u' ne; have c0 : 0 < exp u' by apply/ltRP; exact: exp_pos.
have [_ lt] := @nll_profile n K z (exp u') pd zn c0.
have ca : exp u' != a by apply/eqP => e; case/eqP: ne; rewrite -e ln_exp.
exists (gauss_nll (a *: K) z), (gauss_nll (exp u' *: K) z); split.
- by rewrite cov_at //; apply: nll_zero_ok; exact: pd_scale.
- rewrite -{1}[u']ln_exp cov_at //; apply: nll_zero_ok; exact: pd_scale.
- exact: lt.
Qed.

(* constant mean: generalised least squares mean; the variance is computed from
   the uncentred data *)
Lemma init_constant_mean_val n (i0 : 'I_n) (x : 'M[R]_(n, d)) z :
  let l := \row_k - ln (init_rho glog i0 x k) in
  let K := maternp_covariance_ii b p (mkparam (ln 1) l) x in
  let one : 'cV[R]_n := const_mx 1 in
  exists m u, [/\ init_constant_mean b p glog i0 x z = Ok (m, mkparam u l),
    forall m', m' != m -> qform (invmx K) (z - m *: one) < qform (invmx K) (z - m' *: one)
    & u = ln (n%:R^-1 * (qform (invmx K) (z - m *: one) + m ^+ 2 * qform (invmx K) one))].
Proof.
move=> l K one; have pd : pos_def K by exact: cov_ii_pd.
have pi := pd_inv pd; have si := pd_sym pi.
have n0 : (0 < n)%N by apply: leq_ltn_trans (ltn_ord i0).
have one0 : one != 0.
  by apply/eqP => /matrixP /(_ i0 0); rewrite !mxE => /eqP; rewrite oner_eq0.
have q1 := pi.2 one one0.
have E1 : \sum_i (invmx K *m one) i 0 = qform (invmx K) one.
  rewrite /qform /bilin -mulmxA mxE; apply: eq_bigr => i _.
  by rewrite [one^T 0 i]mxE [one i 0]mxE mul1r.
have E2 : \sum_i (invmx K *m z) i 0 = bilin (invmx K) one z.
  rewrite /bilin -mulmxA mxE; apply: eq_bigr => i _.
  by rewrite [one^T 0 i]mxE [one i 0]mxE mul1r.
pose m : R := bilin (invmx K) one z / qform (invmx K) one.
have Q t : qform (invmx K) (z - t *: one) =
   qform (invmx K) z - 2%:R * t * bilin (invmx K) one z + t ^+ 2 * qform (invmx K) one.
  rewrite qformD // qformN qformZ bilinNr bilinZr [bilin _ z one]bilin_tr si.
  gring.
have bm : bilin (invmx K) one z = m * qform (invmx K) one by rewrite /m divfK // gt_eqF.
exists m, (ln (n%:R^-1 * qform (invmx K) z)); split.
- rewrite /init_constant_mean /k_inverses /inv covparamE -/l -/K.
  by rewrite pd_unit //= E1 E2 einsum_qform covparamE.
- move=> m' ne; rewrite !Q bm -subr_gt0.
  have -> : qform (invmx K) z - 2%:R * m' * (m * qform (invmx K) one) + m' ^+ 2 * qform (invmx K) one
     - (qform (invmx K) z - 2%:R * m * (m * qform (invmx K) one) + m ^+ 2 * qform (invmx K) one)
     = (m' - m) ^+ 2 * qform (invmx K) one by gring.
  apply: mulr_gt0 => //; rewrite lt_def sqr_ge0 andbT sqrf_eq0 subr_eq0 //.
- congr (ln (_ * _)); rewrite Q bm; gring.
Qed.

(* linear mean: relative to the restricted likelihood the variance is too small
   by the factor r/(q+r) = (n-q)/n *)
Lemma contrast_zero q r (P : 'M[R]_(q + r, q)) QR (z : 'cV[R]_(q + r)) : is_qr P QR -> full_col_rank P ->
  (rsubmx QR.1)^T *m z = 0 -> exists beta, z = P *m beta.
Proof.
move=> qrP fP W0; have [eP _ _ _ QQW] := qr_blocks qrP; have uR := qr_Rq_unit qrP fP.
exists (invmx (usubmx QR.2) *m ((lsubmx QR.1)^T *m z)).
rewrite {1}eP -mulmxA mulKVmx //.
have := mul1mx z; rewrite -QQW mulmxDl -!mulmxA W0 mulmx0 addr0 => {1}<- //.
Qed.
Lemma init_linear_mean_reml q r (qr : qr_fun R_rcfType q r) (i0 : 'I_(q + r)) (x : 'M[R]_(q + r, d))
  (P : 'M[R]_(q + r, q)) z :
  is_qr P (qr P) -> full_col_rank P -> (forall beta, z != P *m beta) ->
  let l := \row_k - ln (init_rho glog i0 x k) in
  exists s2 : R, [/\ 0 < s2,
    init_linear_mean b p glog qr i0 x P z = Ok (mkparam (ln (r%:R / (q + r)%:R * s2)) l)
    & forall c, 0 < c -> c != s2 ->
      exists L L', [/\ nrl b' qr (maternp_covariance_ii b p (mkparam (ln s2) l) x) P z = Ok (Fin L),
        nrl b' qr (maternp_covariance_ii b p (mkparam (ln c) l) x) P z = Ok (Fin L') & L < L']].
Proof.
move=> qrP fP zP l; set K := maternp_covariance_ii b p (mkparam (ln 1) l) x.
have pd : pos_def K by exact: cov_ii_pd.
have cpd (c : R) : 0 < c -> cond_pos_def (c *: K) P by move=> c0; apply: pd_cpd; exact: pd_scale.
pose W := rsubmx (qr P).1; pose G := W^T *m (K *m W).
have pG : pos_def G by apply: G_pd => //; exact: pd_cpd.
have Wz : W^T *m z != 0.
  apply/eqP => e; have [beta eb] := contrast_zero qrP fP e.
  by have := zP beta; rewrite -eb eqxx.
pose a : R := r%:R^-1 * qform (invmx G) (W^T *m z).
have a0 : 0 < a by case: (@nll_profile r G (W^T *m z) 1 pG Wz ltr01).
have r0 : (0 < r)%N.
  rewrite lt0n; apply/eqP => r0; move: a0; rewrite /a.
  have -> : r%:R = 0 :> R by rewrite r0.
  by rewrite invr0 mul0r ltxx.
have rn : r%:R != 0 :> R by rewrite pnatr_eq0 -lt0n.
exists a; split=> //.
- rewrite /init_linear_mean /norm_k_sqrd /compute_contrast_matrix /compute_contrast_covariance covparamE -/l -/K.
  move: pG; rewrite /G /W /a; case E: (qr P) => [Q Rm] /= pG'.
  have [L _ ->] := cholesky_solve_ok ((rsubmx Q)^T *m z) pG'.
  rewrite /= einsum_qform covparamE; congr (Ok (mkparam (ln _) _)).
  have eW : W = rsubmx Q by rewrite /W E.
  rewrite /G eW; set t := qform _ _.
  have h (u v w : R) : u != 0 -> v * w = u * v * (u^-1 * w) by move=> u0; rewrite mulrACA divff // mul1r.
  exact: h.
move=> c c0 ca; have [_ lt] := @nll_profile r G (W^T *m z) c pG Wz c0.
have nG (t : R) : nrl_of (t *: K) W z = gauss_nll (t *: G) (W^T *m z).
  by rewrite /nrl_of -scalemxAl -scalemxAr.
exists (nrl_of (a *: K) W z), (nrl_of (c *: K) W z); split.
- by rewrite cov_at // nrl_ok //; exact: cpd.
- by rewrite cov_at // nrl_ok //; exact: cpd.
- by rewrite !nG; exact: lt.
Qed.
End Thm.
