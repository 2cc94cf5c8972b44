(* LikProofs.v: likelihood (C30, C31) and the autodiff Fisher variant (C33). *)
From Coq Require Import Reals Lra.
From mathcomp Require Import all_ssreflect all_algebra ring.
From Verif Require Import LinAlg KrigModel RealAux Rinst LikModel CholProofs LinQR KrigProofs KrigProofs2
  KrigProofs3 LooProofs PathProofs.
Set Implicit Arguments.
Unset Strict Implicit.
Unset Printing Implicit Defensive.
Import Order.TTheory GRing.Theory Num.Theory.
Local Open Scope ring_scope.
Local Arguments ln : clear scopes.
Bind Scope ring_scope with R.

(* ---- specification vocabulary ---- *)
(* minus the log of the N(0, K) density at z, from the determinant and inverse *)
Definition gauss_nll n (K : 'M[R]_n) (z : 'cV[R]_n) : R :=
  (n%:R * ln (2%:R * PI) + ln (\det K) + qform (invmx K) z) / 2%:R.
(* minus the log of the univariate N(mu, v) density at z *)
Definition gauss1_nll (mu v z : R) : R :=
  (ln (2%:R * PI) + ln v + (z - mu) ^+ 2 / v) / 2%:R.
(* restricted likelihood in closed form *)
Definition reml_nll n q (K : 'M[R]_n) (P : 'M[R]_(n, q)) (z : 'cV[R]_n) : R :=
  let Ki := invmx K in
  let B := Ki - Ki *m P *m invmx (P^T *m Ki *m P) *m P^T *m Ki in
  ((n%:R - q%:R) * ln (2%:R * PI) + ln (\det K) + ln (\det (P^T *m Ki *m P))
    - ln (\det (P^T *m P)) + qform B z) / 2%:R.

Lemma ltRP (x y : R) : reflect (Rlt x y) (x < y).
Proof. exact: RltbP. Qed.
Lemma leRP (x y : R) : reflect (Rle x y) (x <= y).
Proof. exact: RlebP. Qed.

Lemma lnM (x y : R) : 0 < x -> 0 < y -> ln (x * y) = ln x + ln y.
Proof. by move=> /ltRP hx /ltRP hy; exact: ln_mult. Qed.
Lemma lnV (x : R) : 0 < x -> ln (x^-1) = - ln x.
Proof.
move=> hx; have h' : 0 < x^-1 by rewrite invr_gt0.
have e : ln (x^-1) + ln x = 0 by rewrite -(lnM h' hx) mulVf ?gt_eqF //; exact: ln_1.
by apply/eqP; rewrite -addr_eq0 e.
Qed.

Lemma ln_prod n (F : 'I_n -> R) : (forall i, 0 < F i) -> ln (\prod_i F i) = \sum_i ln (F i).
Proof.
move=> p; have : 0 < \prod_i F i /\ ln (\prod_i F i) = \sum_i ln (F i).
  apply: (big_ind2 (fun x y => 0 < x /\ ln x = y)) => [||i _].
  - by split; [exact: ltr01 | exact: ln_1].
  - by move=> x1 x2 y1 y2 [p1 e1] [p2 e2]; split; [exact: mulr_gt0 | rewrite lnM // e1 e2].
  - by split.
by case.
Qed.

Lemma ln_det_chol n (K C : 'M[R]_n) : is_chol K C -> (2%:R * \sum_i ln (C i i) : R) = ln (\det K).
Proof.
move=> cC; have [_ dC _] := cC.
have pp : 0 < \prod_i C i i by apply: prodr_gt0 => i _; exact: dC.
by rewrite (is_chol_det cC) expr2 lnM // ln_prod // mulr_natl.
Qed.

Lemma einsum_qform n (B : 'M[R]_n) (z : 'cV[R]_n) : einsum_ii z (B *m z) 0 0 = qform B z.
Proof. by rewrite einsum_iiE /qform /bilin mulmxA. Qed.

Lemma nll_zero_ok b n (K : 'M[R]_n) z : pos_def K -> nll_zero_mean b K z = Ok (Fin (gauss_nll K z)).
Proof.
move=> pK; rewrite /nll_zero_mean; have [L cL ->] := cholesky_solve_ok z pK.
by rewrite einsum_qform (ln_det_chol cL) /gauss_nll mulrC.
Qed.

Lemma nll_zero_fail n (K : 'M[R]_n) z : symmetric K -> ~ pos_def K ->
  nll_zero_mean Torch K z = Ok PInf /\ nll_zero_mean NumPy K z = Err LinAlgError.
Proof.
move=> sK npd; rewrite /nll_zero_mean (cholesky_solve_fail z) //.
Qed.

Lemma qform_inv n (A : 'M[R]_n) (z : 'cV[R]_n) : symmetric A -> A \in unitmx ->
  qform A (invmx A *m z) = qform (invmx A) z.
Proof. by move=> sA uA; rewrite qform_mul trmx_inv sA -mulmxA mulmxV // mulmx1. Qed.

Lemma qform_inv_schur n1 n2 (A : 'M[R]_n1) (B : 'M[R]_(n1, n2)) (D : 'M[R]_n2) z t :
  pos_def (block_mx A B B^T D) ->
  qform (invmx (block_mx A B B^T D)) (col_mx z t) =
  qform (invmx A) z + qform (invmx (D - B^T *m invmx A *m B)) (t - B^T *m invmx A *m z).
Proof.
move=> pM; have pA := pd_block_ul pM; have pS := schur_pd pM.
have uM := pd_unit pM; have uA := pd_unit pA; have uS := pd_unit pS.
rewrite -qform_inv //; last exact: pd_sym.
set S := D - _ in pS uS *.
pose y := invmx S *m (t - B^T *m invmx A *m z).
pose x := invmx A *m (z - B *m y).
have -> : invmx (block_mx A B B^T D) *m col_mx z t = col_mx x y.
  have e : block_mx A B B^T D *m col_mx x y = col_mx z t.
    rewrite mul_block_col /x mulKVmx // subrK; congr col_mx.
    have -> : D = S + B^T *m invmx A *m B by rewrite subrK.
    rewrite mulmxDl [S *m y]mulKVmx // !mulmxA mulmxBr !mulmxA; set u := B^T *m _ *m z.
    by set w := _ *m (t - u); rewrite addrACA addNr addr0 addrC subrK.
  by rewrite -e mulKmx.
rewrite schur_qform //; last exact: pd_sym.
congr (_ + _).
  have -> : x + invmx A *m B *m y = invmx A *m z.
    by rewrite /x mulmxBr mulmxA subrK.
  by rewrite qform_inv //; exact: pd_sym.
by rewrite /y -/S qform_inv //; exact: pd_sym.
Qed.

(* sequential factorisation: the joint density is the density of the first
   observations times the predictive density of the others *)
Lemma gauss_chain n m (A : 'M[R]_n) (B : 'M[R]_(n, m)) (D : 'M[R]_m) z t tt :
  pos_def (block_mx A B B^T D) -> tt_full tt = D ->
  exists lam C, kriging_predictor_with_zero_mean A B tt 1 = Ok (lam, PVCov C) /\
    pos_def C /\
    gauss_nll (block_mx A B B^T D) (col_mx z t) =
      gauss_nll A z + gauss_nll C (t - lam^T *m z).
Proof.
move=> pM ett; have pA := pd_block_ul pM; have pS := schur_pd pM.
have uA := pd_unit pA.
do 2 eexists; split; first exact: krig_zero_ok1.
rewrite ett /zm_lambda trmx_mul trmx_inv (pd_sym pA); split=> //.
have dA := pd_det pA; have dS := pd_det pS.
rewrite /gauss_nll qform_inv_schur // det_schur // (lnM dA dS) -mulrDl.
congr (_ / _); rewrite natrD.
have H (a b c d e f g : R) : (a + b) * c + (d + e) + (f + g) = a * c + d + f + (b * c + e + g) by ring.
exact: H.
Qed.

Lemma gauss_nll1 (mu v z : R) : 0 < v -> gauss_nll (v%:M : 'M[R]_1) ((z - mu)%:M) = gauss1_nll mu v z.
Proof.
move=> v0; have vn : v != 0 by rewrite gt_eqF.
rewrite /gauss_nll /gauss1_nll mul1r det_scalar1.
have -> : invmx (v%:M : 'M[R]_1) = (v^-1)%:M.
  have e : (v%:M : 'M[R]_1) *m (v^-1)%:M = 1%:M by rewrite -scalar_mxM divff.
  by rewrite -[RHS](mulKmx (mulmx1_unit e).1) e mulmx1.
rewrite /qform /bilin tr_scalar_mx -!scalar_mxM mxE eqxx mulr1n; congr ((_ + _) / _).
by rewrite expr2 mulrC mulrA.
Qed.

(* one more observation *)
Lemma gauss_chain1 n (A : 'M[R]_n) (k : 'cV[R]_n) (d t : R) z tt :
  pos_def (block_mx A k k^T d%:M) -> tt_pairwise tt = d%:M -> 
  exists lam v, kriging_predictor_with_zero_mean A k tt 0 = Ok (lam, PVVar v) /\
    0 < v 0 0 /\
    gauss_nll (block_mx A k k^T d%:M) (col_mx z t%:M) =
      gauss_nll A z + gauss1_nll (lincomb lam z) (v 0 0) t.
Proof.
move=> pM ett; have pA := pd_block_ul pM; have pS := schur_pd pM.
do 2 eexists; split; first exact: krig_zero_ok.
have [lam [C [E [pC ->]]]] := gauss_chain z t%:M pM (erefl : tt_full (PriorTT d%:M d%:M) = d%:M).
rewrite krig_zero_ok1 //= in E; case: E => elam eC.
have ev : (tt_pairwise tt - einsum_ii (zm_lambda A k) k) 0 0 = C 0 0.
  by rewrite -eC rsubE msubE ett einsum_iiE.
rewrite ev elam; have C0 : 0 < C 0 0 by exact: pd_diag_gt0.
split=> //; congr (_ + _); rewrite {1}[C]mx11E.
have -> : t%:M - lam^T *m z = (t - lincomb lam z)%:M.
  apply/matrixP => i j; rewrite !ord1 [LHS]mxE [RHS]mxE eqxx mulr1n [t%:M 0 0]mxE eqxx mulr1n.
  congr (_ + _); rewrite 2!mxE; congr (- _).
  by apply: eq_bigr => l _; rewrite mxE.
exact: gauss_nll1.
Qed.

(* ---- restricted likelihood ---- *)
Section Reml.
Variables (q r : nat) (K : 'M[R]_(q + r)) (P : 'M[R]_(q + r, q)).

Definition nrl_of (W : 'M[R]_(q + r, r)) z : R := gauss_nll (W^T *m (K *m W)) (W^T *m z).

Lemma nrl_ok b (qr : qr_fun _ q r) z : is_qr P (qr P) -> cond_pos_def K P ->
  nrl b qr K P z = Ok (Fin (nrl_of (rsubmx (qr P).1) z)).
Proof.
move=> qrP cK; rewrite /nrl /compute_contrast_matrix /compute_contrast_covariance.
case E: (qr P) => [Q Rm] /=.
have pG : pos_def ((rsubmx Q)^T *m (K *m rsubmx Q)).
  by have := G_pd qrP cK; rewrite E.
have [L cL ->] := cholesky_solve_ok ((rsubmx Q)^T *m z) pG.
by rewrite einsum_qform (ln_det_chol cL) /nrl_of /gauss_nll mulrC.
Qed.

End Reml.

Lemma det_orth n (O : 'M[R]_n) : O^T *m O = 1%:M -> \det O * \det O = 1.
Proof. by move=> /(congr1 (fun A => \det A)); rewrite det_mulmx det_tr det1. Qed.

(* any other orthonormal contrast basis gives the same value *)
Lemma nrl_of_basis q r (K : 'M[R]_(q + r)) (P : 'M[R]_(q + r, q)) QR (W' : 'M[R]_(q + r, r)) z :
  is_qr P QR -> full_col_rank P -> cond_pos_def K P -> is_contrast_basis P W' ->
  nrl_of K W' z = nrl_of K (rsubmx QR.1) z.
Proof.
move=> qrP fP cK [WW' PW' _].
have [eP QQ WW QW QQW] := qr_blocks qrP; have uR := qr_Rq_unit qrP fP.
have pG : pos_def ((rsubmx QR.1)^T *m (K *m rsubmx QR.1)) by exact: (@G_pd _ _ _ (fun=> QR) K P).
move: eP QQ WW QW QQW uR pG; set Q1 := lsubmx _; set W := rsubmx _; set Rq := usubmx _.
move=> eP QQ WW QW QQW uR pG.
have QW' : Q1^T *m W' = 0.
  have uRt : Rq^T \in unitmx by rewrite unitmx_tr.
  by apply: (can_inj (mulKmx uRt)); rewrite mulmx0 mulmxA -trmx_mul -eP.
pose O := W^T *m W'.
have eW : W' = W *m O by rewrite -[LHS]mul1mx -QQW mulmxDl -!mulmxA QW' mulmx0 add0r.
have OO : O^T *m O = 1%:M by rewrite -WW' {2}eW /O trmx_mul trmxK -!mulmxA.
have uO : O \in unitmx by have [] := mulmx1_unit OO.
have eG : W'^T *m (K *m W') = O^T *m (W^T *m (K *m W)) *m O by rewrite eW trmx_mul !mulmxA.
have ez : W'^T *m z = O^T *m (W^T *m z) by rewrite eW trmx_mul mulmxA.
rewrite /nrl_of eG ez; move: pG; set G := W^T *m _ => pG; have uG := pd_unit pG.
rewrite /gauss_nll; congr ((_ + _ + _) / _).
  by congr ln; rewrite !det_mulmx det_tr mulrAC (det_orth OO) mul1r.
have eI : invmx (O^T *m G *m O) = O^T *m invmx G *m O.
  have OOt := mulmx1C OO; clear eG ez; clearbody O G.
  have e : (O^T *m G *m O) *m (O^T *m invmx G *m O) = 1%:M.
    by rewrite -!mulmxA (mulmxA O O^T) OOt mul1mx (mulmxA G) mulmxV // mul1mx.
  by rewrite -[RHS](mulKmx (mulmx1_unit e).1) e mulmx1.
by rewrite eI -qform_mul; move: (W^T *m z) => v; rewrite mulmxA (mulmx1C OO) mul1mx.
Qed.

Lemma nrl_of_trend q r (K : 'M[R]_(q + r)) (P : 'M[R]_(q + r, q)) (W : 'M[R]_(q + r, r)) z b :
  P^T *m W = 0 -> nrl_of K W (z + P *m b) = nrl_of K W z.
Proof.
move=> PW; rewrite /nrl_of mulmxDr [_ *m (P *m b)]mulmxA.
have -> : W^T *m P = 0 by rewrite -[P]trmxK -trmx_mul PW trmx0.
by rewrite mul0mx addr0.
Qed.

Lemma nrl_of_cov q r (K : 'M[R]_(q + r)) (P : 'M[R]_(q + r, q)) (W : 'M[R]_(q + r, r)) z
  (H : 'M[R]_(q, q + r)) : P^T *m W = 0 ->
  nrl_of (K + P *m H + H^T *m P^T) W z = nrl_of K W z.
Proof.
move=> PW; rewrite /nrl_of; congr (gauss_nll _ _).
have WP : W^T *m P = 0 by rewrite -[P]trmxK -trmx_mul PW trmx0.
by rewrite !mulmxDl !mulmxDr -!mulmxA PW (mulmxA W^T P) WP mul0mx !mulmx0 !addr0.
Qed.

Lemma cpd_shift q n (K : 'M[R]_n) (P : 'M[R]_(n, q)) (H : 'M[R]_(q, n)) :
  cond_pos_def K P -> cond_pos_def (K + P *m H + H^T *m P^T) P.
Proof.
move=> [sK pK]; split.
  by rewrite /symmetric !linearD /= sK !trmx_mul !trmxK -!addrA; congr (_ + _); rewrite addrC.
move=> x Px xn; rewrite /qform /bilin !mulmxDr !mulmxDl -!mulmxA Px !mulmx0 addr0.
have xP : x^T *m P = 0 by rewrite -[P]trmxK -trmx_mul Px trmx0.
rewrite [x^T *m (P *m _)]mulmxA xP mul0mx addr0.
by have := pK x Px xn; rewrite /qform /bilin mulmxA.
Qed.

(* determinant of the contrast covariance *)
Lemma contrast_det q r (K : 'M[R]_(q + r)) (P : 'M[R]_(q + r, q)) QR : K \in unitmx -> is_qr P QR ->
  let W := rsubmx QR.1 in
  \det (W^T *m (K *m W)) * \det (P^T *m P) = \det K * \det (P^T *m invmx K *m P).
Proof.
move=> uK qrP; have [eP QQ WW QW QQW] := qr_blocks qrP; move: eP QQ WW QW QQW.
have QtQ : QR.1^T *m QR.1 = 1%:M by case: qrP.
cbv zeta; set Q1 := lsubmx _; set W := rsubmx _; set Rq := usubmx _ => eP QQ WW QW QQW.
have eQ : QR.1 = row_mx Q1 W by rewrite hsubmxK.
pose Ki := invmx K.
have NM : (QR.1^T *m K *m QR.1) *m (QR.1^T *m Ki *m QR.1) = 1%:M.
  by rewrite -!mulmxA (mulmxA QR.1 QR.1^T) (mulmx1C QtQ) mul1mx (mulmxA K) mulmxV // mul1mx.
have eN A : QR.1^T *m A *m QR.1 = block_mx (Q1^T *m A *m Q1) (Q1^T *m A *m W)
                                          (W^T *m A *m Q1) (W^T *m A *m W).
  by rewrite {1 2}eQ tr_row_mx mul_col_mx mul_col_row.
have dN : \det (QR.1^T *m K *m QR.1) = \det K.
  by rewrite !det_mulmx det_tr mulrAC (det_orth QtQ) mul1r.
pose m11 := Q1^T *m Ki *m Q1; pose m21 := W^T *m Ki *m Q1.
have key : (QR.1^T *m K *m QR.1) *m block_mx m11 0 m21 1%:M
         = block_mx 1%:M (Q1^T *m K *m W) 0 (W^T *m K *m W).
  move: NM; rewrite !eN !mulmx_block scalar_mx_block => /eq_block_mx [e1 _ e2 _].
  by rewrite e1 e2 !mulmx0 !mulmx1 !add0r.
have dG : \det (W^T *m (K *m W)) = \det K * \det m11.
  move/(congr1 (fun A => \det A)): key.
  by rewrite det_mulmx dN det_lblock det1 mulr1 det_ublock det1 mul1r mulmxA.
rewrite dG eP trmx_mul.
have -> : Rq^T *m Q1^T *m (Q1 *m Rq) = Rq^T *m Rq by rewrite -!mulmxA (mulmxA Q1^T) QQ mul1mx.
have -> : Rq^T *m Q1^T *m invmx K *m (Q1 *m Rq) = Rq^T *m m11 *m Rq by rewrite /m11 !mulmxA.
clearbody m11; rewrite !det_mulmx det_tr.
have H (a b c : R) : a * b * (c * c) = a * (c * b * c) by ring.
exact: H.
Qed.

Lemma nrl_closed q r (K : 'M[R]_(q + r)) (P : 'M[R]_(q + r, q)) QR z :
  is_qr P QR -> full_col_rank P -> pos_def K -> nrl_of K (rsubmx QR.1) z = reml_nll K P z.
Proof.
move=> qrP fP pK; have uK := pd_unit pK.
have cK := pd_cpd P pK.
have := contrast_det uK qrP; cbv zeta.
have pG : pos_def ((rsubmx QR.1)^T *m (K *m rsubmx QR.1)) by exact: (@G_pd _ _ _ (fun=> QR) K P).
have [C [sB PB KB]] := @cpd_B _ _ _ (fun=> QR) K P qrP cK fP.
have [uS sB' PB' KB'] := spd_B pK fP.
have pPP : pos_def (P^T *m P).
  by have := pd_congr (pos_def1 _ _ : pos_def (1%:M : 'M[R]_(q + r))) fP; rewrite mulmx1.
have pPKP : pos_def (P^T *m invmx K *m P) by apply: pd_congr => //; exact: pd_inv.
move: pG PB KB; set W := rsubmx _; set G := W^T *m _ => pG PB KB eD.
have eB : W *m (invmx G *m W^T) = invmx K - invmx K *m P *m (invmx (P^T *m (invmx K *m P)) *m (invmx K *m P)^T).
  have u := uk_lhs_unit cK fP.
  have tz : P^T *m (W *m (invmx G *m W^T)) = (0 : 'M[R]_(q + r, q))^T by rewrite trmx0.
  have tz' : P^T *m (invmx K - invmx K *m P *m (invmx (P^T *m (invmx K *m P)) *m (invmx K *m P)^T))
     = (0 : 'M[R]_(q + r, q))^T by rewrite trmx0.
  by have [-> _] := uk_uniq u KB tz; have [<- _] := uk_uniq u KB' tz'.
have dG := pd_det pG; have dK := pd_det pK; have d1 := pd_det pPP; have d2 := pd_det pPKP.
have eL : ln (\det G) = ln (\det K) + ln (\det (P^T *m invmx K *m P)) - ln (\det (P^T *m P)).
  by rewrite -(lnM dK d2) -eD (lnM dG d1) addrK.
rewrite /nrl_of /reml_nll /gauss_nll -/G eL natrD.
have -> : qform (invmx G) (W^T *m z) = qform (W *m (invmx G *m W^T)) z.
  by rewrite qform_mul trmxK mulmxA.
rewrite eB -[P^T *m invmx K *m P]mulmxA; congr (_ / _).
rewrite trmx_mul (pd_sym (pd_inv pK)) !mulmxA.
have H (a b c d e f g : R) : b * c + (d + e - f) + g = (a + b - a) * c + d + e - f + g by ring.
exact: H.
Qed.

(* ---- the autodiff variant of the Fisher information ---- *)
Lemma lnX (x : R) n : 0 < x -> ln (x ^+ n) = n%:R * ln x.
Proof.
move=> x0; elim: n => [|n IH]; first by rewrite expr0 mul0r; exact: ln_1.
by rewrite exprS lnM ?exprn_gt0 // IH -[n.+1]addn1 natrD mulrDl mul1r addrC.
Qed.

Lemma exp_gt0 (t : R) : 0 < exp t.
Proof. by apply/ltRP; exact: exp_pos. Qed.

Lemma pd_scale n (K : 'M[R]_n) (c : R) : 0 < c -> pos_def K -> pos_def (c *: K).
Proof.
move=> c0 [sK pK]; split; first by rewrite /symmetric linearZ /= sK.
by move=> x xn; rewrite /qform /bilin -scalemxAr -scalemxAl mxE mulr_gt0 // pK.
Qed.

Lemma log_det_scale n (K : 'M[R]_n) (c : R) : 0 < c -> pos_def K ->
  log_det_cov (c *: K) = Some (n%:R * ln c + ln (\det K)).
Proof.
move=> c0 pK; have pc := pd_scale c0 pK; rewrite /log_det_cov.
have [L cL] := chol_complete pc.
have iL := chol_sound (pd_sym pc) cL.
have dK := pd_det pK; have cn : 0 < c ^+ n by rewrite exprn_gt0.
by rewrite cL (ln_det_chol iL) detZ (lnM cn dK) lnX.
Qed.

Lemma Rinv_ring (x : R) : x != 0 -> Rinv x = x^-1.
Proof. by move=> xn; rewrite /GRing.inv /= /Rinvx xn. Qed.

Lemma natR n : n%:R = INR n :> R.
Proof. by elim: n => [//|n IH]; rewrite S_INR -IH -addn1 natrD. Qed.

(* K(theta) = exp(theta) K0 *)
Definition cov_exp n (K0 : 'M[R]_n) (theta : 'rV[R]_1) : 'M[R]_n := exp (theta 0 0) *: K0.
Definition par1 (t : R) : 'rV[R]_1 := t%:M.
Lemma par1E t : par1 t 0 0 = t.
Proof. by rewrite mxE eqxx mulr1n. Qed.

Lemma torch_exp n (K0 : 'M[R]_n) (f : R -> R) (t H : R) : pos_def K0 ->
  (forall u, log_det_cov (cov_exp K0 (par1 u)) = Some (f u)) ->
  second_derivative f t H -> fisher_information_torch H = 0.
Proof.
move=> pK hf hH; have : second_derivative (fun u => Rplus (Rmult n%:R u) (ln (\det K0))) t H.
  apply: (@second_ext f _ t 1 H _ _ hH) => [|u _]; first exact: Rlt_0_1.
  have := hf u; rewrite /cov_exp par1E log_det_scale ?exp_gt0 //.
  by case=> <-; rewrite [ln (exp u)]ln_exp.
by move=> /second_affine ->; rewrite /fisher_information_torch mulr0.
Qed.
Lemma torch_exp_ex n (K0 : 'M[R]_n) (t : R) : pos_def K0 -> exists (f : R -> R) H,
  (forall u, log_det_cov (cov_exp K0 (par1 u)) = Some (f u)) /\ second_derivative f t H.
Proof.
move=> pK; exists (fun u => Rplus (Rmult n%:R u) (ln (\det K0))), 0; split.
  by move=> u; rewrite /cov_exp par1E log_det_scale ?exp_gt0 // [ln (exp u)]ln_exp.
exact/second_affine.
Qed.

(* K(theta) = theta K0 *)
Definition cov_lin n (K0 : 'M[R]_n) (theta : 'rV[R]_1) : 'M[R]_n := theta 0 0 *: K0.
Lemma torch_lin n (K0 : 'M[R]_n) (f : R -> R) (t H : R) : pos_def K0 -> 0 < t ->
  (forall u, 0 < u -> log_det_cov (cov_lin K0 (par1 u)) = Some (f u)) ->
  second_derivative f t H -> fisher_information_torch H = - (n%:R / 2%:R / t ^+ 2).
Proof.
move=> pK t0 hf hH; have : second_derivative (fun u => Rplus (Rmult n%:R (ln u)) (ln (\det K0))) t H.
  apply: (@second_ext f _ t t H _ _ hH) => [|u ut]; first exact/ltRP.
  have u0 : 0 < u by apply/ltRP; exact: abs_lt_pos ut.
  have := hf u u0; rewrite /cov_lin par1E log_det_scale //.
  by case=> <-.
have /ltRP t0' := t0.
have tn : t * t != 0 by rewrite mulf_neq0 // gt_eqF.
move=> /(second_log _ _ _ _ t0') ->; rewrite /fisher_information_torch.
rewrite /Rdiv -[Rmult t t]/(t * t) (Rinv_ring tn) expr2.
have H3 (a b c : R) : a * (Rmult (Ropp b) c) = - (b * a * c) by rewrite -[Rmult _ _]/(- b * c); ring.
exact: H3.
Qed.

Lemma fisher_self n p (K : 'M[R]_n) (c : R) : pos_def K ->
  fisher_information K (fun _ : 'I_p => c *: K) = Ok (const_mx (c ^+ 2 * (n%:R / 2%:R))).
Proof.
move=> pK; have u := pd_unit pK; rewrite fisher_entries //; congr (Ok _).
apply/matrixP => i j; rewrite !mxE /fisher_trace -!scalemxAr mulVmx // -!scalemxAl mul1mx.
rewrite mulVmx // !linearZ /= mxtrace1.
have H (a b d : R) : a * (b * (b * d)) = b ^+ 2 * (d * a) by ring.
exact: H.
Qed.

Lemma set_coord1 (theta : 'rV[R]_1) i v : set_coord theta i v 0 0 = v.
Proof. by rewrite mxE !ord1 eqxx. Qed.

Lemma fisher_fd_exp n (K0 : 'M[R]_n) theta (h : R) : pos_def K0 -> 0 < h ->
  fisher_information_fd (cov_exp K0) theta h = Ok (const_mx (fd_exp h ^+ 2 * (n%:R / 2%:R))).
Proof.
move=> pK h0; rewrite /fisher_information_fd.
rewrite -(@fisher_self n 1 (cov_exp K0 theta)); last by apply: pd_scale (exp_gt0 _) pK.
congr (fisher_information _ _).
apply: FunctionalExtensionality.functional_extensionality => i; rewrite ord1.
rewrite /derivative_finite_diff /cov_exp !set_coord1; set t := theta 0 0.
rewrite !scalerA -!scaleNr -!scalerDl !scalerA; congr (_ *: _).
have n12 : 12%:R * h != 0 by rewrite mulf_neq0 ?pnatr_eq0 // gt_eqF.
by rewrite -(Rinv_ring n12) !natR INR12 INR8 INR2; exact: fd_exp_eq.
Qed.

(* ---- failure of the restricted likelihood ---- *)
Lemma contrast_pd_cpd q r (K : 'M[R]_(q + r)) (P : 'M[R]_(q + r, q)) QR : is_qr P QR ->
  full_col_rank P -> symmetric K -> pos_def ((rsubmx QR.1)^T *m (K *m rsubmx QR.1)) ->
  cond_pos_def K P.
Proof.
move=> qrP fP sK; have uR := qr_Rq_unit qrP fP.
have [eP QQ WW QW QQW] := qr_blocks qrP; move: eP QQ WW QW QQW uR.
set Q1 := lsubmx _; set W := rsubmx _; set Rq := usubmx _ => eP QQ WW QW QQW uR [_ pG].
split=> // x Px xn.
have Qx : Q1^T *m x = 0.
  have uRt : Rq^T \in unitmx by rewrite unitmx_tr.
  by apply: (can_inj (mulKmx uRt)); rewrite mulmx0 mulmxA -trmx_mul -eP.
have ex : x = W *m (W^T *m x) by rewrite -[LHS]mul1mx -QQW mulmxDl -!mulmxA Qx mulmx0 add0r.
rewrite ex qform_mul -mulmxA; apply: pG.
by apply: contra xn => /eqP h; rewrite ex h mulmx0.
Qed.

Lemma nrl_fail q r (qr : qr_fun R_rcfType q r) (K : 'M[R]_(q + r)) (P : 'M[R]_(q + r, q)) z :
  is_qr P (qr P) -> full_col_rank P -> symmetric K -> ~ cond_pos_def K P ->
  nrl Torch qr K P z = Ok PInf /\ nrl NumPy qr K P z = Err LinAlgError.
Proof.
move=> qrP fP sK nK; rewrite /nrl /compute_contrast_matrix /compute_contrast_covariance.
case E: (qr P) => [Q Rm] /=.
have npd : ~ pos_def ((rsubmx Q)^T *m (K *m rsubmx Q)).
  move=> pG; apply: nK; apply: (contrast_pd_cpd qrP fP sK).
  by rewrite E.
have sG : symmetric ((rsubmx Q)^T *m (K *m rsubmx Q)).
  by rewrite /symmetric !trmx_mul trmxK sK mulmxA.
by rewrite (cholesky_solve_fail _ sG npd).
Qed.

Lemma exp_gauss1 (mu v z : R) : 0 < v ->
  exp (- gauss1_nll mu v z) =
  Rmult (Rinv (sqrt (Rmult (Rmult (IZR 2) PI) v))) (exp (Ropp (Rdiv (Rsqr (Rminus z mu)) (Rmult (IZR 2) v)))).
Proof.
move=> v0; have /ltRP v0' := v0; rewrite -(gauss_density mu v z v0') /gauss1_nll expr2.
have vn : v != 0 by rewrite gt_eqF.
have n2 : (IZR 2 : R) != 0 by apply/eqP; exact: two_neq0.
have e2 : 2%:R = IZR 2 :> R by rewrite natR INR2.
congr (exp (- _)); rewrite e2 /Rdiv (Rinv_ring n2) (Rinv_ring vn).
by rewrite /Rsqr.
Qed.
