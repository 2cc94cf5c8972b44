(* CloseThms.v
   Property C138: what two close observations with different values do to the norm, to the conditioning of the covariance
   matrix and to the selected variance. *)
From Coq Require Import Reals.
From mathcomp Require Import all_ssreflect all_fingroup all_algebra ring.
From Verif Require Import LinAlg KrigModel LikModel RealAux Rinst CholProofs LinQR KrigProofs KrigProofs2 KrigProofs3
  LooProofs PathProofs LikProofs MaternModel MaternProofs MaternCov MaternCovProofs OrderModel OrderProofs UpdProofs UpdThms
  InfoProofs InfoThms NormProofs NormThms UnitsProofs UnitsThms UnitsMatThms SmoothThms InitModel PriorCritModel PriorCritThms MlModel MlThms
  ConfigModel.
Set Implicit Arguments.
Unset Strict Implicit.
Unset Printing Implicit Defensive.
Import Order.TTheory GRing.Theory Num.Theory.
Local Open Scope ring_scope.
Local Arguments exp : clear scopes.
Local Arguments ln : clear scopes.
Local Arguments sqrt : clear scopes.

Section Close.
Variables (R : rcfType) (X : Type).

(* the combination of the observed values with weights a, and its variance under the model *)
Definition comb n (a : 'cV[R]_n) (y : 'I_n -> R) : R := \sum_i a i 0 * y i.
Definition comb_var n (c : kernel R X) (x : 'I_n -> X) (a : 'cV[R]_n) : R :=
  \sum_i \sum_j a i 0 * a j 0 * kfun c (x i) (x j) + knug c * \sum_i a i 0 ^+ 2.
(* the weights do not see the trend functions *)
Definition no_trend q n (mk : mean_kind R X q) (x : 'I_n -> X) (a : 'cV[R]_n) : Prop :=
  match mk with KLinear p => forall k, \sum_i a i 0 * p (x i) k = 0 | _ => True end.
(* the observed value minus the known mean *)
Definition resid q n (mk : mean_kind R X q) (x : 'I_n -> X) (z : 'cV[R]_n) (i : 'I_n) : R :=
  match mk with KParam (Some h) => z i 0 - h (x i) | _ => z i 0 end.

Lemma comb_varE n c (x : 'I_n -> X) a : comb_var c x a = qform (cov_same c x) a.
Proof.
rewrite /qform LinAlg.bilinE /comb_var mulr_sumr -big_split /=; apply: eq_bigr => i _.
transitivity (\sum_j (a i 0 * kfun c (x i) (x j) * a j 0 + (i == j)%:R * (knug c * a i 0 ^+ 2))).
  rewrite big_split /=; congr (_ + _); first by apply: eq_bigr => j _; rewrite mulrAC.
  rewrite (bigD1 i) //= eqxx mul1r big1 ?addr0 // => j; rewrite eq_sym => /negbTE ->; by rewrite mul0r.
apply: eq_bigr => j _; rewrite !mxE; case: (i =P j) => [->|_].
  by rewrite !mulr1n mul1r; move: (kfun c _ _) (knug c) (a j 0) => e f g; clear; ring.
by rewrite !mulr0n mul0r !addr0.
Qed.

Lemma cs_line n (M : 'M[R]_n) u v : symmetric M -> (forall t, 0 <= qform M (u + t *: v)) -> 0 <= qform M v ->
  bilin M u v ^+ 2 <= qform M u * qform M v.
Proof.
move=> sM h0 e0; set a := qform M u; set b := bilin M u v; set e := qform M v in e0 *.
have h t : 0 <= a + 2%:R * (t * b) + t ^+ 2 * e by have := h0 t; rewrite qformD // qformZ bilinZr.
have [ez|en] := eqVneq e 0.
  have [->|bn] := eqVneq b 0; first by rewrite expr0n /= ez mulr0.
  have := h (- ((a + 1) / (2%:R * b))); rewrite ez mulr0 addr0.
  have -> : 2%:R * (- ((a + 1) / (2%:R * b)) * b) = - (a + 1).
    have al (w : R) : 2%:R * (- w * b) = - (w * (2%:R * b)) by clear; ring.
    by rewrite al divfK // mulf_neq0 // pnatr_eq0.
  by rewrite opprD addrA subrr add0r oppr_ge0 leNgt ltr01.
have ep : 0 < e by rewrite lt_def en.
have := h (- (b / e)).
have -> : a + 2%:R * (- (b / e) * b) + (- (b / e)) ^+ 2 * e = a - b ^+ 2 / e.
  have -> : (- (b / e)) ^+ 2 * e = b ^+ 2 / e by rewrite sqrrN expr_div_n -mulrA; congr (_ * _); rewrite expr2 invfM -mulrA mulVf // mulr1.
  by rewrite expr2; move: (e^-1) => i; clear; ring.
by rewrite subr_ge0 ler_pdivr_mulr.
Qed.
Lemma cpd_nonneg n p (K : 'M[R]_n) (P : 'M[R]_(n, p)) v : cond_pos_def K P -> P^T *m v = 0 -> 0 <= qform K v.
Proof.
case=> sK pK h; have [->|vn] := eqVneq v 0; first by rewrite /qform /bilin mulmx0 mxE.
exact/ltW/pK.
Qed.

Section Fit.
Variables (q r : nat) (qr : qr_fun R q r) (mk : mean_kind R X q) (c : kernel R X) (x : 'I_(q + r) -> X).
Hypothesis fK : fits mk (cov_same c x) x.
Hypothesis hqr : forall P, is_qr P (qr P).

Lemma residE z i : (z - mean_col (rm mk) x) i 0 = resid mk x z i.
Proof. by rewrite !mxE /resid; case: (mk) fK => [|p|[h|]] //= _; rewrite subr0. Qed.
Lemma no_trendE a : no_trend mk x a -> (design (@rp _ _ q mk) x)^T *m a = 0.
Proof.
rewrite /no_trend; case: (mk) => [|p|h] //= H; try by apply/colP => -[].
by apply/colP => k; rewrite !mxE -[RHS](H k); apply: eq_bigr => i _; rewrite !mxE mulrC.
Qed.

(* The squared norm is the largest squared combination of the values per unit of variance. *)
Theorem C138_contrasts z : exists N, [/\ norm_at qr mk c x z = Ok N,
    forall a, no_trend mk x a -> comb a (resid mk x z) ^+ 2 <= N * comb_var c x a
  & exists a, [/\ no_trend mk x a, comb a (resid mk x z) = N & comb_var c x a = N]].
Proof.
have [B [C [sB PB KB cK E]]] := norm_ex z hqr fK.
set K := cov_same c x in KB cK E *; set P := design _ _ in PB KB cK; set y := z - _ in E.
have combE a : comb a (resid mk x z) = (a^T *m y) 0 0.
  by rewrite mxE; apply: eq_bigr => i _; rewrite -residE [_^T _ _]mxE.
have qb : qform K (B *m y) = qform B y by rewrite qform_mul sB (BKB sB PB KB).
exists (qform B y); split=> //.
  move=> a /no_trendE Pa; rewrite comb_varE combE.
  have -> : (a^T *m y) 0 0 = bilin K (B *m y) a.
    have aP : a^T *m P = 0 by apply: trmx_inj; rewrite trmx_mul trmxK Pa trmx0.
    have -> : a^T *m y = a^T *m (K *m (B *m y)).
      rewrite -{1}[y]mul1mx -KB mulmxDl mulmxDr -!mulmxA [X in _ + X]mulmxA aP mul0mx addr0 //.
    rewrite bilin_tr; have -> : K^T = K by case: cK.
    by rewrite /bilin mulmxA.
  rewrite -qb.
  apply: cs_line; [by case: cK | | exact: (cpd_nonneg cK)] => t.
  by apply: (cpd_nonneg cK); rewrite mulmxDr -scalemxAr Pa scaler0 addr0 mulmxA PB mul0mx.
exists (B *m y); split; last by rewrite comb_varE.
  have PBy : P^T *m (B *m y) = 0 by rewrite mulmxA PB mul0mx.
  move: PBy; rewrite /P /no_trend; case: (mk) => [|p|h] //= H k.
  move: (B *m y) H => w /colP /(_ k); rewrite [RHS]mxE [LHS]mxE => E0; apply: etrans E0; apply: eq_bigr => i _.
  by rewrite [in RHS]mxE [in RHS]mxE mulrC.
by rewrite combE trmx_mul sB.
Qed.

(* Two observations with the same trend: the squared norm is at least the squared difference of their values over its variance. *)
Theorem C138_pair z i j : i != j -> (match mk with KLinear p => forall k, p (x i) k = p (x j) k | _ => True end) ->
  exists N, norm_at qr mk c x z = Ok N /\
    (resid mk x z i - resid mk x z j) ^+ 2 <= N * (dist2 (kfun c) (x i) (x j) + 2%:R * knug c).
Proof.
move=> ij tr; have [N [E H _]] := C138_contrasts z; exists N; split=> //.
have [cK _ _] := fits_rep fK; have sK : symmetric (cov_same c x) by case: cK.
pose a : 'cV[R]_(q + r) := delta_mx i 0 - delta_mx j 0.
have ca (y : 'I_(q + r) -> R) : comb a y = y i - y j.
  rewrite /comb (bigD1 i) //= (bigD1 j) /=; last by rewrite eq_sym.
  rewrite !mxE !eqxx (negbTE ij) eq_sym (negbTE ij) subr0 mul1r sub0r mulN1r big1 ?addr0 // => k /andP [ki kj].
  by rewrite !mxE (negbTE ki) (negbTE kj) subr0 mul0r.
have := H a; rewrite ca comb_varE; have -> : qform (cov_same c x) a = dist2 (kfun c) (x i) (x j) + 2%:R * knug c.
  rewrite /a qformD // qformN !qform_delta bilinNr bilin_delta.
  rewrite !mxE !eqxx (negbTE ij) !mulr1n mulr0n addr0 /dist2.
  move: (kfun c (x i) (x i)) (kfun c (x i) (x j)) (kfun c (x j) (x j)) (knug c) => a1 a2 a3 a4; clear; ring.
apply; rewrite /no_trend; case: (mk) tr => [|p|h] //= tr k.
by have := ca (fun i => p (x i) k); rewrite /comb tr subrr.
Qed.
End Fit.

(* The conditioning of the covariance matrix: a lower bound of its quadratic form on the unit sphere is at most half the
   variance of the difference, an upper bound at least half the variance of the sum; so the ratio, the condition
   number, is at least that of the two variances. *)
Theorem C138_condition n (c : kernel R X) (x : 'I_n -> X) i j (lo hi : R) : i != j -> sym_kern (kfun c) ->
  (forall v : 'cV[R]_n, (lo * (\sum_k v k 0 ^+ 2) <= comb_var c x v)%R /\ (comb_var c x v <= hi * (\sum_k v k 0 ^+ 2))%R) ->
  let D := kfun c (x i) (x i) + kfun c (x j) (x j) + 2%:R * knug c in
  [/\ 2%:R * lo <= D - 2%:R * kfun c (x i) (x j), D + 2%:R * kfun c (x i) (x j) <= 2%:R * hi
    & 0 < lo -> (D + 2%:R * kfun c (x i) (x j)) / (D - 2%:R * kfun c (x i) (x j)) <= hi / lo].
Proof.
move=> ij sk H D.
have sK : symmetric (cov_same c x) by apply/matrixP => a b; rewrite !mxE sk eq_sym.
have V (s : R) : s ^+ 2 = 1 -> qform (cov_same c x) (delta_mx i 0 + s *: delta_mx j 0) = D + s * (2%:R * kfun c (x i) (x j)) /\
    \sum_k (delta_mx i 0 + s *: delta_mx j 0 : 'cV[R]_n) k 0 ^+ 2 = 2%:R.
  move=> s1; split.
    rewrite qformD // qformZ bilinZr !qform_delta bilin_delta s1 !mxE !eqxx (negbTE ij) !mulr1n mulr0n addr0 /D.
    move: (kfun c (x i) (x i)) (kfun c (x i) (x j)) (kfun c (x j) (x j)) (knug c) => a1 a2 a3 a4; clear; ring.
  rewrite (bigD1 i) //= (bigD1 j) /=; last by rewrite eq_sym.
  rewrite !mxE !eqxx (negbTE ij) eq_sym (negbTE ij) mulr0 addr0 mulr1 add0r expr1n s1 big1 ?addr0 // => k /andP [ki kj].
  by rewrite !mxE (negbTE ki) (negbTE kj) mulr0 addr0 expr0n.
have [v1 n1] := V (-1) (etrans (sqrrN _) (expr1n _ _)); have [v2 n2] := V 1 (expr1n _ _).
have [h1 h2] := H (delta_mx i 0 + -1 *: delta_mx j 0); have [h3 h4] := H (delta_mx i 0 + 1 *: delta_mx j 0).
move: h1 h2 h3 h4; rewrite !comb_varE v1 v2 n1 n2 mulN1r mul1r ![_ * 2%:R]mulrC => h1 h2 h3 h4; split=> // l0.
have D0 : 0 < D - 2%:R * kfun c (x i) (x j) by apply: lt_le_trans h1; rewrite mulr_gt0 ?ltr0n.
have hi0 : 0 < hi.
  by rewrite -(pmulr_rgt0 _ (ltr0n R 2 : 0 < 2%:R)); apply: lt_le_trans h4; apply: lt_le_trans h3; rewrite mulr_gt0 ?ltr0n.
rewrite ler_pdivr_mulr //; apply: le_trans h4 _.
apply: le_trans (_ : hi / lo * (2%:R * lo) <= _); last by apply: ler_wpmul2l => //; rewrite ltW // divr_gt0.
by rewrite [2%:R * lo]mulrC mulrA divfK ?gt_eqF // mulrC.
Qed.
End Close.
Print Assumptions C138_contrasts.
Print Assumptions C138_pair.
Print Assumptions C138_condition.

Lemma joint_min_uniq q (f : 'cV[R]_q -> R -> res fl) beta u beta' u' :
  joint_min f beta u -> joint_min f beta' u' -> beta = beta' /\ u = u'.
Proof.
move=> [v [E H]] [v' [E' H']].
have [[-> ->]//|/eqP ne] := eqVneq ((beta, u) : 'cV[R]_q * R) (beta', u').
have [w [Ew /ltRP lw]] := H beta' u' (fun e => ne (esym e)); have [w' [Ew' /ltRP lw']] := H' beta u ne.
move: Ew Ew'; rewrite E E' => -[e1] [e2]; move: lw lw'; rewrite -e1 -e2 => l1 l2.
by have := lt_trans l1 l2; rewrite ltxx.
Qed.
Lemma unique_min_uniq (f : R -> res fl) u u' : unique_min f u -> unique_min f u' -> u = u'.
Proof.
move=> [v [E H]] [v' [E' H']]; have [//|/eqP ne] := eqVneq u u'.
have [w [Ew /ltRP lw]] := H u' (fun e => ne (esym e)); have [w' [Ew' /ltRP lw']] := H' u ne.
move: Ew Ew'; rewrite E E' => -[e1] [e2]; move: lw lw'; rewrite -e1 -e2 => l1 l2.
by have := lt_trans l1 l2; rewrite ltxx.
Qed.

Section Matern.
Variables (b b' : backend) (p d q r : nat).
Variables (x : 'M[R]_(q + r.+1, d)) (P : 'M[R]_(q + r.+1, q)) (z : 'cV[R]_(q + r.+1)) (l : 'rV[R]_d).
(* the correlation of the values at two points *)
Let rho i j : R := maternp_kernel p (sqrt (\sum_k (exp (l 0 k) * x i k - exp (l 0 k) * x j k) ^+ 2)).

Lemma cov1E i j : cov1 b p x l i j = rho i j + 10%:R * float_eps *+ (i == j).
Proof.
rewrite /cov1 KiiE /mat_nugget !mkparam_s2 mkparam_l !mxE /= exp_ln; last exact: Rlt_0_1.
rewrite mulr1 mul1r; congr (maternp_kernel p (sqrt _) + _); apply: eq_bigr => k _; by rewrite !mxE.
Qed.

(* Variance selected by maximum likelihood with a linear mean, or by restricted likelihood, at any length scales: it is at least the
   squared difference of two observations with the same trend, over 2 n (or 2 (n - q)) times one minus their correlation plus 10 eps. *)
Theorem C138_variance i j : full_col_rank P -> i != j -> (forall k, P i k = P j k) ->
  (forall beta u, joint_min (fun beta u => matern_ml b b' p x P z beta u l) beta u ->
     (z i 0 - z j 0) ^+ 2 <= 2%:R * (q + r.+1)%:R * exp u * (1 - rho i j + 10%:R * float_eps)) /\
  (forall (qr : qr_fun R_rcfType q r.+1) s, is_qr P (qr P) -> unique_min (fun s => matern_reml b b' p qr x P z s l) s ->
     (z i 0 - z j 0) ^+ 2 <= 2%:R * r.+1%:R * exp s * (1 - rho i j + 10%:R * float_eps)).
Proof.
move=> fP ij Pij; set K := cov1 b p x l; have pK : pos_def K by exact: cov1_pd. have sK := pK.1.
pose a : 'cV[R]_(q + r.+1) := delta_mx i 0 - delta_mx j 0.
have rii k : rho k k = 1 by rewrite /rho big1 => [|m _]; rewrite ?sqrt_0 ?kernel_at_0 // subrr expr0n.
have qa : qform K a = 2%:R * (1 - rho i j + 10%:R * float_eps).
  rewrite /a qformD // qformN !qform_delta bilinNr bilin_delta !cov1E !eqxx (negbTE ij) !rii !mulr1n mulr0n addr0.
  move: (rho i j) (10%:R * float_eps) => a1 a2; clear; ring.
have qa0 : 0 <= qform K a by apply: (pd_psd pK).2.
have bound (e : 'cV[R]_(q + r.+1)) : (e i 0 - e j 0) ^+ 2 <= qform (invmx K) e * qform K a.
  have uK := pd_unit pK; have := psd_cs (invmx K *m e) a (pd_psd pK).
  have -> : bilin K (invmx K *m e) a = e i 0 - e j 0.
    rewrite bilin_tr pK.1 /bilin -mulmxA mulKVmx // /a linearB /= mulmxBl !mxE; congr (_ - _).
      by rewrite (bigD1 i) //= !mxE eqxx mul1r big1 ?addr0 // => k ki; rewrite !mxE (negbTE ki) mul0r.
    by rewrite (bigD1 j) //= !mxE eqxx mul1r big1 ?addr0 // => k ki; rewrite !mxE (negbTE ki) mul0r.
  by have -> : qform K (invmx K *m e) = qform (invmx K) e by rewrite qform_mul trmx_inv pK.1 mulVmx // mul1mx.
have diff beta : (z - P *m beta) i 0 - (z - P *m beta) j 0 = z i 0 - z j 0.
  have -> : (z - P *m beta) i 0 = z i 0 - (P *m beta) i 0 by rewrite !mxE.
  have -> : (z - P *m beta) j 0 = z j 0 - (P *m beta) j 0 by rewrite !mxE.
  have -> : (P *m beta) i 0 = (P *m beta) j 0 by rewrite !mxE; apply: eq_bigr => k _; rewrite Pij.
  by rewrite opprB addrA subrK.
have [zz|zij] := eqVneq (z i 0) (z j 0).
  rewrite zz subrr expr0n /=; have h0 : 0 <= 1 - rho i j + 10%:R * float_eps by move: qa0; rewrite qa pmulr_rge0 ?ltr0n.
  by split=> [beta u _|qr s _ _]; apply: mulr_ge0 => //; apply: mulr_ge0; rewrite ?mulr_ge0 ?ler0n // ltW ?exp_gt0.
have zP beta : z != P *m beta.
  by apply: contraNneq zij => ->; rewrite !mxE; apply/eqP; apply: eq_bigr => k _; rewrite Pij.
have n0 : (q + r.+1)%:R != 0 :> R by rewrite pnatr_eq0 addnS.
have main : forall beta u, joint_min (fun beta u => matern_ml b b' p x P z beta u l) beta u ->
     (z i 0 - z j 0) ^+ 2 <= 2%:R * (q + r.+1)%:R * exp u * (1 - rho i j + 10%:R * float_eps).
  move=> beta u jm; have [beta0 [u0 [jm0 _ eu]]] := @C110_joint b b' p d q r.+1 x P z l fP zP.
  have [e1 e2] := joint_min_uniq jm jm0; rewrite e2 eu -/K.
  have := bound (z - P *m beta0); rewrite diff qa => h; apply: le_trans h _.
  rewrite [X in _ <= X](_ : _ = qform (invmx K) (z - P *m beta0) * (2%:R * (1 - rho i j + 10%:R * float_eps))) //.
  have al (f g h k : R) : f * g * (h * k) * (1 - rho i j + 10%:R * float_eps) = (g * h) * (k * (f * (1 - rho i j + 10%:R * float_eps))) by ring.
  by rewrite al mulfV // mul1r.
split=> // qr s qrP um.
have [beta [u [jm um']]] := @C110_reml b b' p d q r.+1 x P qr z l qrP fP zP.
rewrite (unique_min_uniq um um'); have := main beta u jm.
have r0 : r.+1%:R != 0 :> R by rewrite pnatr_eq0.
have -> : exp (u + ln ((q + r.+1)%:R / r.+1%:R)) = exp u * ((q + r.+1)%:R / r.+1%:R).
  rewrite [exp _]exp_plus exp_ln //; apply/ltRP; rewrite divr_gt0 // ltr0n // addnS //.
have -> : 2%:R * r.+1%:R * (exp u * ((q + r.+1)%:R / r.+1%:R)) = 2%:R * (q + r.+1)%:R * exp u; last by [].
have al (f g h k : R) : f * g * (h * (k / g)) = (g / g) * (f * k * h) by ring.
by rewrite al mulfV // mul1r.
Qed.

(* A point observed twice with different values *)
Theorem C138_repeated i j : full_col_rank P -> i != j -> (forall k, P i k = P j k) -> (forall k, x i k = x j k) ->
  forall beta u, joint_min (fun beta u => matern_ml b b' p x P z beta u l) beta u ->
    (z i 0 - z j 0) ^+ 2 / (20%:R * (q + r.+1)%:R * float_eps) <= exp u.
Proof.
move=> fP ij Pij xij beta u jm; have [h _] := C138_variance fP ij Pij; have := h beta u jm.
have -> : rho i j = 1 by rewrite /rho big1 => [|m _]; rewrite ?sqrt_0 ?kernel_at_0 // xij subrr expr0n.
have e0 := eps_gt0; rewrite subrr add0r => {}h; rewrite ler_pdivr_mulr; last by rewrite !mulr_gt0 ?ltr0n // addnS.
apply: le_trans h _; rewrite le_eqVlt; apply/orP; left; apply/eqP.
move: (exp u) ((q + r.+1)%:R : R) float_eps => a1 a2 a3; ring.
Qed.
End Matern.
Print Assumptions C138_variance.
Print Assumptions C138_repeated.

(* two observations, 0 and 1, at distance d with covariance s t + [s = t]: the squared norm is at least one over the variance of their difference *)
Example C138_case (R : rcfType) :
  let k : kernel R R := Kernel (fun s t => s * t) 1 in let x : 'I_(0 + 2) -> R := fun i => (i : nat)%:R in
  let mk : mean_kind R R 0 := @KZero R R 0 in
  [/\ fits mk (cov_same k x) x, dist2 (kfun k) (x 0) (x 1) + 2%:R * knug k = 3%:R
    & forall (z : 'cV[R]_(0 + 2)), z 0 0 = 0 -> z 1 0 = 3%:R -> resid mk x z 0 - resid mk x z 1 = - 3%:R].
Proof.
move=> k x mk; split; last 1 first.
- by move=> z z0 z1; rewrite /resid /= z0 z1 sub0r.
- by have [_ _ _ H _] := C128_case R; exact: H.
- by have -> : x 0 = 0 by []; have -> : x 1 = 1 by []; rewrite /dist2 /k /=; ring.
Qed.
(* the hypotheses of C138_variance are met by two observations 1 and 0 with a constant mean *)
Example C138_variance_case : exists (qr : qr_fun R_rcfType 1 1) (z : 'cV[R]_(1 + 1)) i j,
  [/\ is_qr (w_P R_rcfType) (qr (w_P R_rcfType)), full_col_rank (w_P R_rcfType), i != j,
      forall k, w_P R_rcfType i k = w_P R_rcfType j k & z i 0 - z j 0 = 1] /\
  forall b b' p d (x : 'M[R]_(1 + 1, d)) l, exists beta u, joint_min (fun beta u => matern_ml b b' p x (w_P R_rcfType) z beta u l) beta u.
Proof.
have [qr h] := qr_exists R_rcfType 1 1; exists qr, (delta_mx (lshift 1 0) 0), (lshift 1 0), (rshift 1 0); split.
  split=> //; first exact: w_full.
    by move=> k; rewrite /w_P col_mxEu col_mxEd !mxE.
  by rewrite !mxE !eqxx /= subr0.
move=> b b' p d x l; have zP beta : (delta_mx (lshift 1 0) 0 : 'cV[R]_(1 + 1)) != w_P R_rcfType *m beta.
  apply/eqP => e; have /matrixP /(_ (lshift 1 0) 0) := e; have /matrixP /(_ (rshift 1 0) 0) := e.
  by rewrite !mxE !big_ord1 /w_P col_mxEu col_mxEd !mxE !eqxx /= !mul1r => <- /eqP; rewrite oner_eq0.
have [beta [u [jm _ _]]] := @C110_joint b b' p d 1 1 x (w_P R_rcfType) _ l (@w_full _) zP.
by exists beta, u.
Qed.
