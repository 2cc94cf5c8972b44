(* UnitsThms.v
   Property C116: a change of units of the inputs and of the observations. *)
From Coq Require Import Reals.
From mathcomp Require Import all_ssreflect all_algebra ring.
From Verif Require Import LinAlg KrigModel RealAux Rinst LikModel CholProofs LinQR KrigProofs KrigProofs2
  KrigProofs3 LooProofs PathProofs LikProofs OrderModel OrderProofs UpdProofs UpdThms LinkProofs LinkThms UnitsProofs.
Set Implicit Arguments.
Unset Strict Implicit.
Unset Printing Implicit Defensive.
Import Order.TTheory GRing.Theory Num.Theory.
Local Open Scope ring_scope.
Local Arguments ln : clear scopes.

Section Units.
Variables (R : rcfType) (X X' : Type) (q : nat) (phi : X -> X') (a : R) (g : X -> R).
Hypothesis a0 : a != 0.
Let s := a ^+ 2.
Let sp : 0 < s. Proof. by rewrite lt_def sqr_ge0 andbT sqrf_eq0. Qed.
Let s0 : s != 0. Proof. by rewrite gt_eqF. Qed.

(* phi: the points in the new units; observations z become a z + g.  The covariance is multiplied by a^2, the nugget
   included. *)
Definition same_cov (c : kernel R X) (c' : kernel R X') : Prop :=
  (forall x y, kfun c' (phi x) (phi y) = a ^+ 2 * kfun c x y) /\ knug c' = a ^+ 2 * knug c.

(* The same mean in the new units: with a zero mean the observations cannot be shifted; the basis functions of a linear
   predictor may be recombined and the shift is one of their combinations; a mean function follows the observations. *)
Inductive same_mean : mean_kind R X q -> mean_kind R X' q -> Prop :=
  | SameZero : (forall x, g x = 0) -> same_mean KZero KZero
  | SameLinear p p' (T : 'M[R]_q) (c0 : 'cV[R]_q) : T \in unitmx ->
      (forall x k, p' (phi x) k = \sum_j p x j * T j k) -> (forall x, g x = \sum_j p x j * c0 j 0) ->
      same_mean (KLinear p) (KLinear p')
  | SameParam f f' : (forall x, f' (phi x) = a * f x + g x) -> same_mean (KParam (Some f)) (KParam (Some f')).

Definition obs n (x : 'I_n -> X) (z : 'cV[R]_n) : 'cV[R]_n := \col_i (a * z i 0 + g (x i)).

Lemma id1 (t1 t2 t3 t4 : R) : t1 + t2 - t3 = t1 - t4 + (t4 + t2 - t3).
Proof. by ring. Qed.
Lemma id2 (u t1 t2 t3 t4 : R) : u * t1 + (u * t2 + t3 - t4) + t4 = u * (t1 + t2) + t3.
Proof. by ring. Qed.
Lemma id3 (w t u v : R) : t != 0 -> w / t * u / (t^-1 * v) = w * (u / v).
Proof.
move=> t0; rewrite [(t^-1 * v)^-1]invfM invrK -!mulrA; congr (_ * _).
by rewrite mulrCA [t^-1 * _]mulrA mulVf // mul1r.
Qed.
Lemma id4 (t v : R) : 1 / (t^-1 * v) = t * (1 / v).
Proof. by rewrite [(t^-1 * v)^-1]invfM invrK !mul1r. Qed.

Section Core2.
Variables (c : kernel R X) (c' : kernel R X') (n : nat) (x : 'I_n -> X) (z : 'cV[R]_n).
Hypothesis cc : same_cov c c'.
Variables (q0 : nat) (p : X -> 'I_q0 -> R) (p' : X' -> 'I_q0 -> R) (T : 'M[R]_q0) (c0 : 'cV[R]_q0) (h : X -> R) (h' : X' -> R).
Hypothesis uT : T \in unitmx.
Hypothesis H1 : forall x k, p' (phi x) k = \sum_j p x j * T j k.
Hypothesis H2 : forall x, a * h x + g x = h' (phi x) + \sum_j p x j * c0 j 0.
Notation x' := (fun i => phi (x i)).

Lemma cov_units : cov_same c' x' = s *: cov_same c x.
Proof.
case: cc => c1 c2; apply/matrixP => i j; rewrite !mxE c1 c2 mulrDr; congr (_ + _).
by rewrite mulrnAr.
Qed.
Lemma cross_units m (xt : 'I_m -> X) : cov_cross c' x' (fun j => phi (xt j)) = s *: cov_cross c x xt.
Proof. by case: cc => c1 c2; apply/matrixP => i j; rewrite !mxE c1. Qed.
Lemma pw_units m (xt : 'I_m -> X) : cov_same_pairwise c' (fun j => phi (xt j)) = s *: cov_same_pairwise c xt.
Proof. by case: cc => c1 c2; apply/matrixP => i j; rewrite !mxE c1. Qed.
Lemma design_units m (xt : 'I_m -> X) : design p' (fun j => phi (xt j)) = design p xt *m T.
Proof. by apply/matrixP => i j; rewrite !mxE H1; apply: eq_bigr => k _; rewrite mxE. Qed.
Lemma resid_units : obs x z - mean_col h' x' = a *: (z - mean_col h x) + design p x *m c0.
Proof.
apply/colP => i; rewrite !mxE mulrDr mulrN.
have -> : \sum_j design p x i j * c0 j 0 = \sum_j p (x i) j * c0 j 0 by apply: eq_bigr => k _; rewrite mxE.
have -> : \sum_j p (x i) j * c0 j 0 = a * h (x i) + g (x i) - h' (phi (x i)) by rewrite H2 addrC addKr.
exact: id1.
Qed.
Hypothesis cK : cond_pos_def (cov_same c x) (design p x).
Hypothesis fP : full_col_rank (design p x).
Lemma cK' : cond_pos_def (cov_same c' x') (design p' x').
Proof. by rewrite cov_units design_units; exact: core_cpd. Qed.
Lemma fP' : full_col_rank (design p' x').
Proof. by rewrite design_units; exact: core_rank. Qed.

Lemma core_predict m (xt : 'I_m -> X) neg :
  let lam := uk_lambda (cov_same c x) (design p x) (cov_cross c x xt) (design p xt) in
  let v := cov_same_pairwise c xt - einsum_ii (uk_sol (cov_same c x) (design p x) (cov_cross c x xt) (design p xt))
     (uk_rhs (cov_cross c x xt) (design p xt)) in
  let xt' := fun j => phi (xt j) in
  let lam' := uk_lambda (cov_same c' x') (design p' x') (cov_cross c' x' xt') (design p' xt') in
  let v' := cov_same_pairwise c' xt' - einsum_ii (uk_sol (cov_same c' x') (design p' x') (cov_cross c' x' xt') (design p' xt'))
     (uk_rhs (cov_cross c' x' xt') (design p' xt')) in
  let mu := \row_j ((lam^T *m (z - mean_col h x)) j 0 + h (xt j)) in
  [/\ \row_j ((lam'^T *m (obs x z - mean_col h' x')) j 0 + h' (xt' j)) = \row_j (a * mu 0 j + g (xt j)),
      (if neg then clip0 v' else v') = a ^+ 2 *: (if neg then clip0 v else v) & lam' = lam].
Proof.
move=> lam v xt' lam' v' mu.
have u := uk_lhs_unit cK fP; have u' := uk_lhs_unit cK' fP'; rewrite cov_units design_units in u'.
have el : lam' = lam by rewrite /lam' cov_units cross_units !design_units core_lambda.
have ev : v' = s *: v.
  apply/rowP => j; rewrite /v' /v rsubE cov_units cross_units !design_units core_var // pw_units.
  by rewrite [in RHS]mxE rsubE mulrBr mxE.
split=> //.
- apply/rowP => j; rewrite [LHS]mxE [RHS]mxE [mu 0 j]mxE el resid_units mulmxDr -scalemxAr.
  have [_ e2] := uk_eqs (cov_cross c x xt) (design p xt) u.
  have -> : lam^T *m (design p x *m c0) = design p xt *m c0.
    by rewrite mulmxA -[lam^T *m _]trmxK trmx_mul trmxK e2 trmxK.
  rewrite maddE; set y := lam^T *m _.
  have -> : (a *: y) j 0 = a * y j 0 by rewrite mxE.
  have -> : (design p xt *m c0) j 0 = \sum_k p (xt j) k * c0 k 0 by rewrite mxE; apply: eq_bigr => k _; rewrite mxE.
  have -> : \sum_k p (xt j) k * c0 k 0 = a * h (xt j) + g (xt j) - h' (phi (xt j)) by rewrite H2 addrC addKr.
  by rewrite /xt'; exact: id2.
- rewrite ev; case: neg => //; apply/rowP => j; rewrite !mxE.
  by rewrite maxr_pmulr ?mulr0 // ltW.
Qed.

Lemma core_loo B C B' C' : symmetric B ->
  (design p x)^T *m B = 0 -> cov_same c x *m B + design p x *m C = 1%:M ->
  (design p' x')^T *m B' = 0 -> cov_same c' x' *m B' + design p' x' *m C' = 1%:M ->
  B' = s^-1 *: B /\ B' *m (obs x z - mean_col h' x') = (a / s) *: (B *m (z - mean_col h x)).
Proof.
move=> sB PB KB PB' KB'.
have u' := uk_lhs_unit cK' fP'; rewrite cov_units design_units in u' PB' KB'.
have e : B' = s^-1 *: B by exact: (core_B s0 uT u' PB KB PB' KB').
split=> //; rewrite e resid_units mulmxDr -!scalemxAl -!scalemxAr scalerA mulmxA.
have -> : B *m design p x = 0 by rewrite -[LHS]trmxK trmx_mul sB PB trmx0.
by rewrite mul0mx scaler0 addr0 mulrC.
Qed.
End Core2.

Let none (Y : Type) (_ : Y) (_ : 'I_0) : R := 0.
Lemma none_basis x k : @none X' (phi x) k = \sum_j @none X x j * (1%:M : 'M[R]_0) j k.
Proof. by case: k. Qed.
Lemma none_shift (h : X -> R) (h' : X' -> R) : (forall x, h' (phi x) = a * h x + g x) ->
  forall x, a * h x + g x = h' (phi x) + \sum_j @none X x j * (0 : 'cV[R]_0) j 0.
Proof. by move=> e x; rewrite big_ord0 addr0 e. Qed.
Lemma zero_shift : (forall x, g x = 0) -> forall x, (fun _ : X' => 0) (phi x) = a * (fun _ : X => 0) x + g x.
Proof. by move=> e x; rewrite e mulr0 addr0. Qed.
Lemma lin_shift p (c0 : 'cV[R]_q) : (forall x, g x = \sum_j p x j * c0 j 0) ->
  forall x, a * (fun _ : X => 0) x + g x = (fun _ : X' => 0) (phi x) + \sum_j p x j * c0 j 0.
Proof. by move=> e x; rewrite mulr0 !add0r. Qed.

Theorem C116_predict r m (qr : qr_fun R q r) ss ss' mk mk' c c' (x : 'I_(q + r) -> X) z (xt : 'I_m -> X) neg :
  same_cov c c' -> same_mean mk mk' -> solvable mk c x id ->
  exists mu v lam,
    predict_at qr ss mk c x z xt neg = Ok (mu, v, lam) /\
    predict_at qr ss' mk' c' (fun i => phi (x i)) (obs x z) (fun j => phi (xt j)) neg =
      Ok (\row_j (a * mu 0 j + g (xt j)), a ^+ 2 *: v, lam).
Proof.
move=> cc rel sol.
have [cK fP nN] := solvable_rep (@inj_id _) sol; have {}fP := sub_rank fP.
do 3 eexists; split; first exact: predict_rep.
case: rel sol cK fP nN => [g0|p p' T c0 uT e1 e2|f f' e1] sol cK fP nN.
- have CK := cK' cc (unitmx1 R 0) none_basis cK; have FP := fP' (unitmx1 R 0) none_basis fP; rewrite predict_rep //.
  by have [-> -> ->] := core_predict z cc (unitmx1 R 0) none_basis (none_shift (zero_shift g0)) cK fP xt neg.
- have CK := cK' cc uT e1 cK; have FP := fP' uT e1 fP; rewrite predict_rep //.
  by have [-> -> ->] := core_predict z cc uT e1 (lin_shift e2) cK fP xt neg.
- have CK := cK' cc (unitmx1 R 0) none_basis cK; have FP := fP' (unitmx1 R 0) none_basis fP; rewrite predict_rep //.
  by have [-> -> ->] := core_predict z cc (unitmx1 R 0) none_basis (none_shift e1) cK fP xt neg.
Qed.

Lemma loo_form n (B B' : 'M[R]_n) (y y' z z' : 'cV[R]_n) (G : 'I_n -> R) :
  B' = s^-1 *: B -> y' = (a / s) *: y -> z' = \col_i (a * z i 0 + G i) ->
  [/\ \col_i (z' i 0 - y' i 0 / B' i i) = \col_i (a * (\col_i (z i 0 - y i 0 / B i i)) i 0 + G i),
      \col_i (1 / B' i i) = s *: \col_i (1 / B i i) & \col_i (y' i 0 / B' i i) = a *: \col_i (y i 0 / B i i)].
Proof.
move=> -> -> ->.
have cE (F : 'I_n -> R) i : (\col_l F l) i 0 = F i by rewrite mxE.
have zE (t : R) (A : 'M[R]_n) i j : (t *: A) i j = t * A i j by rewrite mxE.
have zE1 (t : R) (A : 'cV[R]_n) i : (t *: A) i 0 = t * A i 0 by rewrite mxE.
have d i : a / s * y i 0 / (s^-1 * B i i) = a * (y i 0 / B i i).
  exact: id3.
split; apply/colP => i; rewrite ?zE1 !cE ?zE ?zE1 ?d //.
- by rewrite mulrBr addrAC.
- exact: id4.
Qed.

Theorem C116_loo r (qr : qr_fun R q r) mk mk' c c' (x : 'I_(q + r) -> X) z :
  (forall P, is_qr P (qr P)) -> same_cov c c' -> same_mean mk mk' -> solvable mk c x id ->
  exists zloo s2loo eloo,
    loo_at qr mk c x z = Ok (zloo, s2loo, eloo) /\
    loo_at qr mk' c' (fun i => phi (x i)) (obs x z) =
      Ok (\col_i (a * zloo i 0 + g (x i)), a ^+ 2 *: s2loo, a *: eloo).
Proof.
move=> hqr cc rel sol.
have [cK fP nN] := solvable_rep (@inj_id _) sol; have {}fP := sub_rank fP.
have [B [C [sB PB KB EL]]] := loo_rep z hqr cK fP nN.
do 3 eexists; split; first exact: EL.
have fin (mk2 : mean_kind R X' q) B' :
    B' = s^-1 *: B -> B' *m (obs x z - mean_col (rm mk2) (fun i => phi (x i))) = (a / s) *: (B *m (z - mean_col (rm mk) x)) ->
    loo_at qr mk2 c' (fun i => phi (x i)) (obs x z) =
      Ok (\col_i (obs x z i 0 - (B' *m (obs x z - mean_col (rm mk2) (fun i => phi (x i)))) i 0 / B' i i), \col_i (1 / B' i i),
         \col_i ((B' *m (obs x z - mean_col (rm mk2) (fun i => phi (x i)))) i 0 / B' i i)) ->
    loo_at qr mk2 c' (fun i => phi (x i)) (obs x z) =
      Ok (\col_i (a * (\col_i (z i 0 - (B *m (z - mean_col (rm mk) x)) i 0 / B i i)) i 0 + g (x i)),
          a ^+ 2 *: \col_i (1 / B i i), a *: \col_i ((B *m (z - mean_col (rm mk) x)) i 0 / B i i)).
  move=> eB ey ->.
  by have [-> -> ->] := loo_form eB ey (erefl : obs x z = \col_i (a * z i 0 + g (x i))).
case: rel sol cK fP nN C PB KB EL fin => [g0|p p' T c0 uT e1 e2|f f' e1] sol cK fP nN C PB KB EL fin.
- have [B' [C' [sB' PB' KB' EL']]] := loo_rep (mk := KZero) (obs x z) hqr (cK' cc (unitmx1 R 0) none_basis cK) (fP' (unitmx1 R 0) none_basis fP) (fun e => ltac:(discriminate e)).
  have [eB ey] := core_loo z cc (unitmx1 R 0) none_basis (none_shift (zero_shift g0)) cK fP sB PB KB PB' KB'.
  exact: (fin KZero B' eB ey EL').
- have [B' [C' [sB' PB' KB' EL']]] := loo_rep (mk := KLinear p') (obs x z) hqr (cK' cc uT e1 cK) (fP' uT e1 fP) (fun e => ltac:(discriminate e)).
  have [eB ey] := core_loo z cc uT e1 (lin_shift e2) cK fP sB PB KB PB' KB'.
  exact: (fin (KLinear p') B' eB ey EL').
- have [B' [C' [sB' PB' KB' EL']]] := loo_rep (mk := KParam (Some f')) (obs x z) hqr (cK' cc (unitmx1 R 0) none_basis cK) (fP' (unitmx1 R 0) none_basis fP) (fun e => ltac:(discriminate e)).
  have [eB ey] := core_loo z cc (unitmx1 R 0) none_basis (none_shift e1) cK fP sB PB KB PB' KB'.
  exact: (fin (KParam (Some f')) B' eB ey EL').
Qed.
End Units.
Print Assumptions C116_predict.
Print Assumptions C116_loo.

Section Criterion.
Variables (X X' : Type) (q : nat) (phi : X -> X').
Local Notation RR := R_rcfType.
Variables (a : RR) (g : X -> RR).
Hypothesis a0 : a != 0.
Let s := a ^+ 2.
Let sp : 0 < s. Proof. by rewrite lt_def sqr_ge0 andbT sqrf_eq0. Qed.
Let s0 : s != 0. Proof. by rewrite gt_eqF. Qed.

Lemma ln_s : ln s = 2%:R * ln `|a|.
Proof.
have n0 : 0 < `|a| by rewrite normr_gt0.
by rewrite /s -(real_normK (num_real a)) expr2 (lnM n0 n0) mulr2n mulrDl mul1r.
Qed.
Lemma lnX (y : RR) k : 0 < y -> ln (y ^+ k) = k%:R * ln y.
Proof.
move=> y0; elim: k => [|k IH]; first by rewrite expr0 mul0r; exact: ln_1.
by rewrite exprS (lnM y0 (exprn_gt0 _ y0)) IH -addn1 natrD mulrDl mul1r addrC.
Qed.

Lemma crit_id (n N q0 : nat) (D D' t G Q Q' L : RR) : (N + q0)%N = n -> 0 < D -> 0 < D' -> t != 0 -> 0 < G ->
  D' * s ^+ q0 = s ^+ n * t ^+ 2 * D -> Q' = Q ->
  (N%:R * L + (ln D' - ln (t ^+ 2 * G)) + Q') / 2%:R = (N%:R * L + (ln D - ln G) + Q) / 2%:R + N%:R * ln `|a|.
Proof.
move=> en D0 D0' t0 G0 eD ->.
have tp : 0 < t ^+ 2 by rewrite lt_def sqr_ge0 andbT sqrf_eq0.
have eL : ln D' + q0%:R * ln s = n%:R * ln s + ln (t ^+ 2) + ln D.
  rewrite -(lnX q0 sp) -(lnX n sp) -(lnM D0' (exprn_gt0 _ sp)) eD.
  by rewrite (lnM (mulr_gt0 (exprn_gt0 _ sp) tp) D0) (lnM (exprn_gt0 _ sp) tp).
have eD' : ln D' = N%:R * ln s + ln (t ^+ 2) + ln D.
  apply: (addIr (q0%:R * ln s)); rewrite eL -en natrD mulrDl.
  by rewrite -!addrA; congr (_ + _); rewrite addrC -addrA.
rewrite eD' (lnM tp G0) ln_s; set k := ln _.
have H (K0 V V2 V3 : RR) : (N%:R * L + (N%:R * (2%:R * K0) + V + V2 - (V + V3)) + Q) / 2%:R =
   (N%:R * L + (V2 - V3) + Q) / 2%:R + N%:R * K0.
  have -> : N%:R * K0 = N%:R * (2%:R * K0) / 2%:R by rewrite mulrCA [2%:R * _]mulrC mulfK // pnatr_eq0.
  rewrite -mulrDl; congr (_ / _); ring.
exact: H.
Qed.

(* the number of values the likelihood is about: n, or n - q for the restricted likelihood *)
Theorem C116_criterion b r (qr : qr_fun RR q r) mk mk' c c' (x : 'I_(q + r) -> X) z :
  (forall P, is_qr P (qr P)) -> same_cov phi a c c' -> same_mean phi a g mk mk' -> solvable mk c x id ->
  exists v, crit_at b qr mk c x z = Ok (Fin v) /\
    crit_at b qr mk' c' (fun i => phi (x i)) (obs a g x z) =
      Ok (Fin (v + (match mk with KLinear _ => r | _ => (q + r)%N end)%:R * ln `|a|)).
Proof.
move=> hqr cc rel sol.
have [cK fP nN] := solvable_rep (@inj_id _) sol; have {}fP := sub_rank fP.
have [B [C [sB PB KB _]]] := loo_rep z hqr cK fP nN.
have [D0 E0] := crit_rep b z hqr cK fP nN PB KB.
eexists; split; first exact: E0.
have dets q0 (P P' : 'M[RR]_(q + r, q0)) T (N : nat) B' y y' : (N + q0)%N = (q + r)%N -> T \in unitmx -> P' = P *m T ->
   full_col_rank P -> 0 < (-1) ^+ q0 * \det (uk_lhs (cov_same c x) P) ->
   0 < (-1) ^+ q0 * \det (uk_lhs (cov_same c' (fun i => phi (x i))) P') ->
   cov_same c' (fun i => phi (x i)) = s *: cov_same c x ->
   B' = s^-1 *: B -> P^T *m B = 0 -> B' *m y' = (a / s) *: (B *m y) -> (exists c0, y' = a *: y + P *m c0) ->
   (N%:R * ln (2%:R * PI) + (ln ((-1) ^+ q0 * \det (uk_lhs (cov_same c' (fun i => phi (x i))) P')) - ln (\det (P'^T *m P'))) + qform B' y') / 2%:R =
   (N%:R * ln (2%:R * PI) + (ln ((-1) ^+ q0 * \det (uk_lhs (cov_same c x) P)) - ln (\det (P^T *m P))) + qform B y) / 2%:R + N%:R * ln `|a|.
  move=> en uT eP fP0 dD dD' eK eB PB0 ey hy.
  have -> : \det (P'^T *m P') = \det T ^+ 2 * \det (P^T *m P).
    by rewrite eP trmx_mul mulmxA -[T^T *m P^T *m P]mulmxA !det_mulmx det_tr [LHS]mulrC mulrA -expr2.
  apply: (crit_id _ en dD dD') => //.
  + exact: (pd_det (full_gram_pd fP0)).
  + rewrite eK eP -mulrA (core_det _ _ T s0) mulrCA; congr (_ * _).
  case: hy => c0 hy.
  rewrite /qform /bilin -mulmxA ey {1}hy linearD linearZ /= trmx_mul mulmxDl -[c0^T *m P^T *m _]mulmxA.
  rewrite [P^T *m (B *m y)]mulmxA [P^T *m B]PB0 mul0mx mulmx0 addr0 linearZ /= -scalemxAl scalerA mulmxA.
  have -> : a / s * a = 1 by rewrite mulrAC -expr2 mulfV.
  by rewrite scale1r.
case: rel sol cK fP nN C PB KB D0 E0 => [g0|p p' T c0 uT e1 e2|f f' e1] sol cK fP nN C PB KB D0 E0.
- have CK := cK' a0 cc (unitmx1 RR 0) (@none_basis RR X X' phi) cK; have FP := fP' (unitmx1 RR 0) (@none_basis RR X X' phi) fP.
  have [B' [C' [sB' PB' KB' EL']]] := loo_rep (mk := KZero) (obs a g x z) hqr CK FP (fun e => ltac:(discriminate e)).
  have [eB ey] := core_loo a0 z cc (unitmx1 RR 0) (@none_basis RR X X' phi) (none_shift (zero_shift phi a g0)) cK fP sB PB KB PB' KB'.
  have [D1 E1] := crit_rep (mk := KZero) b (obs a g x z) hqr CK FP (fun e => ltac:(discriminate e)) PB' KB'.
  rewrite E1; congr (Ok (Fin _)); apply: (dets _ _ _ _ _ _ _ _ (addn0 _) (unitmx1 RR 0) _ fP D0 D1 _ eB PB ey).
  + exact: (design_units (@none_basis RR X X' phi)).
  + exact: (cov_units _ cc).
  + by eexists; exact: (resid_units x z (none_shift (zero_shift phi a g0))).
- have CK := cK' a0 cc uT e1 cK; have FP := fP' uT e1 fP.
  have [B' [C' [sB' PB' KB' EL']]] := loo_rep (mk := KLinear p') (obs a g x z) hqr CK FP (fun e => ltac:(discriminate e)).
  have [eB ey] := core_loo a0 z cc uT e1 (lin_shift phi a e2) cK fP sB PB KB PB' KB'.
  have [D1 E1] := crit_rep (mk := KLinear p') b (obs a g x z) hqr CK FP (fun e => ltac:(discriminate e)) PB' KB'.
  rewrite E1; congr (Ok (Fin _)); apply: (dets _ _ _ _ _ _ _ _ (addnC _ _) uT _ fP D0 D1 _ eB PB ey).
  + exact: (design_units e1).
  + exact: (cov_units _ cc).
  + by eexists; exact: (resid_units x z (lin_shift phi a e2)).
- have CK := cK' a0 cc (unitmx1 RR 0) (@none_basis RR X X' phi) cK; have FP := fP' (unitmx1 RR 0) (@none_basis RR X X' phi) fP.
  have [B' [C' [sB' PB' KB' EL']]] := loo_rep (mk := KParam (Some f')) (obs a g x z) hqr CK FP (fun e => ltac:(discriminate e)).
  have [eB ey] := core_loo a0 z cc (unitmx1 RR 0) (@none_basis RR X X' phi) (none_shift e1) cK fP sB PB KB PB' KB'.
  have [D1 E1] := crit_rep (mk := KParam (Some f')) b (obs a g x z) hqr CK FP (fun e => ltac:(discriminate e)) PB' KB'.
  rewrite E1; congr (Ok (Fin _)); apply: (dets _ _ _ _ _ _ _ _ (addn0 _) (unitmx1 RR 0) _ fP D0 D1 _ eB PB ey).
  + exact: (design_units (@none_basis RR X X' phi)).
  + exact: (cov_units _ cc).
  + by eexists; exact: (resid_units x z (none_shift e1)).
Qed.
End Criterion.
Print Assumptions C116_criterion.
