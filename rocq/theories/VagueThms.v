(* VagueThms.v
   Property C120: a linear predictor of unknown coefficients is the limit of a mean with
   a vague prior on its coefficients. *)
From Coq Require Import Reals Lra.
From mathcomp Require Import all_ssreflect all_fingroup all_algebra ring.
From Verif Require Import LinAlg KrigModel RealAux Rinst LikModel CholProofs LinQR KrigProofs KrigProofs2
  KrigProofs3 LooProofs PathProofs LikProofs OrderModel OrderProofs UpdProofs UpdThms LinkProofs LinkThms
  VagueProofs VagueReal.
Set Implicit Arguments.
Unset Strict Implicit.
Unset Printing Implicit Defensive.
Import Order.TTheory GRing.Theory Num.Theory.
Local Open Scope ring_scope.

Section Vague.
Variables (R : rcfType) (X : Type) (q : nat).

(* The covariance function of the model whose mean is sum_k beta_k p_k, with independent
   coefficients beta_k of variance s: k(x, y) + s sum_k p_k(x) p_k(y). *)
Definition with_vague (c : kernel R X) (p : X -> 'I_q -> R) (s : R) : kernel R X :=
  Kernel (fun a b => kfun c a b + s * \sum_k p a k * p b k) (knug c).
(* The mean when the prior means of the coefficients are b. *)
Definition trend (p : X -> 'I_q -> R) (b : 'I_q -> R) : X -> R := fun x => \sum_k p x k * b k.

(* Universal kriging exists: the trend is identified and the covariance is valid on contrasts. *)
Definition identified n (p : X -> 'I_q -> R) (c : kernel R X) (x : 'I_n -> X) : Prop :=
  cond_pos_def (cov_same c x) (design p x) /\ full_col_rank (design p x).

Lemma vague_same n c p s (x : 'I_n -> X) :
  cov_same (with_vague c p s) x = cov_same c x + s *: (design p x *m (design p x)^T).
Proof.
apply/matrixP => i j; rewrite !mxE /= addrAC; congr (_ + _ + s * _).
by apply: eq_bigr => k _; rewrite !mxE.
Qed.
Lemma vague_cross n m c p s (x : 'I_n -> X) (xt : 'I_m -> X) :
  cov_cross (with_vague c p s) x xt = cov_cross c x xt + s *: (design p x *m (design p xt)^T).
Proof.
apply/matrixP => i j; rewrite !mxE; congr (_ + s * _).
by apply: eq_bigr => k _; rewrite !mxE.
Qed.
Lemma vague_pairwise m c p s (xt : 'I_m -> X) j :
  cov_same_pairwise (with_vague c p s) xt 0 j =
  cov_same_pairwise c xt 0 j + s * (design p xt *m (design p xt)^T) j j.
Proof. by rewrite !mxE /=; congr (_ + s * _); apply: eq_bigr => k _; rewrite !mxE. Qed.
Lemma mean_trend n p (b : 'I_q -> R) (x : 'I_n -> X) :
  mean_col (trend p b) x = design p x *m (\col_k b k).
Proof. by apply/colP => i; rewrite !mxE; apply: eq_bigr => k _; rewrite !mxE. Qed.


Lemma zero_rep r m (qr : qr_fun R q r) ss h (c : kernel R X) (x : 'I_(q + r) -> X) z (xt : 'I_m -> X) neg :
  pos_def (cov_same c x) ->
  let lam := invmx (cov_same c x) *m cov_cross c x xt in
  let v := \row_j (cov_same_pairwise c xt 0 j - (lam^T *m cov_cross c x xt) j j) in
  predict_at qr ss (KParam (Some h)) c x z xt neg =
  Ok (\row_j ((lam^T *m (z - mean_col h x)) j 0 + h (xt j)), if neg then clip0 v else v, lam).
Proof.
move=> pK lam v; rewrite /predict_at /predict /= krig_zero_ok //=.
have rE (F : 'I_m -> R) j : (\row_l F l) 0 j = F j by rewrite mxE.
congr (Ok (_, _, _)).
- apply/rowP => j; rewrite rE maddE einsum_izE; congr (_ + _); by rewrite mxE.
- by case: neg; [congr clip0|]; apply/rowP => j; rewrite rE rsubE einsum_iiE.
Qed.

Lemma clip_between (a b : R) : a <= b -> 0 <= Num.max b 0 - Num.max a 0 <= b - a.
Proof.
move=> ab; have [b0|b0] := leP b 0; have [a0|a0] := leP a 0.
- by rewrite subrr lexx subr_ge0.
- by have := lt_le_trans a0 (le_trans ab b0); rewrite ltxx.
- by rewrite subr0 (ltW b0) ler_addl oppr_ge0.
- by rewrite subr_ge0 ab lexx.
Qed.

(* Predictions, variances and weights with the vague prior tend to those of the linear
   predictor as s increases, with an error at most proportional to 1/(s - s0), whatever
   the prior means b; the variances from below. *)
Theorem C120_predict r m (qr qr0 : qr_fun R q r) ss ss0 (c : kernel R X) (p : X -> 'I_q -> R) (b : 'I_q -> R)
  (x : 'I_(q + r) -> X) (z : 'cV[R]_(q + r)) (xt : 'I_m -> X) neg :
  identified p c x ->
  exists mu v lam s0 a,
    predict_at qr ss (KLinear p) c x z xt neg = Ok (mu, v, lam) /\
    forall s, s0 < s -> exists mus vs lams,
      [/\ predict_at qr0 ss0 (KParam (Some (trend p b))) (with_vague c p s) x z xt neg = Ok (mus, vs, lams),
          forall j, `|mus 0 j - mu 0 j| <= a / (s - s0),
          forall j, 0 <= v 0 j - vs 0 j <= a / (s - s0)
        & forall i j, `|lams i j - lam i j| <= a / (s - s0)].
Proof.
case=> cK fP.
have [B [D [F [sB sF PB KB [KD PD]]]]] := trend_blocks cK fP.
have E := @predict_rep _ _ q r m qr ss (KLinear p) c x z xt neg cK fP.
set K := cov_same c x in cK KB KD E *; set P := design p x in cK fP PB KB KD PD E *.
set Kit := cov_cross c x xt in E *; set Pt := design p xt in E *.
pose mu0 := uk_mu K P Kit Pt; pose be := D^T *m z - \col_k b k.
pose a := \sum_j (norm2 (col j mu0) + norm2 be) + \sum_i \sum_j (norm2 (row i D)^T + norm2 (col j mu0)).
have n0 k (y : 'cV[R]_k) : 0 <= norm2 y by exact: norm2_ge0.
have a1 j : norm2 (col j mu0) + norm2 be <= a.
  apply: ler_paddr; first by apply: sumr_ge0 => i _; apply: sumr_ge0 => l _; exact: addr_ge0.
  by rewrite (bigD1 j) //= ler_addl; apply: sumr_ge0 => l _; exact: addr_ge0.
have a2 i j : norm2 (row i D)^T + norm2 (col j mu0) <= a.
  apply: ler_paddl; first by apply: sumr_ge0 => l _; exact: addr_ge0.
  rewrite (bigD1 i) //= (bigD1 j) //= -addrA ler_addl addr_ge0 //.
    by apply: sumr_ge0 => l _; exact: addr_ge0.
  by apply: sumr_ge0 => l _; apply: sumr_ge0 => k _; exact: addr_ge0.
exists (\row_j ((uk_lambda K P Kit Pt)^T *m z) j 0).
do 2 eexists; exists (size1 F), a; split.
  rewrite E //=; congr (Ok (_, _, _)).
  by apply/rowP => j; rewrite !mxE addr0; apply: eq_bigr => i _; rewrite !mxE oppr0 addr0.
move=> s sf.
have pKs := trend_pd cK sB sF PB KB KD PD sf.
have dv (y : R) : y <= a -> y / (s - size1 F) <= a / (s - size1 F).
  by move=> ya; rewrite ler_pmul2r // invr_gt0 subr_gt0.
do 3 eexists; split.
- by apply: zero_rep; rewrite vague_same.
- move=> j; rewrite mxE [X in _ - X]mxE vague_same vague_cross mean_trend -/K -/P -/Kit -/Pt.
  have -> : trend p b (xt j) = (Pt *m \col_k b k) j 0 by rewrite !mxE; apply: eq_bigr => k _; rewrite !mxE.
  rewrite (trend_mean cK fP sB sF PB KB KD PD sf).
  by apply: le_trans (shiftN_bilin sF sf _ _) (dv _ _); exact: a1.
- have al (a' b' c' d' : R) : a' - b' - (a' + c' - d') = - b' - (c' - d') by clear; ring.
  have al2 (b' c' : R) : - b' - (- b' - c') = c' by clear; ring.
  move=> j; have h : 0 <= (cov_same_pairwise c xt - einsum_ii (uk_sol K P Kit Pt) (uk_rhs Kit Pt)) 0 j -
      (\row_j (cov_same_pairwise (with_vague c p s) xt 0 j -
        ((invmx (cov_same (with_vague c p s) x) *m cov_cross (with_vague c p s) x xt)^T *m
           cov_cross (with_vague c p s) x xt) j j)) 0 j <= a / (s - size1 F).
    rewrite [X in _ - X]mxE rsubE vague_pairwise vague_same vague_cross -/K -/P -/Kit -/Pt al.
    rewrite (trend_var cK fP sB sF PB KB KD PD sf Kit Pt j) al2.
    rewrite (shiftN_ge0 sF sf) /=; apply: le_trans (shiftN_q sF sf _) (dv _ _).
    by apply: le_trans (a1 j); rewrite ler_addl.
  case: (neg) => //; rewrite [clip0 _ _ _]mxE [X in _ - X]mxE.
  move: h; set y := _ 0 j; set y' := _ 0 j => /andP[h1 h2].
  have /andP[h3 h4] : 0 <= Num.max y 0 - Num.max y' 0 <= y - y' by apply: clip_between; rewrite -subr_ge0.
  by rewrite h3 /=; exact: le_trans h4 h2.
- move=> i j; rewrite vague_same vague_cross -/K -/P -/Kit -/Pt -msubE.
  rewrite (trend_weight cK fP sB sF PB KB KD PD sf).
  by apply: le_trans (shiftN_bilin sF sf _ _) (dv _ _); exact: a2.
Qed.

Lemma uniq_B n k (K B B' : 'M[R]_n) (P : 'M[R]_(n, k)) C C' : uk_lhs K P \in unitmx ->
  P^T *m B = 0 -> K *m B + P *m C = 1%:M -> P^T *m B' = 0 -> K *m B' + P *m C' = 1%:M -> B = B'.
Proof.
move=> u h1 h2 h3 h4; rewrite -(trmx0 R n k) in h1 h3.
by have [-> _] := uk_uniq u h2 h1; have [-> _] := uk_uniq u h4 h3.
Qed.

Lemma ratio_gap (x y d e : R) : 0 < y -> 0 <= d ->
  0 <= 1 / y - 1 / (y + d) <= d / y ^+ 2 /\
  `|(x + e) / (y + d) - x / y| <= `|e| / y + `|x| * d / y ^+ 2.
Proof.
move=> y0 d0; have yd : 0 < y + d by exact: ltr_spaddl.
have yn : y != 0 by rewrite gt_eqF. have ydn : y + d != 0 by rewrite gt_eqF.
have iv : (y + d)^-1 <= y^-1 by rewrite lef_pinv // ler_addl.
have e1 : 1 / y - 1 / (y + d) = d / y * (y + d)^-1 by field; rewrite ydn yn.
have e2 : (x + e) / (y + d) - x / y = e / (y + d) - x * (d / y * (y + d)^-1) by field; rewrite ydn yn.
have dy : 0 <= d / y by apply: divr_ge0 => //; exact: ltW.
have h1 : d / y * (y + d)^-1 <= d / y ^+ 2.
  by rewrite expr2 invfM mulrA; apply: ler_wpmul2l.
have h0 : 0 <= d / y * (y + d)^-1 by apply: mulr_ge0 => //; rewrite invr_ge0 ltW.
split; first by rewrite e1 h0.
rewrite e2; apply: le_trans (ler_norm_sub _ _) _; apply: ler_add.
  by rewrite normrM; apply: ler_wpmul2l; rewrite // ger0_norm // invr_ge0 ltW.
rewrite normrM -[X in _ <= X]mulrA; apply: ler_wpmul2l => //.
by rewrite (ger0_norm h0).
Qed.

(* Model.loo: the same limit, at every observation without which the trend is still
   identified. *)
Theorem C120_loo r (qr qr0 : qr_fun R q r) (c : kernel R X) (p : X -> 'I_q -> R) (b : 'I_q -> R)
  (x : 'I_(q + r) -> X) (z : 'cV[R]_(q + r)) (i : 'I_(q + r)) :
  (forall P, is_qr P (qr P)) -> (forall P, is_qr P (qr0 P)) -> identified p c x ->
  (forall v : 'cV[R]_q, (forall l, l != i -> (design p x *m v) l 0 = 0) -> v = 0) ->
  exists zloo s2loo eloo s0 a,
    loo_at qr (KLinear p) c x z = Ok (zloo, s2loo, eloo) /\
    forall s, s0 < s -> exists zs s2s es,
      [/\ loo_at qr0 (KParam (Some (trend p b))) (with_vague c p s) x z = Ok (zs, s2s, es),
          `|zs i 0 - zloo i 0| <= a / (s - s0),
          0 <= s2loo i 0 - s2s i 0 <= a / (s - s0)
        & `|es i 0 - eloo i 0| <= a / (s - s0)].
Proof.
move=> hqr hqr0 [cK fP] fwo.
have [B [D [F [sB sF PB KB [KD PD]]]]] := trend_blocks cK fP.
have nN' : (KLinear p : mean_kind R X q) <> KParam None by [].
have [B' [C' [sB' PB' KB' E]]] := @loo_rep _ _ q r qr (KLinear p) c x z hqr cK fP nN'.
have eB : B' = B by exact: uniq_B (uk_lhs_unit cK fP) PB' KB' PB KB.
have m0 : z - mean_col (@rm _ _ q (KLinear p)) x = z by apply/colP => l; rewrite !mxE oppr0 addr0.
rewrite m0 eB in E; clear C' sB' PB' KB' eB B' m0.
set K := cov_same c x in cK KB KD E *; set P := design p x in cK fP PB KB KD PD fwo *.
have fwo' : full_col_rank (P_wo i P).
  move=> v hv; apply: fwo => l; rewrite eq_sym => li; have [l' -> _] := unlift_some li.
  have := hv; rewrite /P_wo => /colP /(_ l'); rewrite [RHS]mxE => <-.
  by rewrite mxE [RHS]mxE; apply: eq_bigr => t _; rewrite [row' _ _ _ _]mxE.
have y0 := B_diag_pos cK sB PB KB fwo'.
pose be := D^T *m z - \col_k b k.
pose A := norm2 (row i D)^T + norm2 be.
have n0 k (y : 'cV[R]_k) : 0 <= norm2 y by exact: norm2_ge0.
have A0 : 0 <= A by exact: addr_ge0.
pose a := A * ((B i i ^+ 2)^-1 + ((B i i)^-1 + `|(B *m z) i 0| / B i i ^+ 2)).
have w0 : 0 <= (B i i)^-1 by rewrite invr_ge0 ltW.
have w1 : 0 <= (B i i ^+ 2)^-1 by rewrite invr_ge0 sqr_ge0.
have w2 : 0 <= `|(B *m z) i 0| / B i i ^+ 2 by exact: mulr_ge0.
do 3 eexists; exists (size1 F), a; split; first exact: E.
move=> s sf.
have pKs := trend_pd cK sB sF PB KB KD PD sf.
have iE := trend_invE cK sB sF PB KB KD PD sf.
have pKv : pos_def (cov_same (with_vague c p s) x) by rewrite vague_same.
have fP0 : full_col_rank (design (@rp _ _ q (KParam (Some (trend p b)))) x) by move=> v _; apply/colP => -[].
have nN : (KParam (Some (trend p b)) : mean_kind R X q) <> KParam None by [].
have [B1 [C1 [sB1 PB1 KB1 E1]]] := @loo_rep _ _ q r qr0 (KParam (Some (trend p b))) (with_vague c p s) x z hqr0 (pd_cpd _ pKv) fP0 nN.
have eB1 : B1 = invmx (K + s *: (P *m P^T)).
  rewrite -[K + _](vague_same c p s x).
  have z0 : (design (@rp _ _ q (KParam (Some (trend p b)))) x) *m C1 = 0.
    by apply/matrixP => k l; rewrite [LHS]mxE big_ord0 mxE.
  by move: KB1; rewrite z0 addr0 => h; rewrite -[RHS]mulmx1 -h mulKmx // pd_unit.
set N := invmx (s%:M - F) in iE *.
have d0 : (D *m N *m D^T) i i = qform N (row i D)^T.
  by rewrite -{1}[D]trmxK bilin_entry tr_row.
have eB2 : B1 i i = B i i + qform N (row i D)^T by rewrite eB1 iE mxE d0.
have eg : (B1 *m (z - mean_col (@rm _ _ q (KParam (Some (trend p b)))) x)) i 0 =
    (B *m z) i 0 + bilin N (row i D)^T be.
  rewrite eB1 /rm mean_trend -/P (trend_row cK sB sF PB KB KD PD sf) [LHS]mxE; congr (_ + _).
  rewrite mulmxA -{1}[D]trmxK bilin_entry tr_row; congr (bilin _ _ _).
  by apply/colP => k; rewrite [LHS]mxE.
have [] := ratio_gap ((B *m z) i 0) (bilin N (row i D)^T be) y0 (shiftN_ge0 sF sf (row i D)^T).
rewrite -/N => /andP[g1 g2] g3.
have hd : qform N (row i D)^T <= A / (s - size1 F).
  apply: le_trans (shiftN_q sF sf _) _; apply: ler_wpmul2r; last by rewrite ler_addl.
  by rewrite invr_ge0 subr_ge0 ltW.
have he : `|bilin N (row i D)^T be| <= A / (s - size1 F) by exact: shiftN_bilin.
have sp : 0 <= (s - size1 F)^-1 by rewrite invr_ge0 subr_ge0 ltW.
have As0 : 0 <= A / (s - size1 F) by exact: mulr_ge0.
have aE : a / (s - size1 F) = A / (s - size1 F) / B i i ^+ 2 +
    (A / (s - size1 F) / B i i + `|(B *m z) i 0| * (A / (s - size1 F)) / B i i ^+ 2).
  rewrite /a; move: (s - _)^-1 (B i i)^-1 (B i i ^+ 2)^-1 (`|_|) => y1 y2 y3 y4; clear; ring.
have G2 : qform N (row i D)^T / B i i ^+ 2 <= a / (s - size1 F).
  rewrite aE; apply: ler_paddr; last exact: ler_wpmul2r.
  by apply: addr_ge0; apply: mulr_ge0 => //; exact: mulr_ge0.
have G3 : `|bilin N (row i D)^T be| / B i i + `|(B *m z) i 0| * qform N (row i D)^T / B i i ^+ 2 <= a / (s - size1 F).
  rewrite aE; apply: ler_paddl; first exact: mulr_ge0.
  by apply: ler_add; apply: ler_wpmul2r => //; apply: ler_wpmul2l.
have H3 := le_trans g3 G3.
have cE (H : 'I_(q + r) -> R) l : (\col_k H k) l 0 = H l by rewrite mxE.
do 3 eexists; split; first exact: E1.
- rewrite !cE eg eB2.
  have al (u v w : R) : u - v - (u - w) = - (v - w) by clear; ring.
  by rewrite al normrN.
- by rewrite !cE eB2 g1 /=; exact: le_trans g2 G2.
- by rewrite !cE eg eB2.
Qed.
End Vague.

Section Criterion.
Variables (X : Type) (q : nat).
Local Notation RR := R_rcfType.

(* The negative log-likelihood with the vague prior, less the constant
   (q (ln 2 pi + ln s) + ln det P'P) / 2 which depends on neither the covariance nor the
   data, tends to the negative log restricted likelihood. *)
Theorem C120_criterion b r (qr qr0 : qr_fun RR q r) (c : kernel RR X) (p : X -> 'I_q -> R) (bt : 'I_q -> R)
  (x : 'I_(q + r) -> X) (z : 'cV[R]_(q + r)) :
  (forall P, is_qr P (qr P)) -> (forall P, is_qr P (qr0 P)) -> identified p c x ->
  exists a s0 k, 0 <= s0 /\
    crit_at b qr (KLinear p) c x z = Ok (Fin a) /\
    forall s, s0 < s -> exists as_,
      crit_at b qr0 (KParam (Some (trend p bt))) (with_vague c p s) x z = Ok (Fin as_) /\
      `|as_ - (a + (q%:R * (ln (2%:R * PI) + ln s)
                    + ln (\det ((design p x)^T *m design p x))) / 2%:R)| <= k / (s - s0).
Proof.
move=> hqr hqr0 [cK fP].
have [B [D [F [sB sF PB KB [KD PD]]]]] := trend_blocks cK fP.
have nN' : (KLinear p : mean_kind RR X q) <> KParam None by [].
have [dp E] := @crit_rep _ q b r qr (KLinear p) c x z B D^T hqr cK fP nN' PB KB.
have m0 : z - mean_col (@rm _ _ q (KLinear p)) x = z by apply/colP => l; rewrite !mxE oppr0 addr0.
rewrite m0 [rp (mk:=_)]/= [rq _]/= in E dp; clear m0.
set K := cov_same c x in cK KB KD E dp *; set P := design p x in cK fP PB KB KD PD E dp *.
pose be := D^T *m z - \col_k bt k.
eexists; exists (size1 F), (q%:R * size1 F + norm2 be); split; first exact: size1_ge0.
split; first exact: E.
move=> s sf.
have pKs := trend_pd cK sB sF PB KB KD PD sf.
have pKv : pos_def (cov_same (with_vague c p s) x) by rewrite vague_same.
have fP0 : full_col_rank (design (@rp _ _ q (KParam (Some (trend p bt)))) x) by move=> v _; apply/colP => -[].
have nN : (KParam (Some (trend p bt)) : mean_kind RR X q) <> KParam None by [].
have PB0 : (design (@rp _ _ q (KParam (Some (trend p bt)))) x)^T *m invmx (cov_same (with_vague c p s) x) = 0 by apply/matrixP => -[].
have KB0 : cov_same (with_vague c p s) x *m invmx (cov_same (with_vague c p s) x) +
   (design (@rp _ _ q (KParam (Some (trend p bt)))) x) *m 0 = 1%:M by rewrite mulmx0 addr0 mulmxV // pd_unit.
have [_ E1] := @crit_rep _ q b r qr0 (KParam (Some (trend p bt))) (with_vague c p s) x z _ 0 hqr0 (pd_cpd _ pKv) fP0 nN PB0 KB0.
eexists; split; first exact: E1.
rewrite [rq _]/= expr0 mul1r det_lhs0 ?pd_unit // det_mx00 vague_same -/K -/P.
rewrite /rm mean_trend -/P (trend_quad cK sB sF PB KB KD PD sf) -/be.
have pA := shift_pd sF sf; have dA := pd_det pA.
rewrite (trend_det cK sB sF PB KB KD PD sf) (lnM dp dA).
have f0 := size1_ge0 F; have e0 : 0 < s - size1 F by rewrite subr_gt0.
have /andP[l1 l2] := shift_det sF sf.
have lle (u v : RR) : 0 < u -> u <= v -> ln u <= ln v.
  move=> u0; rewrite le_eqVlt => /orP[/eqP -> //|uv].
  by apply/leRP; left; apply: ln_increasing; apply/ltRP.
have s_gt : 0 < s + size1 F by apply: ltr_spaddl => //; exact: le_lt_trans f0 sf.
have L1 := lle _ _ (exprn_gt0 q e0) l1; rewrite lnX // in L1.
have L2 := lle _ _ dA l2; rewrite lnX // in L2.
have g0 := shiftN_ge0 sF sf be; have g1 := shiftN_q sF sf be.
have en : s - size1 F != 0 by rewrite gt_eqF.
have [eI e2I] : Rinv (s - size1 F) = (s - size1 F)^-1 /\ Rinv (IZR 2) = 2%:R^-1.
  split; first exact: Rinv_ring.
  by rewrite -Rinv_ring ?pnatr_eq0 //; congr Rinv; rewrite natR INR_IZR_INZ.
have q0 : 0 <= q%:R :> RR by exact: ler0n.
have H := @ln_det_gap q%:R (ln (\det (s%:M - F))) (size1 F) s (elimT (leRP _ _) q0) (elimT (leRP _ _) f0)
  (elimT (ltRP _ _) sf) (elimT (leRP _ _) L1) (elimT (leRP _ _) L2).
pose T : R := (q + r)%:R * ln (2%:R * PI) + ln ((-1) ^+ q * \det (uk_lhs K P)) + qform B z.
have g1' : Rle (qform (invmx (s%:M - F)) be) (Rdiv (norm2 be) (Rminus s (size1 F))).
  by apply/leRP; rewrite /Rdiv -[Rminus _ _]/(s - size1 F) eI.
have := crit_gap _ _ _ T _ _ _ _ (elimT (leRP _ _) g0) g1' H (elimT (ltRP _ _) sf).
rewrite /Rdiv -[Rminus s _]/(s - size1 F) eI e2I => /leRP G; apply: le_trans G.
rewrite le_eqVlt; apply/orP; left; apply/eqP; congr (`|_|).
rewrite [ncrit _ _]/= [ncrit _ _]/= ln_1 /T natrD.
have al (t1 t2 t3 y1 y2 y3 y4 y5 y6 y7 : RR) :
  ((t1 + t2) * y5 + (y2 + y1 - 0) + (y3 + y4)) * t3 -
  ((t2 * y5 + (y2 - y7) + y3) * t3 + (t1 * (y5 + y6) + y7) * t3) =
  ((t1 + t2) * y5 + y2 + y3 + y1 + y4) * t3 - ((t1 + t2) * y5 + y2 + y3 + t1 * y6) * t3 by clear; ring.
exact: (al q%:R r%:R 2%:R^-1 (ln (\det (s%:M - F))) (ln ((-1) ^+ q * \det (uk_lhs K P))) (qform B z)
  (qform (invmx (s%:M - F)) be) (ln (2%:R * PI)) (ln s) (ln (\det (P^T *m P)))).
Qed.

(* Hence, of two covariance functions, the one the restricted likelihood prefers is the one
   that the likelihood prefers once the prior is vague enough. *)
Theorem C120_selection b r (qr qr0 : qr_fun RR q r) (c c' : kernel RR X) (p : X -> 'I_q -> R) (bt : 'I_q -> R)
  (x : 'I_(q + r) -> X) (z : 'cV[R]_(q + r)) a a' :
  (forall P, is_qr P (qr P)) -> (forall P, is_qr P (qr0 P)) -> identified p c x -> identified p c' x ->
  crit_at b qr (KLinear p) c x z = Ok (Fin a) -> crit_at b qr (KLinear p) c' x z = Ok (Fin a') -> a < a' ->
  exists s1, forall s, s1 < s -> exists u u',
    [/\ crit_at b qr0 (KParam (Some (trend p bt))) (with_vague c p s) x z = Ok (Fin u),
        crit_at b qr0 (KParam (Some (trend p bt))) (with_vague c' p s) x z = Ok (Fin u') & u < u'].
Proof.
move=> hqr hqr0 h h' E E' aa.
have [a1 [s0 [k [_ [E1 C1]]]]] := C120_criterion b bt z hqr hqr0 h.
have [a1' [s0' [k' [_ [E1' C1']]]]] := C120_criterion b bt z hqr hqr0 h'.
rewrite E in E1; case: E1 => e1; subst a1; rewrite E' in E1'; case: E1' => e1; subst a1'.
have [s1 S] := select_gap k k' s0 s0' a a' (elimT (ltRP _ _) aa).
exists s1 => s /ltRP /S [/ltRP g1 [/ltRP g2 U]].
have [u [eu Cu]] := C1 s g1; have [u' [eu' Cu']] := C1' s g2.
exists u, u'; split=> //; apply/ltRP.
have en : s - s0 != 0 by rewrite gt_eqF // subr_gt0.
have en' : s - s0' != 0 by rewrite gt_eqF // subr_gt0.
have eI : k * (s - s0)^-1 = Rdiv k (Rminus s s0) by rewrite -Rinv_ring.
have eI' : k' * (s - s0')^-1 = Rdiv k' (Rminus s s0') by rewrite -Rinv_ring.
rewrite eI in Cu; rewrite eI' in Cu'.
by apply: U; [exact: (elimT (leRP _ _) Cu) | exact: (elimT (leRP _ _) Cu')].
Qed.
End Criterion.
Print Assumptions C120_predict.
Print Assumptions C120_loo.
Print Assumptions C120_criterion.
Print Assumptions C120_selection.

(* A concrete case: the covariance function k(x, y) = -|x - y| at the two points 0 and 1,
   which is not positive definite, with a constant mean. *)
Section Case.
Variable R : rcfType.
Let c : kernel R 'I_(1 + 1) := Kernel (fun i j => if i == j then 0 else -1) 0.
Let x : 'I_(1 + 1) -> 'I_(1 + 1) := fun i => i.
Let p : 'I_(1 + 1) -> 'I_1 -> R := fun _ _ => 1.
Example C120_case : [/\ identified p c x, ~ pos_def (cov_same c x) &
  forall i, forall v : 'cV[R]_1, (forall l, l != i -> (design p x *m v) l 0 = 0) -> v = 0].
Proof.
have eK i j : cov_same c x i j = if i == j then 0 else -1.
  by rewrite /cov_same /= raddf0 addr0 mxE.
have eP (v : 'cV[R]_1) l : (design p x *m v) l 0 = v 0 0 by rewrite mxE big_ord1 mxE mul1r.
have v0 (v : 'cV[R]_1) : v 0 0 = 0 -> v = 0 by move=> h; apply/colP => a; rewrite ord1 h mxE.
split.
- split; last by move=> v /colP /(_ 0); rewrite eP mxE; exact: v0.
  split; first by apply/matrixP => i j; rewrite mxE !eK eq_sym.
  move=> v hv vn.
  have e : v (inord 1) 0 = - v 0 0.
    move/colP: hv => /(_ 0); rewrite !mxE big_ord_recl big_ord1 !mxE !mul1r => /eqP.
    by rewrite addrC addr_eq0 => /eqP <-; congr (v _ _); apply: val_inj; rewrite /= inordK.
  have on : lift 0 0 = inord 1 :> 'I_(1 + 1) by apply: val_inj; rewrite /= inordK.
  have qE : qform (cov_same c x) v = 2%:R * v 0 0 ^+ 2.
    rewrite /qform /bilin !mxE big_ord_recl big_ord1 !mxE !big_ord_recl !big_ord0 [v^T _ _]mxE [v^T _ _]mxE.
    have k00 : cov_same c x ord0 ord0 = 0 by rewrite eK.
    have k11 : cov_same c x (inord 1) (inord 1) = 0 by rewrite eK eqxx.
    have k01 : cov_same c x ord0 (inord 1) = -1 by rewrite eK -val_eqE /= inordK.
    have k10 : cov_same c x (inord 1) ord0 = -1 by rewrite eK -val_eqE /= inordK.
    rewrite on k00 k01 k10 k11 e -[ord0]/(0 : 'I_(1 + 1)).
    by move: (v 0 0) => t; clear; ring.
  rewrite qE mulr_gt0 ?ltr0n // lt_def sqr_ge0 andbT sqrf_eq0; apply: contra vn => /eqP h.
  apply/eqP/colP => i; rewrite [RHS]mxE; have [->//|i0] := eqVneq i 0.
  have -> : i = inord 1 by apply: val_inj; rewrite /= inordK //; case: i i0 => -[|[|//]].
  by rewrite e h oppr0.
- case=> _ /(_ (delta_mx 0 0)); rewrite qform_delta eK eqxx ltxx => h.
  suff /h : (delta_mx 0 0 : 'cV[R]_(1 + 1)) != 0 by [].
  by apply/eqP => /colP /(_ 0) /eqP; rewrite !mxE !eqxx oner_eq0.
- move=> i v h; apply: v0; have [e|e] := eqVneq i 0; last by rewrite -(eP v 0); apply: h; rewrite eq_sym.
  by rewrite -(eP v (inord 1)); apply: h; rewrite e -val_eqE /= inordK.
Qed.
End Case.
Print Assumptions C120_case.
