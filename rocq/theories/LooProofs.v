(* LooProofs.v: leave-one-out formulas against explicit refitting (C28, C29). *)
From mathcomp Require Import all_ssreflect all_algebra ring.
From Verif Require Import LinAlg KrigModel CholProofs LinQR KrigProofs KrigProofs2 KrigProofs3.
Set Implicit Arguments.
Unset Strict Implicit.
Unset Printing Implicit Defensive.
Import Order.TTheory GRing.Theory Num.Theory.
Local Open Scope ring_scope.

Section Loo.
Variable R : rcfType.

(* --- specification vocabulary: the problem with observation i removed --- *)
Definition K_wo n (i : 'I_n) (K : 'M[R]_n) : 'M[R]_n.-1 := row' i (col' i K).
Definition Kx_wo n (i : 'I_n) (K : 'M[R]_n) : 'cV[R]_n.-1 := row' i (col i K).
Definition z_wo n (i : 'I_n) (z : 'cV[R]_n) : 'cV[R]_n.-1 := row' i z.
Definition P_wo n q (i : 'I_n) (P : 'M[R]_(n, q)) : 'M[R]_(n.-1, q) := row' i P.
Definition tt_of n (i : 'I_n) (K : 'M[R]_n) : prior_tt R 1 := PriorTT (K i i)%:M (K i i)%:M.

(* --- selection matrix --- *)
Definition sel n (i : 'I_n) : 'M[R]_(n, n.-1) := \matrix_(k, j) (k == lift i j)%:R.

Lemma sel_row n p (i : 'I_n) (A : 'M[R]_(n, p)) : (sel i)^T *m A = row' i A.
Proof.
apply/matrixP => a b; rewrite !mxE (bigD1 (lift i a)) //= !mxE eqxx mul1r big1 ?addr0 // => k ka.
by rewrite !mxE (negbTE ka) mul0r.
Qed.
Lemma sel_col n p (i : 'I_n) (A : 'M[R]_(p, n)) : A *m sel i = col' i A.
Proof. by apply: trmx_inj; rewrite trmx_mul sel_row; apply/matrixP => a b; rewrite !mxE. Qed.
Lemma sel_wo n (i : 'I_n) (K : 'M[R]_n) : (sel i)^T *m K *m sel i = K_wo i K.
Proof. by rewrite sel_row sel_col; apply/matrixP => a b; rewrite !mxE. Qed.
Lemma sel_sel n (i : 'I_n) : (sel i)^T *m sel i = 1%:M.
Proof. by rewrite sel_row; apply/matrixP => a b; rewrite !mxE (inj_eq lift_inj). Qed.
Lemma sel_rank n (i : 'I_n) : full_col_rank (sel i).
Proof. exact: orth_full_rank (sel_sel i). Qed.
(* embedding back a vector that vanishes at i *)
Lemma sel_embed n (i : 'I_n) (w : 'cV[R]_n) : w i 0 = 0 -> sel i *m row' i w = w.
Proof.
move=> wi; apply/colP => k; rewrite !mxE.
have [j ->|->] := unliftP i k.
  rewrite (bigD1 j) //= !mxE eqxx mul1r big1 ?addr0 // => l lj.
  by rewrite !mxE (inj_eq lift_inj) eq_sym (negbTE lj) mul0r.
by rewrite wi big1 // => l _; rewrite !mxE eq_liftF mul0r.
Qed.

Lemma pd_wo n (i : 'I_n) (K : 'M[R]_n) : pos_def K -> pos_def (K_wo i K).
Proof. by move=> pK; rewrite -sel_wo; apply: pd_congr; [|exact: sel_rank]. Qed.

Lemma row'_delta n (i : 'I_n) : row' i (delta_mx i 0 : 'cV[R]_n) = 0.
Proof. by apply/colP => j; rewrite !mxE eq_sym eq_liftF. Qed.

Lemma sym_entry n (K : 'M[R]_n) a b : symmetric K -> K a b = K b a.
Proof. by move=> sK; rewrite -[in LHS]sK mxE. Qed.

(* --- generic leave-one-out: B is the (1,1) block of the inverse of the
       kriging system --- *)
Section Generic.
Variables (n q : nat) (K B : 'M[R]_n) (P : 'M[R]_(n, q)) (C : 'M[R]_(q, n)).
Hypothesis sK : symmetric K.
Hypothesis PB : P^T *m B = 0.
Hypothesis KB : K *m B + P *m C = 1%:M.
Variable i : 'I_n.
Hypothesis Bii : B i i != 0.

Let w : 'cV[R]_n := delta_mx i 0 - (B i i)^-1 *: col i B.

Lemma loo_wi : w i 0 = 0.
Proof. by rewrite /w !mxE !eqxx mulVf // subrr. Qed.

Lemma loo_Kw : K *m w + P *m (- (B i i)^-1 *: col i C) = col i K - (B i i)^-1 *: delta_mx i 0.
Proof.
rewrite /w mulmxBr -!scalemxAr -colE -addrA; congr (_ + _).
rewrite scaleNr -opprD -scalerDr; congr (- (_ *: _)).
by rewrite !colE !mulmxA -mulmxDl KB mul1mx.
Qed.

Lemma loo_Pw : P^T *m w = (row i P)^T.
Proof.
rewrite /w mulmxBr -scalemxAr [col i B]colE mulmxA PB mul0mx scaler0 subr0.
by rewrite -colE tr_row.
Qed.

Let lam : 'cV[R]_n.-1 := row' i w.
Let mu : 'cV[R]_q := - (B i i)^-1 *: col i C.

Lemma loo_eqs : K_wo i K *m lam + P_wo i P *m mu = Kx_wo i K /\
  (P_wo i P)^T *m lam = (row i P)^T.
Proof.
have e : sel i *m lam = w by apply: sel_embed; exact: loo_wi.
split.
  rewrite -sel_wo -!mulmxA e /P_wo -sel_row -mulmxA -mulmxDr loo_Kw mulmxBr -scalemxAr !sel_row.
  by rewrite row'_delta scaler0 subr0.
by rewrite /P_wo -sel_row trmx_mul trmxK -mulmxA e loo_Pw.
Qed.

Lemma loo_pred z : lincomb lam (z_wo i z) = z i 0 - (B i i)^-1 * (B^T *m z) i 0.
Proof.
have -> : lincomb lam (z_wo i z) = (w^T *m z) 0 0.
  rewrite -(sel_embed loo_wi) -/lam trmx_mul -mulmxA sel_row /lincomb mxE.
  by apply: eq_bigr => k _; rewrite !mxE.
rewrite /w linearB /= trmx_delta mulmxBl msubE -rowE mxE; congr (_ - _).
by rewrite linearZ /= -scalemxAl tr_col -row_mul !mxE.
Qed.

Lemma loo_var : lincomb lam (Kx_wo i K) + lincomb mu (row i P)^T = K i i - (B i i)^-1.
Proof.
have -> : lincomb lam (Kx_wo i K) = (w^T *m col i K) 0 0.
  rewrite -(sel_embed loo_wi) -/lam trmx_mul -mulmxA sel_row /lincomb mxE.
  by apply: eq_bigr => k _; rewrite !mxE.
have -> : lincomb mu (row i P)^T = (P *m mu) i 0.
  by rewrite mxE; apply: eq_bigr => k _; rewrite !mxE mulrC.
have -> : (w^T *m col i K) 0 0 = (K *m w) i 0.
  rewrite !mxE; apply: eq_bigr => k _; rewrite !mxE mulrC; congr (_ * _).
  exact: sym_entry.
by rewrite -maddE loo_Kw !mxE !eqxx mulr1.
Qed.
End Generic.


(* --- zero mean --- *)
Lemma loo_zero n (K : 'M[R]_n) zi : pos_def K ->
  exists zl s2 e, loo_zero_mean K zi = Ok (zl, s2, e) /\
  forall i : 'I_n, exists lam v,
  [/\ kriging_predictor_with_zero_mean (K_wo i K) (Kx_wo i K) (tt_of i K) 0 = Ok (lam, PVVar v),
      zl i 0 = lincomb lam (z_wo i zi), s2 i 0 = v 0 0 & e i 0 = zi i 0 - zl i 0].
Proof.
move=> pK; have uK := pd_unit pK; have sK := pd_sym pK; have pI := pd_inv pK.
set B := invmx K.
have [L cL eL] := cholesky_solve_ok zi pK.
rewrite /loo_zero_mean eL /=; do 3 eexists; split=> [//|i].
have cE (F : 'I_n -> R) : (\col_k F k) i 0 = F i by rewrite mxE.
have Bp : B i i != 0 by rewrite gt_eqF // (pd_diag_gt0 _ pI).
rewrite krig_zero_ok; last exact: pd_wo.
pose P : 'M[R]_(n, 0) := 0; pose C : 'M[R]_(0, n) := 0.
have KB : K *m B + P *m C = 1%:M by rewrite mulmxV // mul0mx addr0.
have PB : P^T *m B = 0 by apply/matrixP => -[].
have z0 (u v : 'cV[R]_0) : lincomb u v = 0 by rewrite /lincomb big_ord0.
have [e1 _] := loo_eqs PB KB Bp.
have e2 := loo_pred Bp; have e3 := loo_var sK KB Bp.
set lam := row' i _ in e1 e2 e3.
have el : zm_lambda (K_wo i K) (Kx_wo i K) = lam.
  rewrite -e1 (_ : P_wo i P = 0) ?mul0mx ?addr0; last by apply/matrixP => ? -[].
  by rewrite /zm_lambda mulKmx // pd_unit //; exact: pd_wo.
exists lam; rewrite el; eexists; split; first by [].
- by rewrite e2 msubE cE (diag_Kinv_ok cL) -/B mulrC (pI.1 : B^T = B).
- rewrite z0 addr0 in e3.
  rewrite cE (diag_Kinv_ok cL) rsubE einsum_iiE -/B div1r [(_%:M) 0 0]mxE eqxx mulr1n.
  rewrite [(lam^T *m _) 0 0]mxE; move: e3; rewrite /lincomb => e3.
  have -> : \sum_j lam^T 0 j * Kx_wo i K j 0 = \sum_k lam k 0 * Kx_wo i K k 0.
    by apply: eq_bigr => k _; rewrite mxE.
  by rewrite e3 opprB addrC subrK.
- by rewrite msubE opprB addrC subrK.
Qed.

(* --- linear mean --- *)
Section Linear.
Variables (n q : nat) (K B : 'M[R]_n) (P : 'M[R]_(n, q)) (C : 'M[R]_(q, n)).
Hypothesis cK : cond_pos_def K P.
Hypothesis sB : symmetric B.
Hypothesis PB : P^T *m B = 0.
Hypothesis KB : K *m B + P *m C = 1%:M.

Lemma cpd_wo i : full_col_rank (P_wo i P) -> cond_pos_def (K_wo i K) (P_wo i P).
Proof.
move=> _; split; first by apply/matrixP => a b; rewrite !mxE; exact: sym_entry cK.1.
move=> x Px xn0; rewrite -sel_wo -qform_mul; apply: cK.2.
  by rewrite -[RHS]Px /P_wo -sel_row trmx_mul trmxK mulmxA.
by apply: contra xn0 => /eqP h; apply/eqP; exact: (sel_rank (i := i)).
Qed.

Lemma BKB : B *m K *m B = B.
Proof.
have BP : B *m P = 0 by apply: trmx_inj; rewrite trmx_mul sB PB trmx0.
by rewrite -[RHS]mulmx1 -KB mulmxDr !mulmxA BP mul0mx addr0.
Qed.

Lemma B_diag_pos i : full_col_rank (P_wo i P) -> 0 < B i i.
Proof.
move=> fP; have eB : B i i = qform K (col i B).
  by rewrite -[in LHS]BKB -qform_delta colE qform_mul sB.
rewrite eB; apply: cK.2.
  by rewrite colE mulmxA PB mul0mx.
apply/eqP => Bi.
have h : delta_mx i 0 = P *m col i C :> 'cV[R]_n.
  by rewrite [col i C]colE mulmxA -[P *m C](addKr (K *m B)) KB mulmxDl mul1mx mulNmx -mulmxA -colE Bi mulmx0 oppr0 add0r.
have b0 : col i C = 0.
  apply: fP; rewrite /P_wo -sel_row -mulmxA -h sel_row; exact: row'_delta.
move: h; rewrite b0 mulmx0 => /colP/(_ i); rewrite !mxE !eqxx => /eqP.
by rewrite oner_eq0.
Qed.

(* the fast formulas computed from B *)
Lemma loo_linear_generic (zi : 'cV[R]_n) (i : 'I_n) : full_col_rank (P_wo i P) ->
  exists lam v,
  [/\ kriging_predictor_block (K_wo i K) (P_wo i P) (Kx_wo i K) (row i P) (tt_of i K) 0
        = Ok (lam, PVVar v),
      zi i 0 - (B *m zi) i 0 / B i i = lincomb lam (z_wo i zi) & 1 / B i i = v 0 0].
Proof.
move=> fP; have Bp := B_diag_pos fP; have Bn : B i i != 0 by rewrite gt_eqF.
have u := uk_lhs_unit (cpd_wo fP) fP.
have [e1 e1'] := loo_eqs PB KB Bn.
have e2 := loo_pred Bn; have e3 := loo_var cK.1 KB Bn.
set lam := row' i _ in e1 e1' e2 e3; set mu := - _ *: _ in e1 e3.
have [el em] := uk_uniq u e1 e1'.
rewrite krig_block_ok0 //; exists lam; rewrite -el; eexists; split; first by [].
  by rewrite e2 sB mulrC.
rewrite rsubE uk_einsum -el -em !mxE mulr1n div1r.
have -> : lincomb (col 0 lam) (col 0 (Kx_wo i K)) + lincomb (col 0 mu) (row 0 (row i P))^T = K i i - (B i i)^-1.
  rewrite -e3; congr (_ + _); apply: eq_bigr => k _; by rewrite !mxE.
by rewrite opprB addrC subrK.
Qed.
End Linear.

(* the two formulas compute the same B *)
Lemma spd_B n q (K : 'M[R]_n) (P : 'M[R]_(n, q)) : pos_def K -> full_col_rank P ->
  let Ki := invmx K in
  let C := invmx (P^T *m (Ki *m P)) *m (Ki *m P)^T in
  let B := Ki - Ki *m P *m C in
  [/\ P^T *m (Ki *m P) \in unitmx, symmetric B, P^T *m B = 0 & K *m B + P *m C = 1%:M].
Proof.
move=> pK fP Ki C B; have uK := pd_unit pK; have [sI pI] := pd_inv pK.
have sI' : Ki^T = Ki := sI.
have pS : pos_def (P^T *m (Ki *m P)) by rewrite mulmxA; exact: pd_congr.
have uS := pd_unit pS.
split=> //.
- rewrite /symmetric /B linearB /= sI'; congr (_ - _).
  rewrite /C !trmx_mul !trmxK sI' trmx_inv (pd_sym pS) -!mulmxA; congr (_ *m (_ *m _)).
- rewrite /B mulmxBr !mulmxA -(mulmxA P^T) /C -mulmxA; rewrite mulKVmx //.
  by rewrite trmx_mul sI' subrr.
by rewrite /B mulmxBr mulmxV // !mulmxA mulmxV // mul1mx subrK.
Qed.

Lemma loo_spd n q (K : 'M[R]_n) (P : 'M[R]_(n, q)) zi : pos_def K -> full_col_rank P ->
  exists zl s2 e, loo_linear_spd K P zi = Ok (zl, s2, e) /\
  forall i : 'I_n, full_col_rank (P_wo i P) -> exists lam v,
  [/\ kriging_predictor_block (K_wo i K) (P_wo i P) (Kx_wo i K) (row i P) (tt_of i K) 0
        = Ok (lam, PVVar v),
      zl i 0 = lincomb lam (z_wo i zi), s2 i 0 = v 0 0 & e i 0 = zi i 0 - zl i 0].
Proof.
move=> pK fP; have [uS sB PB KB] := spd_B pK fP.
rewrite /loo_linear_spd /inv (pd_unit pK) /= /solve uS /=.
do 3 eexists; split=> [//|i fPi].
have [lam [v [E1 E2 E3]]] := loo_linear_generic (pd_cpd P pK) sB PB KB zi fPi.
have cE (F : 'I_n -> R) : (\col_k F k) i 0 = F i by rewrite mxE.
by exists lam, v; split=> //; rewrite -?E2 -?E3 ?msubE ?cE ?subKr // -msubE.
Qed.

Section CPD.
Variables (q r : nat) (qr : qr_fun R q r) (K : 'M[R]_(q + r)) (P : 'M[R]_(q + r, q)).
Hypothesis qrP : is_qr P (qr P).
Hypothesis cK : cond_pos_def K P.
Hypothesis fP : full_col_rank P.
Let W := rsubmx (qr P).1.
Let G := W^T *m (K *m W).
Let B := W *m (invmx G *m W^T).

Lemma G_pd : pos_def G.
Proof.
have [eP QQ WW QW QQW] := qr_blocks qrP; rewrite -/W in WW QW QQW.
rewrite /G mulmxA; split; first by rewrite /symmetric !trmx_mul trmxK cK.1 mulmxA.
move=> x xn0; rewrite -qform_mul; apply: cK.2.
  by rewrite {1}eP trmx_mul -mulmxA [_ *m (W *m x)]mulmxA QW mul0mx mulmx0.
by apply: contra xn0 => /eqP h; apply/eqP; exact: (orth_full_rank WW).
Qed.

Lemma cpd_B : exists C : 'M[R]_(q, q + r),
  [/\ symmetric B, P^T *m B = 0 & K *m B + P *m C = 1%:M].
Proof.
have [eP QQ WW QW QQW] := qr_blocks qrP; rewrite -/W in WW QW QQW.
have uR := qr_Rq_unit qrP fP.
set Q1 := lsubmx _ in eP QQ QW QQW; set Rq := usubmx _ in eP uR.
have pG := G_pd; have uG := pd_unit pG.
exists (invmx Rq *m (Q1^T *m (1%:M - K *m B))); split.
- by rewrite /symmetric /B !trmx_mul trmxK trmx_inv (pd_sym pG) mulmxA.
- by rewrite /B eP trmx_mul -mulmxA [Q1^T *m _]mulmxA QW mul0mx mulmx0.
have -> : P *m (invmx Rq *m (Q1^T *m (1%:M - K *m B))) = 1%:M - K *m B.
  rewrite eP -mulmxA mulKVmx //.
  have h : W^T *m (1%:M - K *m B) = 0.
    by rewrite mulmxBr mulmx1 /B (mulmxA K) (mulmxA W^T) -/G mulKVmx // subrr.
  by move: h; set X := 1%:M - K *m B => h; rewrite -[RHS]mul1mx -QQW mulmxDl -!mulmxA h mulmx0 addr0.
by rewrite addrC subrK.
Qed.

Lemma loo_cpd zi :
  exists zl s2 e, loo_linear_cpd qr K P zi = Ok (zl, s2, e) /\
  forall i : 'I_(q + r), full_col_rank (P_wo i P) -> exists lam v,
  [/\ kriging_predictor_block (K_wo i K) (P_wo i P) (Kx_wo i K) (row i P) (tt_of i K) 0
        = Ok (lam, PVVar v),
      zl i 0 = lincomb lam (z_wo i zi), s2 i 0 = v 0 0 & e i 0 = zi i 0 - zl i 0].
Proof.
have [C [sB PB KB]] := cpd_B; rewrite /loo_linear_cpd.
case E: (qr P) => [Q Rm]; have eW : rsubmx Q = W by rewrite /W E.
rewrite eW -/G; have [L _ -> /=] := cholesky_solve_ok W^T G_pd.
do 3 eexists; split=> [//|i fPi].
have [lam [v [E1 E2 E3]]] := loo_linear_generic cK sB PB KB zi fPi.
have dB : \sum_j W i j * (invmx G *m W^T)^T i j = B i i.
  by rewrite /B mxE; apply: eq_bigr => k _; congr (_ * _); rewrite mxE.
have zB : W *m (invmx G *m W^T *m zi) = B *m zi by rewrite /B !mulmxA.
have cE (F : 'I_(q + r) -> R) : (\col_k F k) i 0 = F i by rewrite mxE.
by exists lam, v; split=> //; rewrite -?E2 -?E3 ?msubE ?zB ?cE ?dB ?subKr.
Qed.

(* both implementations agree whenever both apply *)
Lemma cpd_spd_agree zi : pos_def K ->
  loo_linear_cpd qr K P zi = loo_linear_spd K P zi.
Proof.
move=> pK; have [C [sB PB KB]] := cpd_B; have [uS sB' PB' KB'] := spd_B pK fP.
set B' := invmx K - _ in sB' PB' KB'.
have eB : B = B'.
  have u := uk_lhs_unit (pd_cpd P pK) fP.
  have tz : P^T *m B = (0 : 'M[R]_(q + r, q))^T by rewrite trmx0.
  have tz' : P^T *m B' = (0 : 'M[R]_(q + r, q))^T by rewrite trmx0.
  by have [-> _] := uk_uniq u KB tz; have [<- _] := uk_uniq u KB' tz'.
rewrite /loo_linear_spd /inv (pd_unit pK) /= /solve uS /= -/B' -eB.
rewrite /loo_linear_cpd; case E: (qr P) => [Q Rm]; have eW : rsubmx Q = W by rewrite /W E.
rewrite eW -/G; have [L _ -> /=] := cholesky_solve_ok W^T G_pd.
have dB i : \sum_j W i j * (invmx G *m W^T)^T i j = B i i.
  by rewrite /B mxE; apply: eq_bigr => k _; congr (_ * _); rewrite mxE.
have zB : W *m (invmx G *m W^T *m zi) = B *m zi by rewrite /B !mulmxA.
have cE (F : 'I_(q + r) -> R) i : (\col_k F k) i 0 = F i by rewrite mxE.
rewrite zB; congr (Ok (_, _, _)).
- by congr (_ - _); apply/colP => i; rewrite !cE dB.
- by apply/colP => i; rewrite !cE dB.
- by apply/colP => i; rewrite !cE dB.
Qed.
End CPD.

(* --- explicit refit with the covariance callable: data without point i,
       target the point i --- *)
Section Points.
Variables (X : Type) (c : kernel R X).
Definition x_wo n (i : 'I_n) (x : 'I_n -> X) : 'I_n.-1 -> X := fun j => x (lift i j).
Definition x_at n (i : 'I_n) (x : 'I_n -> X) : 'I_1 -> X := fun _ => x i.

Lemma K_wo_pts n (i : 'I_n) x : K_wo i (cov_same c x) = cov_same c (x_wo i x).
Proof. by apply/matrixP => a b; rewrite !mxE (inj_eq lift_inj). Qed.
Lemma Kx_wo_pts n (i : 'I_n) x : Kx_wo i (cov_same c x) = cov_cross c (x_wo i x) (x_at i x).
Proof. by apply/matrixP => a b; rewrite !mxE eq_sym eq_liftF mulr0n addr0. Qed.

Lemma loo_zero_refit n (x : 'I_n -> X) zi (qr : qr_fun R 0 n.-1) ss :
  pos_def (cov_same c x) ->
  exists zl s2 e, loo_zero_mean (cov_same c x) zi = Ok (zl, s2, e) /\
  forall i : 'I_n, exists mu v lam,
  [/\ predict qr ss (MZero R 0 n.-1 1) (cov_same c (x_wo i x)) (cov_cross c (x_wo i x) (x_at i x))
        (cov_tt c (x_at i x)) (z_wo i zi) false = Ok (mu, v, lam),
      zl i 0 = mu 0 0, s2 i 0 = v 0 0 + knug c & e i 0 = zi i 0 - mu 0 0].
Proof.
move=> pK; have [zl [s2 [e [E H]]]] := loo_zero zi pK; exists zl, s2, e; split=> // i.
have [lam [v [E1 E2 E3 E4]]] := H i.
have pW : pos_def (cov_same c (x_wo i x)) by rewrite -K_wo_pts; exact: pd_wo.
rewrite K_wo_pts Kx_wo_pts krig_zero_ok // in E1; case: E1 => el ev.
do 3 eexists; split; [exact: (@predict_zero_ok R 0 n.-1 1) | | |].
- by rewrite addr0 E2 el einsum_iz_lincomb; congr lincomb; apply/colP => k; rewrite mxE.
- rewrite E3 -ev !rsubE /= ![(\row__ _) 0 0]mxE [_%:M 0 0]mxE eqxx mulr1n.
  rewrite [cov_same c x i i]mxE [(_%:M) i i]mxE eqxx mulr1n [kmx _ _ _ _ _]mxE.
  by rewrite /x_at addrAC.
- rewrite E4 E2 el addr0 einsum_iz_lincomb; congr (_ - lincomb _ _); by apply/colP => k; rewrite mxE.
Qed.
End Points.

(* parameterised mean: same as zero mean on centred data *)
Lemma loo_param n (K : 'M[R]_n) mi zi : pos_def K ->
  exists zl s2 e, loo_parameterized_mean K mi zi = Ok (zl, s2, e) /\
  forall i : 'I_n, exists lam v,
  [/\ kriging_predictor_with_zero_mean (K_wo i K) (Kx_wo i K) (tt_of i K) 0 = Ok (lam, PVVar v),
      zl i 0 = mi i 0 + lincomb lam (z_wo i zi - z_wo i mi), s2 i 0 = v 0 0
    & e i 0 = zi i 0 - zl i 0].
Proof.
move=> pK; have [zl [s2 [e [E H]]]] := loo_zero (zi - mi) pK.
rewrite /loo_parameterized_mean E /=; do 3 eexists; split=> // i.
have [lam [v [E1 E2 E3 E4]]] := H i; exists lam, v; split=> //.
  rewrite maddE addrC E2; congr (_ + lincomb _ _); by apply/colP => k; rewrite !mxE.
by rewrite E4 (msubE zi mi) (maddE zl mi); gring.
Qed.
End Loo.
