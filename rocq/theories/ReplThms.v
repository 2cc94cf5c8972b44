(* ReplThms.v
   Property C119: several noisy observations at the same points. *)
From Coq Require Import Reals Lra.
From mathcomp Require Import all_ssreflect all_fingroup all_algebra ring.
From Verif Require Import LinAlg KrigModel RealAux Rinst LikModel CholProofs LinQR KrigProofs KrigProofs2
  KrigProofs3 LooProofs PathProofs LikProofs OrderModel OrderProofs UpdProofs UpdThms LinkProofs LinkThms
  ReplModel ReplProofs ReplReal.
Set Implicit Arguments.
Unset Strict Implicit.
Unset Printing Implicit Defensive.
Import Order.TTheory GRing.Theory Num.Theory.
Local Open Scope ring_scope.
Local Arguments ln : clear scopes.

Section Repl.
Variables (R : rcfType) (C : Type) (q : nat).

(* The observations are taken at the points u a; observation i is at u (g i), with
   flag w i (its noise variance is tau * w i). *)
Definition repeated n n1 (u : 'I_n1 -> C) (g : 'I_n -> 'I_n1) (w : 'I_n -> R) : 'I_n -> flagged R C :=
  fun i => (u (g i), w i).
(* One observation per point: its flag and its value (the average when flags are equal). *)
Definition pooled_flag n n1 (g : 'I_n -> 'I_n1) (w : 'I_n -> R) (a : 'I_n1) : R :=
  (\sum_(i | g i == a) (w i)^-1)^-1.
Definition pooled n n1 (u : 'I_n1 -> C) (g : 'I_n -> 'I_n1) (w : 'I_n -> R) : 'I_n1 -> flagged R C :=
  fun a => (u a, pooled_flag g w a).
Definition pooled_obs n n1 (g : 'I_n -> 'I_n1) (w : 'I_n -> R) (z : 'cV[R]_n) : 'cV[R]_n1 :=
  \col_a (pooled_flag g w a * \sum_(i | g i == a) z i 0 / w i).

Definition latent (c : noisy R C) n (u : 'I_n -> C) : 'M[R]_n := \matrix_(i, j) lat c (u i) (u j).

(* The model is meaningful at the points u: a valid latent covariance (valid on the
   contrasts is enough for a linear predictor, whose trend is identified). *)
Definition proper n (mk : mean_kind R C q) (c : noisy R C) (u : 'I_n -> C) : Prop :=
  match mk with
  | KLinear p => cond_psd (latent c u) (design p u) /\ full_col_rank (design p u)
  | KParam None => False
  | _ => pos_semidef (latent c u)
  end.

(* --- points tagged by their row, to reuse the results on kernels --- *)
Definition tagk n m (c : noisy R C) : kernel R (flagged R C * ('I_n + 'I_m)) :=
  Kernel (fun a b => lat c a.1.1 b.1.1 + (if a.2 == b.2 then tau c * a.1.2 else 0)) 0.
Definition tagmean n m (mk : mean_kind R C q) : mean_kind R (flagged R C * ('I_n + 'I_m)) q :=
  match mk with
  | KZero => KZero
  | KLinear p => KLinear (fun x => p x.1.1)
  | KParam None => KParam None
  | KParam (Some h) => KParam (Some (fun x => h x.1.1))
  end.
Definition tagx n m (x : 'I_n -> flagged R C) : 'I_n -> flagged R C * ('I_n + 'I_m) := fun i => (x i, inl i).
Definition tagt n m (x : 'I_m -> flagged R C) : 'I_m -> flagged R C * ('I_n + 'I_m) := fun i => (x i, inr i).

Lemma tag_same n m c (x : 'I_n -> flagged R C) : cov_same (tagk n m c) (tagx m x) = ncov_same c x.
Proof.
apply/matrixP => i j; rewrite [LHS]mxE [RHS]mxE [X in X + _]mxE [X in _ + X]mxE mul0rn addr0 /=.
rewrite [X in _ = X + _]mxE; congr (_ + _); rewrite mxE [in RHS]mxE.
rewrite -[inl i == inl j]/(i == j); by case: eqP => [->|]; rewrite ?mulr1n ?mulr0n.
Qed.
Lemma tag_same_t n m c (x : 'I_m -> flagged R C) : cov_same (tagk n m c) (tagt n x) = ncov_same c x.
Proof.
apply/matrixP => i j; rewrite [LHS]mxE [RHS]mxE [X in X + _]mxE [X in _ + X]mxE mul0rn addr0 /=.
rewrite [X in _ = X + _]mxE; congr (_ + _); rewrite mxE [in RHS]mxE.
rewrite -[inr i == inr j]/(i == j); by case: eqP => [->|]; rewrite ?mulr1n ?mulr0n.
Qed.
Lemma tag_pairwise n m c (x : 'I_m -> flagged R C) :
  cov_same_pairwise (tagk n m c) (tagt n x) = ncov_pairwise c x.
Proof. by apply/rowP => i; rewrite !mxE /= eqxx. Qed.
Lemma tag_cross n m c (x : 'I_n -> flagged R C) (xt : 'I_m -> flagged R C) :
  cov_cross (tagk n m c) (tagx m x) (tagt n xt) = ncov_cross c x xt.
Proof. by apply/matrixP => i j; rewrite !mxE /= addr0. Qed.

(* basis and mean functions of the common form, on flagged points *)
Definition nrp (mk : mean_kind R C q) : flagged R C -> 'I_(rq mk) -> R := fun x => @rp R C q mk x.1.
Definition nrm (mk : mean_kind R C q) : flagged R C -> R := fun x => rm mk x.1.

Lemma npredict_rep r m (qr : qr_fun R q r) ss mk c (x : 'I_(q + r) -> flagged R C) z (xt : 'I_m -> flagged R C) neg :
  cond_pos_def (ncov_same c x) (design (@nrp mk) x) -> full_col_rank (design (@nrp mk) x) ->
  mk <> KParam None ->
  let K := ncov_same c x in let P := design (@nrp mk) x in
  let Kit := ncov_cross c x xt in let Pt := design (@nrp mk) xt in
  let lam := uk_lambda K P Kit Pt in
  let v := ncov_pairwise c xt - einsum_ii (uk_sol K P Kit Pt) (uk_rhs Kit Pt) in
  npredict_at qr ss mk c x z xt neg =
  Ok (\row_j ((lam^T *m (z - mean_col (nrm mk) x)) j 0 + nrm mk (xt j)),
      (if neg then clip0 v else v), lam).
Proof.
have E : npredict_at qr ss mk c x z xt neg =
    predict_at qr ss (tagmean (q + r) m mk) (tagk (q + r) m c) (tagx m x) z (tagt (q + r) xt) neg.
  rewrite /npredict_at /predict_at tag_same tag_cross /cov_tt tag_same_t tag_pairwise.
  by case: mk => [|p|[h|]].
rewrite {}E => cK fP nN K P Kit Pt lam v.
have := @predict_rep _ _ q r m qr ss (tagmean (q + r) m mk) (tagk (q + r) m c) (tagx m x) z (tagt (q + r) xt) neg.
rewrite tag_same tag_cross tag_pairwise.
by case: mk cK fP nN @P @Pt @lam @v => [|p|[h|]] //= cK fP _ -> .
Qed.

Lemma nloo_rep r (qr : qr_fun R q r) mk c (x : 'I_(q + r) -> flagged R C) z :
  (forall P, is_qr P (qr P)) ->
  cond_pos_def (ncov_same c x) (design (@nrp mk) x) -> full_col_rank (design (@nrp mk) x) ->
  mk <> KParam None ->
  exists B Cm, [/\ symmetric B, (design (@nrp mk) x)^T *m B = 0,
     ncov_same c x *m B + design (@nrp mk) x *m Cm = 1%:M &
     nloo_at qr mk c x z =
     Ok (\col_i (z i 0 - (B *m (z - mean_col (nrm mk) x)) i 0 / B i i), \col_i (1 / B i i),
         \col_i ((B *m (z - mean_col (nrm mk) x)) i 0 / B i i))].
Proof.
have E : nloo_at qr mk c x z =
    loo_at qr (tagmean (q + r) 0 mk) (tagk (q + r) 0 c) (tagx 0 x) z.
  by rewrite /nloo_at /loo_at tag_same; case: mk => [|p|[h|]].
rewrite {}E => hqr cK fP nN.
have := @loo_rep _ _ q r qr (tagmean (q + r) 0 mk) (tagk (q + r) 0 c) (tagx 0 x) z hqr.
rewrite tag_same.
by case: mk cK fP nN => [|p|[h|]] //= cK fP _; apply.
Qed.

Lemma pool_id (N L l1 l2 D T T1 qB s d : R) :
  ((N + d) * L + (l1 - l2 + D - T) + (qB + s)) / 2%:R =
  (N * L + (D - T1) + qB) / 2%:R + (d * L + (l1 - l2) + s) / 2%:R + (T1 - T) / 2%:R.
Proof. by ring. Qed.
Lemma qform_diag n (d : 'rV[R]_n) (v : 'cV[R]_n) : qform (diag_mx d) v = \sum_i d 0 i * v i 0 ^+ 2.
Proof.
rewrite /qform /bilin -mulmxA mul_diag_mx mxE; apply: eq_bigr => k _.
by rewrite !mxE mulrCA -expr2.
Qed.

(* --- the pooled problem in matrix form --- *)
Section Mat.
Variables (n n1 : nat) (u : 'I_n1 -> C) (g : 'I_n -> 'I_n1) (w : 'I_n -> R) (c : noisy R C).
Hypothesis gs : forall a, exists i, g i = a.
Hypothesis wp : forall i, 0 < w i.
Hypothesis tp : 0 < tau c.
Let G : 'M[R]_(n, n1) := (sel R g)^T.
Let D : 'M[R]_n := diag_mx (\row_i (tau c * w i)).
Let T : 'M[R]_n1 := diag_mx (\row_a (tau c * pooled_flag g w a)).

Lemma GE i a : G i a = (g i == a)%:R.
Proof. by rewrite mxE mxE eq_sym. Qed.

Lemma pf_sum a : 0 < \sum_(i | g i == a) (w i)^-1.
Proof.
have [i ia] := gs a; rewrite (bigD1 i) ?ia //=.
by apply: ltr_paddr; [apply: sumr_ge0 => j _; rewrite invr_ge0 ltW | rewrite invr_gt0].
Qed.
Lemma pf_pos a : 0 < pooled_flag g w a.
Proof. by rewrite /pooled_flag invr_gt0 pf_sum. Qed.

Lemma diag_pd k (d : 'rV[R]_k) : (forall i, 0 < d 0 i) -> pos_def (diag_mx d).
Proof.
move=> dp; split; first by rewrite /symmetric tr_diag_mx.
move=> v vn; have qE : qform (diag_mx d) v = \sum_i d 0 i * v i 0 ^+ 2.
  rewrite /qform /bilin -mulmxA mul_diag_mx mxE; apply: eq_bigr => i _.
  by rewrite !mxE mulrCA expr2.
have [i vi] : exists i, v i 0 != 0.
  apply/existsP; apply: contraT; rewrite negb_exists => /forallP h.
  by case/eqP: vn; apply/colP => i; rewrite mxE; have := h i; rewrite negbK => /eqP.
rewrite qE (bigD1 i) //=; apply: ltr_paddr.
  by apply: sumr_ge0 => j _; rewrite mulr_ge0 ?sqr_ge0 // ltW.
by rewrite mulr_gt0 // lt_neqAle sqr_ge0 andbT eq_sym sqrf_eq0.
Qed.
Lemma diag_inv k (d : 'rV[R]_k) : (forall i, d 0 i != 0) -> invmx (diag_mx d) = diag_mx (\row_i (d 0 i)^-1).
Proof.
move=> dn; have e : diag_mx d *m diag_mx (\row_i (d 0 i)^-1) = 1%:M.
  rewrite mulmx_diag; apply/matrixP => i j; rewrite !mxE.
  by case: eqP => // _; rewrite mulfV.
by rewrite -[LHS]mulmx1 -e mulKmx //; have [] := mulmx1_unit e.
Qed.

Lemma D_pd : pos_def D. Proof. by apply: diag_pd => i; rewrite mxE mulr_gt0. Qed.
Lemma T_pd : pos_def T. Proof. by apply: diag_pd => i; rewrite mxE mulr_gt0 ?pf_pos. Qed.
Lemma D_inv : invmx D = diag_mx (\row_i (tau c * w i)^-1).
Proof. by rewrite diag_inv => [|i]; [congr diag_mx; apply/rowP => i; rewrite !mxE | rewrite mxE gt_eqF ?mulr_gt0]. Qed.

Lemma S_E : G^T *m invmx D *m G = diag_mx (\row_a (tau c * pooled_flag g w a)^-1).
Proof.
rewrite D_inv -mulmxA mul_diag_mx; apply/matrixP => a b; rewrite mxE [RHS]mxE.
under eq_bigr => i _ do rewrite [G^T _ _]mxE [X in _ * X]mxE [X in _ * (X * _)]mxE !GE.
case: (a =P b) => [<-|nab]; last first.
  rewrite mulr0n; apply: big1 => i _; case: eqP => [ia|]; last by rewrite mul0r.
  by case: eqP => [ib|]; rewrite ?mulr0 //; case: nab; rewrite -ia -ib.
rewrite mulr1n mxE (bigID (fun i => g i == a)) /= [X in _ + X]big1 ?addr0; last first.
  by move=> i /negbTE ->; rewrite mul0r.
rewrite invfM /pooled_flag invrK mulr_sumr; apply: eq_bigr => i ->.
by rewrite mul1r mulr1 invfM.
Qed.
Lemma T_S : T *m (G^T *m invmx D *m G) = 1%:M.
Proof.
rewrite S_E mulmx_diag; apply/matrixP => a b; rewrite !mxE.
by case: eqP => // _; rewrite mulfV // gt_eqF // mulr_gt0 ?pf_pos.
Qed.
Lemma G_full : full_col_rank G.
Proof.
move=> v /colP h; apply/colP => a; have [i ia] := gs a; have := h i.
rewrite mxE (bigD1 a) //= GE ia eqxx mul1r big1 => [|b nb].
  by rewrite addr0 => ->; rewrite !mxE.
by rewrite GE ia eq_sym (negbTE nb) mul0r.
Qed.

Lemma sel_rows k (A : 'M[R]_(n1, k)) : G *m A = \matrix_(i, j) A (g i) j.
Proof. by rewrite /G -rows_ofE. Qed.

Lemma K_rep : ncov_same c (repeated u g w) = G *m latent c u *m G^T + D.
Proof.
congr (_ + _); rewrite /G trmxK -both_ofE.
by apply/matrixP => i j; rewrite !mxE.
Qed.
Lemma K_pool : ncov_same c (pooled u g w) = latent c u + T.
Proof. by []. Qed.
Lemma P_rep q' (p : C -> 'I_q' -> R) : design (fun x : flagged R C => p x.1) (repeated u g w) = G *m design p u.
Proof. by rewrite sel_rows; apply/matrixP => i j; rewrite !mxE. Qed.
Lemma P_pool q' (p : C -> 'I_q' -> R) : design (fun x : flagged R C => p x.1) (pooled u g w) = design p u.
Proof. by []. Qed.
Lemma Kit_rep m (xt : 'I_m -> flagged R C) :
  ncov_cross c (repeated u g w) xt = G *m ncov_cross c (pooled u g w) xt.
Proof. by rewrite sel_rows; apply/matrixP => i j; rewrite !mxE. Qed.

Lemma zbar_E (z : 'cV[R]_n) : zbar G D T z = pooled_obs g w z.
Proof.
rewrite /zbar D_inv mul_diag_mx /T mul_diag_mx; apply/colP => a; rewrite !mxE.
rewrite (bigID (fun i => g i == a)) /= [X in _ * (_ + X)]big1 ?addr0; last first.
  by move=> i /negbTE h; rewrite !mxE eq_sym h mul0r.
rewrite [tau c * _]mulrC -mulrA; congr (_ * _); rewrite mulr_sumr; apply: eq_bigr => i ia.
rewrite !mxE eq_sym ia mul1r invfM !mulrA mulfV ?gt_eqF // mul1r mulrC //.
Qed.
Lemma zbar_res (h : C -> R) (z : 'cV[R]_n) :
  zbar G D T (z - mean_col (fun x : flagged R C => h x.1) (repeated u g w)) =
  pooled_obs g w z - mean_col (fun x : flagged R C => h x.1) (pooled u g w).
Proof.
rewrite /zbar !mulmxBr -!/(zbar G D T _) zbar_E; congr (_ - _).
have -> : mean_col (fun x : flagged R C => h x.1) (repeated u g w) =
   G *m mean_col (fun x : flagged R C => h x.1) (pooled u g w).
  by rewrite sel_rows; apply/colP => i; rewrite !mxE.
move: (mean_col _ _) => y; rewrite /zbar (mulmxA (invmx D)) (mulmxA G^T) (mulmxA T) (mulmxA G^T) T_S.
by rewrite mul1mx.
Qed.
End Mat.

Lemma proper_rep n mk c (u : 'I_n -> C) : proper mk c u ->
  [/\ cond_psd (latent c u) (design (@rp R C q mk) u), full_col_rank (design (@rp R C q mk) u)
    & mk <> KParam None].
Proof.
have psd k (p : C -> 'I_k -> R) : pos_semidef (latent c u) -> cond_psd (latent c u) (design p u).
  by case=> sK pK; split.
case: mk => [|p|[h|]] //=.
- by move=> pK; split=> //; [exact: psd | move=> b _; apply/colP => -[]].
- by case.
- by move=> pK; split=> //; [exact: psd | move=> b _; apply/colP => -[]].
Qed.

(* ---- the theorems ---- *)

(* Predictions from the repeated observations are those from one pooled observation per
   point; the weight of the pooled observation is shared out in inverse proportion to the
   flags. *)
Theorem C119_predict r r1 m (qr : qr_fun R q r) (qr1 : qr_fun R q r1) ss ss1
  (mk : mean_kind R C q) (c : noisy R C) (u : 'I_(q + r1) -> C) (g : 'I_(q + r) -> 'I_(q + r1))
  (w : 'I_(q + r) -> R) (z : 'cV[R]_(q + r)) (xt : 'I_m -> flagged R C) (neg : bool) :
  (forall a, exists i, g i = a) -> (forall i, 0 < w i) -> 0 < tau c -> proper mk c u ->
  exists mu v lam lam1,
    [/\ npredict_at qr ss mk c (repeated u g w) z xt neg = Ok (mu, v, lam),
        npredict_at qr1 ss1 mk c (pooled u g w) (pooled_obs g w z) xt neg = Ok (mu, v, lam1)
      & forall i j, lam i j = lam1 (g i) j * pooled_flag g w (g i) / w i].
Proof.
move=> gs wp tp /proper_rep [cK fP nN].
have pD := D_pd wp tp; have pT := T_pd gs wp tp; have TS := T_S gs wp tp; have fG : full_col_rank (sel R g)^T by exact: G_full.
have c1 := repl_cpd (sel R g)^T pD cK; have c2 := repl_cpd1 pT cK.
have f1 := repl_rank fP fG.
have e := P_rep u g w (@rp R C q mk); rewrite -/(@nrp mk) in e.
have E1 := @npredict_rep r m qr ss mk c (repeated u g w) z xt neg.
have E2 := @npredict_rep r1 m qr1 ss1 mk c (pooled u g w) (pooled_obs g w z) xt neg.
rewrite e K_rep in E1; have {E1}E1 := E1 c1 f1 nN; have {E2}E2 := E2 c2 fP nN.
do 4 eexists; split; [exact: E1 | rewrite E2 Kit_rep |].
- congr (Ok (_, _, _)).
  + have rE (F : 'I_m -> R) j : (\row_l F l) 0 j = F j by rewrite mxE.
    apply/rowP => j; rewrite !rE; congr (_ + _); congr (_ j 0).
    rewrite -[design _ (pooled u g w)]/(design (@rp R C q mk) u) K_pool (repl_pred pD pT TS cK fP fG).
    by rewrite zbar_res.
  + case: neg {E1 E2}; [congr clip0|]; apply/rowP => j; rewrite !rsubE;
    by rewrite -[design _ (pooled u g w)]/(design (@rp R C q mk) u) K_pool (repl_var pD pT TS cK fP fG).
- move=> i j; rewrite Kit_rep (repl_sol pD pT TS cK fP fG _ _).1 (D_inv wp tp) mul_diag_mx mul_diag_mx.
  rewrite -[design _ (pooled u g w)]/(design (@rp R C q mk) u) K_pool.
  rewrite mxE sel_rows; move: (uk_lambda _ _ _ _) => L; rewrite !mxE invfM.
  have tn : tau c != 0 by rewrite gt_eqF.
  rewrite [_^-1 / _]mulrC -!mulrA mulKf // [RHS]mulrCA !mulrA.
  by rewrite -mulrA [_^-1 * _]mulrC.
Qed.

(* The leave-one-out variance of an observation that has a companion at the same point is
   between its own noise variance and the sum of the two noise variances. *)
Theorem C119_loo r (qr : qr_fun R q r) (mk : mean_kind R C q) (c : noisy R C) r1 (u : 'I_(q + r1) -> C)
  (g : 'I_(q + r) -> 'I_(q + r1)) (w : 'I_(q + r) -> R) (z : 'cV[R]_(q + r)) (i j : 'I_(q + r)) :
  (forall P, is_qr P (qr P)) ->
  (forall a, exists i, g i = a) -> (forall i, 0 < w i) -> 0 < tau c -> proper mk c u ->
  i != j -> g i = g j ->
  exists zloo s2loo eloo,
    nloo_at qr mk c (repeated u g w) z = Ok (zloo, s2loo, eloo) /\
    tau c * w i <= s2loo i 0 <= tau c * w i + tau c * w j.
Proof.
move=> hqr gs wp tp /proper_rep [cK fP nN] nij gij.
have pD := D_pd wp tp; have fG : full_col_rank (sel R g)^T by exact: G_full.
have c1 := repl_cpd (sel R g)^T pD cK.
have f1 := repl_rank fP fG.
have e := P_rep u g w (@rp R C q mk); rewrite -/(@nrp mk) in e.
have E := @nloo_rep r qr mk c (repeated u g w) z hqr.
rewrite e K_rep in E; have [B [Cm [sB PB KB {E}E]]] := E c1 f1 nN.
do 3 eexists; split; first exact: E.
rewrite mxE.
pose d : 'cV[R]_(q + r) := delta_mx i 0 - delta_mx j 0.
have rd k (A : 'M[R]_(q + r1, k)) : d^T *m ((sel R g)^T *m A) = 0.
  rewrite sel_rows /d linearB /= mulmxBl !trmx_delta -!rowE; apply/rowP => l.
  by rewrite !mxE gij subrr.
have dr : sel R g *m d = 0.
  by have := rd _ 1%:M; rewrite mulmx1 -trmx_mul => /(congr1 trmx); rewrite trmxK trmx0.
have Pd : ((sel R g)^T *m design (@rp R C q mk) u)^T *m d = 0.
  by rewrite trmx_mul trmxK -mulmxA dr mulmx0.
have di : d i 0 = 1 by rewrite !mxE eqxx (negbTE nij) subr0.
have qd : qform ((sel R g)^T *m latent c u *m ((sel R g)^T)^T + diag_mx (\row_i (tau c * w i))) d =
    tau c * w i + tau c * w j.
  rewrite /qform bilin_addm /bilin trmxK -!mulmxA dr !mulmx0 mxE add0r mul_diag_mx mxE.
  rewrite (bigD1 i) //= (bigD1 j) 1?eq_sym //= big1 ?addr0; last first.
    move=> k /andP[ki kj]; rewrite !mxE (negbTE ki) (negbTE kj) subrr mul0r //.
  rewrite !mxE !eqxx (negbTE nij) [j == i]eq_sym (negbTE nij) !subr0 sub0r mul1r mulr1.
  by rewrite /= mulN1r mulrN1 opprK.
have up := dup_upper c1 sB PB KB Pd di; rewrite qd in up.
have t0 : 0 <= tau c * w i by rewrite mulr_ge0 // ltW.
have lo : tau c * w i * B i i <= 1.
  apply: (dup_lower sB PB KB t0) => v Pv.
  rewrite /qform bilin_addm -!/(qform _ _).
  have -> : qform ((sel R g)^T *m latent c u *m ((sel R g)^T)^T) v = qform (latent c u) (sel R g *m v).
    by rewrite qform_mul trmxK.
  have h1 : 0 <= qform (latent c u) (sel R g *m v).
    by apply: cK.2; move: Pv; rewrite trmx_mul trmxK -mulmxA.
  apply: ler_paddl => //.
  have -> : qform (diag_mx (\row_i (tau c * w i))) v = \sum_k tau c * w k * v k 0 ^+ 2.
    rewrite /qform /bilin -mulmxA mul_diag_mx mxE; apply: eq_bigr => k _.
    by rewrite !mxE mulrCA -expr2.
  rewrite (bigD1 i) //=; apply: ler_paddr => //; apply: sumr_ge0 => k _.
  by rewrite mulr_ge0 ?sqr_ge0 // mulr_ge0 // ltW.
have s0 : 0 < tau c * w i + tau c * w j by rewrite addr_gt0 // mulr_gt0.
have Bp : 0 < B i i by rewrite -(pmulr_rgt0 _ s0); exact: lt_le_trans ltr01 up.
by rewrite div1r -[(B i i)^-1]mul1r ler_pdivl_mulr // lo ler_pdivr_mulr.
Qed.

(* The Matern-type covariances (same nugget everywhere): a repeated point makes the
   leave-one-out variance at most twice the nugget, for every kind of mean. *)
Theorem C119_loo_nugget X r (qr : qr_fun R q r) (mk : mean_kind R X q) (c : kernel R X)
  (x : 'I_(q + r) -> X) (z : 'cV[R]_(q + r)) (i j : 'I_(q + r)) :
  (forall P, is_qr P (qr P)) -> solvable mk c x id -> i != j -> x i = x j ->
  exists zloo s2loo eloo,
    loo_at qr mk c x z = Ok (zloo, s2loo, eloo) /\ 0 < s2loo i 0 <= 2%:R * knug c.
Proof.
move=> hqr sol nij xij; have [cK fP nN] := solvable_rep (fun _ _ e => e) sol.
have fP' : full_col_rank (design (@rp _ _ _ mk) x) by exact: sub_rank fP.
have [B [Cm [sB PB KB E]]] := loo_rep z hqr cK fP' nN.
do 3 eexists; split; first exact: E.
rewrite mxE.
pose d : 'cV[R]_(q + r) := delta_mx i 0 - delta_mx j 0.
have Pd : (design (@rp _ _ _ mk) x)^T *m d = 0.
  by rewrite /d mulmxBr -!colE; apply/colP => k; rewrite !mxE xij subrr.
have di : d i 0 = 1 by rewrite !mxE eqxx (negbTE nij) subr0.
have qd : qform (cov_same c x) d = 2%:R * knug c.
  rewrite /qform /d bilinDl !bilinDr !bilinNl !bilinNr opprK !bilin_delta !mxE !eqxx.
  rewrite [j == i]eq_sym !(negbTE nij) xij !mulr1n !mulr0n !addr0.
  by ring.
have up := dup_upper cK sB PB KB Pd di; rewrite qd in up.
have Bp : 0 < B i i.
  rewrite -(qform_col sB PB KB); apply: cK.2; first exact: col_PB.
  apply/eqP => h; have : B i i = 0 by rewrite -(qform_col sB PB KB) h qform0.
  by move=> b0; move: up; rewrite b0 mulr0 ler10.
by rewrite div1r invr_gt0 Bp -[(B i i)^-1]mul1r ler_pdivr_mulr.
Qed.
End Repl.

Section Crit.
Variables (C : Type) (q : nat).
Local Notation RR := R_rcfType.
Local Notation noisy := (noisy RR C).

(* Sum of the squared differences between the observations and the pooled ones. *)
Definition spread n n1 (g : 'I_n -> 'I_n1) (w : 'I_n -> R) (z : 'cV[R]_n) : R :=
  \sum_i (z i 0 - pooled_obs (R := RR) g w z (g i) 0) ^+ 2 / w i.
(* Log-density of the differences between the observations at the same points. *)
Definition within (t : R) n n1 (g : 'I_n -> 'I_n1) (w : 'I_n -> R) (z : 'cV[R]_n) : R :=
  ((n%:R - n1%:R) * ln (2%:R * PI)
   + (\sum_i ln (t * w i) - \sum_a ln (t * pooled_flag (R := RR) g w a))
   + spread g w z / t) / 2%:R.

Lemma ncrit_rep b r (qr : qr_fun RR q r) mk (c : noisy) (x : 'I_(q + r) -> flagged RR C) z B Cm :
  (forall P, is_qr P (qr P)) ->
  let K := ncov_same c x in let P := design (@nrp RR C q mk) x in
  cond_pos_def K P -> full_col_rank P -> mk <> KParam None ->
  P^T *m B = 0 -> K *m B + P *m Cm = 1%:M ->
  0 < (-1) ^+ rq mk * \det (uk_lhs K P) /\
  ncrit_at b qr mk c x z = Ok (Fin (((ncrit mk r)%:R * ln (2%:R * PI)
    + (ln ((-1) ^+ rq mk * \det (uk_lhs K P)) - ln (\det (P^T *m P)))
    + qform B (z - mean_col (nrm mk) x)) / 2%:R)).
Proof.
have E : ncrit_at b qr mk c x z =
    crit_at b qr (tagmean (q + r) 0 mk) (tagk (q + r) 0 c) (tagx 0 x) z.
  by rewrite /ncrit_at /crit_at tag_same; case: (mk) => [|p|[h|]].
rewrite {}E => hqr K P cK fP nN PB KB.
have := @crit_rep _ q b r qr (tagmean (q + r) 0 mk) (tagk (q + r) 0 c) (tagx 0 x) z B.
rewrite tag_same.
case: mk Cm nN @P cK fP PB KB => [|p|[h|]] //= Cm _ cK fP PB KB h0;
  exact: (h0 Cm hqr cK fP _ PB KB).
Qed.

Lemma ln_prod (I : finType) (F : I -> R) : (forall i, 0 < F i :> RR) ->
  0 < \prod_i F i :> RR /\ ln (\prod_i F i) = \sum_i ln (F i).
Proof.
move=> Fp; elim/big_rec2: _ => [|i y1 y2 _ [h1 h2]]; first by split; [exact: ltr01 | exact: ln_1].
split; first exact: mulr_gt0.
by rewrite lnM // h2.
Qed.

(* The criterion of the repeated observations is that of the pooled ones plus the
   log-density of the differences at the same points, which involves neither the
   latent covariance nor the mean. *)
Theorem C119_criterion b b1 r r1 (qr : qr_fun RR q r) (qr1 : qr_fun RR q r1)
  (mk : mean_kind RR C q) (c : noisy) (u : 'I_(q + r1) -> C) (g : 'I_(q + r) -> 'I_(q + r1))
  (w : 'I_(q + r) -> R) (z : 'cV[R]_(q + r)) :
  (forall P, is_qr P (qr P)) -> (forall P, is_qr P (qr1 P)) ->
  (forall a, exists i, g i = a) -> (forall i, 0 < w i :> RR) -> 0 < tau c -> proper mk c u ->
  exists a a1,
    [/\ ncrit_at b qr mk c (repeated u g w) z = Ok (Fin a),
        ncrit_at b1 qr1 mk c (pooled u g w) (pooled_obs (R := RR) g w z) = Ok (Fin a1)
      & a = a1 + within (tau c) g w z + trend_term mk (fun i => u (g i)) u].
Proof.
move=> hqr hqr1 gs wp tp /proper_rep [cK fP nN].
have pD := D_pd wp tp; have pT := T_pd gs wp tp; have TS := T_S gs wp tp.
have fG : full_col_rank (sel RR g)^T by exact: G_full.
have c1 := repl_cpd (sel RR g)^T pD cK; have c2 := repl_cpd1 pT cK.
have f1 := repl_rank fP fG.
have e := P_rep u g w (@rp RR C q mk); rewrite -/(@nrp _ _ _ mk) in e.
have E1 := @nloo_rep _ _ q r qr mk c (repeated u g w) z hqr.
have E2 := @nloo_rep _ _ q r1 qr1 mk c (pooled u g w) (pooled_obs g w z) hqr1.
rewrite e K_rep in E1; have [B [Cm [sB PB KB {E1}_]]] := E1 c1 f1 nN.
have [B1 [Cm1 [sB1 PB1 KB1 {E2}_]]] := E2 c2 fP nN.
have F1 := @ncrit_rep b r qr mk c (repeated u g w) z B Cm hqr.
have F2 := @ncrit_rep b1 r1 qr1 mk c (pooled u g w) (pooled_obs g w z) B1 Cm1 hqr1.
rewrite e K_rep in F1; have [D1 {}F1] := F1 c1 f1 nN PB KB; have [D2 {}F2] := F2 c2 fP nN PB1 KB1.
do 2 eexists; split; [exact: F1 | exact: F2 |]; clear F1 F2.
set dy := z - mean_col (nrm mk) (repeated u g w).
have Q := repl_quad pD TS cK fP fG dy PB KB PB1 KB1.
rewrite zbar_res // in Q.
have rs : qform (invmx (diag_mx (\row_i (tau c * w i)))) (dy - (sel RR g)^T *m (pooled_obs g w z - mean_col (nrm mk) (pooled u g w))) =
    spread g w z / tau c.
  have -> : dy - (sel RR g)^T *m (pooled_obs g w z - mean_col (nrm mk) (pooled u g w)) =
      \col_i (z i 0 - pooled_obs (R := RR) g w z (g i) 0).
    rewrite sel_rows; move: (pooled_obs g w z) => zb; apply/colP => i; rewrite !mxE.
    by rewrite opprB addrA subrK.
  rewrite D_inv // qform_diag /spread mulr_suml; apply: eq_bigr => i _.
  rewrite [X in X * _]mxE [X in _ * X ^+ 2]mxE invfM.
  by move: (_ ^+ 2) => v; rewrite mulrC [X in v * X]mulrC mulrA.
rewrite rs in Q.
have dt := repl_det (latent c u) (design (@rp RR C q mk) u) pD TS.
have dE k (F : 'I_k -> RR) : \det (diag_mx (\row_i F i)) = \prod_i F i.
  by rewrite det_diag; apply: eq_bigr => i _; rewrite mxE.
rewrite S_E // !dE in dt.
have [pp1 l1] := @ln_prod _ (fun i => tau c * w i) (fun i => mulr_gt0 tp (wp i)).
have [pp2 l2] := @ln_prod _ (fun a => (tau c * pooled_flag (R := RR) g w a)^-1)
  (fun a => etrans (invr_gt0 _) (mulr_gt0 tp (pf_pos gs wp a))).
have l3 : \sum_a ln (tau c * pooled_flag (R := RR) g w a)^-1 = - \sum_a ln (tau c * pooled_flag (R := RR) g w a).
  by rewrite -sumrN; apply: eq_bigr => a _; rewrite lnV // mulr_gt0 // pf_pos.
have DD : ln ((-1) ^+ rq mk * \det (uk_lhs ((sel RR g)^T *m latent c u *m ((sel RR g)^T)^T + diag_mx (\row_i (tau c * w i)))
             ((sel RR g)^T *m design (@rp RR C q mk) u))) =
   \sum_i ln (tau c * w i) - \sum_a ln (tau c * pooled_flag (R := RR) g w a) +
   ln ((-1) ^+ rq mk * \det (uk_lhs (ncov_same c (pooled u g w)) (design (@nrp RR C q mk) (pooled u g w)))).
  by rewrite dt mulrCA (lnM (mulr_gt0 pp1 pp2) D2) (lnM pp1 pp2) l1 l2 l3.
have NN : (ncrit mk r)%:R = (ncrit mk r1)%:R + ((q + r)%:R - (q + r1)%:R) :> R.
  by case: (mk) => [|p|h] /=; rewrite ?natrD; ring.
have TT : trend_term mk (fun i => u (g i)) u =
  (ln (\det ((design (@nrp RR C q mk) (pooled u g w))^T *m design (@nrp RR C q mk) (pooled u g w)))
   - ln (\det (((sel RR g)^T *m design (@rp RR C q mk) u)^T *m ((sel RR g)^T *m design (@rp RR C q mk) u)))) / 2%:R.
  rewrite -(P_rep u g w (@rp RR C q mk)).
  by case: (mk) => [|p|h] //=; rewrite !det_mx00 subrr mul0r.
by rewrite DD NN TT Q /within; exact: (@pool_id RR).
Qed.

Lemma within_diff n n1 (g : 'I_n -> 'I_n1) (w : 'I_n -> R) (z : 'cV[R]_n) (t t' : R) :
  (forall a, exists i, g i = a) -> (forall i, 0 < w i :> RR) -> 0 < t :> RR -> 0 < t' :> RR ->
  within t g w z - within t' g w z =
  ((n%:R - n1%:R) * (ln t - ln t') + spread g w z * (t^-1 - t'^-1)) / 2%:R.
Proof.
move=> gs wp tp tp'.
have sl k (F : 'I_k -> R) s : 0 < s :> RR -> (forall i, 0 < F i :> RR) ->
    \sum_i ln (s * F i) = k%:R * ln s + \sum_i ln (F i).
  move=> sp Fp; rewrite (eq_bigr (fun i => ln s + ln (F i))) => [|i _]; last by rewrite lnM.
  by rewrite big_split /= sumr_const card_ord mulr_natl.
have pf a : 0 < pooled_flag (R := RR) g w a by exact: pf_pos.
rewrite /within !sl //; move: (\sum_i _) (\sum_i _) (spread _ _ _) => s1 s2 s3.
by ring.
Qed.

(* Comparing two covariances, noise variances or means on the repeated observations or on
   the pooled ones differs by a quantity that only involves the noise variances. *)
Theorem C119_estimates b b1 r r1 (qr : qr_fun RR q r) (qr1 : qr_fun RR q r1)
  (mk mk' : mean_kind RR C q) (c c' : noisy) (u : 'I_(q + r1) -> C) (g : 'I_(q + r) -> 'I_(q + r1))
  (w : 'I_(q + r) -> R) (z : 'cV[R]_(q + r)) :
  (forall P, is_qr P (qr P)) -> (forall P, is_qr P (qr1 P)) ->
  (forall a, exists i, g i = a) -> (forall i, 0 < w i :> RR) -> 0 < tau c -> 0 < tau c' ->
  proper mk c u -> proper mk' c' u ->
  mk = mk' \/ (exists h h', mk = KParam (Some h) /\ mk' = KParam (Some h')) ->
  exists a a' a1 a1',
    [/\ ncrit_at b qr mk c (repeated u g w) z = Ok (Fin a) /\
        ncrit_at b qr mk' c' (repeated u g w) z = Ok (Fin a'),
        ncrit_at b1 qr1 mk c (pooled u g w) (pooled_obs (R := RR) g w z) = Ok (Fin a1) /\
        ncrit_at b1 qr1 mk' c' (pooled u g w) (pooled_obs (R := RR) g w z) = Ok (Fin a1'),
        a - a' = a1 - a1' + (((q + r)%:R - (q + r1)%:R) * (ln (tau c) - ln (tau c'))
                             + spread g w z * ((tau c)^-1 - (tau c')^-1)) / 2%:R
      & tau c = tau c' -> a - a' = a1 - a1'].
Proof.
move=> hqr hqr1 gs wp tp tp' pr pr' mm.
have [a [a1 [E1 E2 ea]]] := C119_criterion b b1 z hqr hqr1 gs wp tp pr.
have [a' [a1' [E1' E2' ea']]] := C119_criterion b b1 z hqr hqr1 gs wp tp' pr'.
have tt : trend_term mk (fun i => u (g i)) u = trend_term mk' (fun i => u (g i)) u.
  by case: mm => [->|[h [h' [-> ->]]]].
have e : a - a' = a1 - a1' + (((q + r)%:R - (q + r1)%:R) * (ln (tau c) - ln (tau c'))
                             + spread g w z * ((tau c)^-1 - (tau c')^-1)) / 2%:R.
  rewrite -(within_diff z gs wp tp tp') ea ea' tt.
  by move: (within _ _ _ _) (within _ _ _ _) (trend_term _ _ _) => s1 s2 s3; ring.
exists a, a', a1, a1'; split=> // et; rewrite e et !subrr !mulr0 addr0 mul0r addr0 //.
Qed.

(* Pooling loses the noise variance: as soon as one point is repeated, the two criteria
   do not vary in the same way with it. *)
Theorem C119_noise_refuted b b1 r r1 (qr : qr_fun RR q r) (qr1 : qr_fun RR q r1)
  (mk : mean_kind RR C q) (c : noisy) (u : 'I_(q + r1) -> C) (g : 'I_(q + r) -> 'I_(q + r1))
  (w : 'I_(q + r) -> R) (z : 'cV[R]_(q + r)) :
  (forall P, is_qr P (qr P)) -> (forall P, is_qr P (qr1 P)) ->
  (forall a, exists i, g i = a) -> (forall i, 0 < w i :> RR) -> 0 < tau c -> proper mk c u ->
  (r1 < r)%N ->
  exists t a a' a1 a1',
    [/\ tau c < t,
        ncrit_at b qr mk c (repeated u g w) z = Ok (Fin a) /\
        ncrit_at b qr mk (Noisy (lat c) t) (repeated u g w) z = Ok (Fin a'),
        ncrit_at b1 qr1 mk c (pooled u g w) (pooled_obs (R := RR) g w z) = Ok (Fin a1) /\
        ncrit_at b1 qr1 mk (Noisy (lat c) t) (pooled u g w) (pooled_obs (R := RR) g w z) = Ok (Fin a1')
      & a - a' <> a1 - a1'].
Proof.
move=> hqr hqr1 gs wp tp pr lr.
have pr' t : proper mk (Noisy (lat c) t) u by [].
set k : R := (q + r)%:R - (q + r1)%:R; set S := spread g w z.
have kp : 0 < k :> RR by rewrite /k subr_gt0 ltr_nat ltn_add2l.
pose F (t : R) : R := k * (ln (tau c) - ln t) + S * ((tau c)^-1 - t^-1).
suff [t [tt Ft]] : exists t, tau c < t /\ F t <> 0.
  have tp' : 0 < tau (Noisy (lat c) t : noisy) by exact: lt_trans tt.
  have [a [a' [a1 [a1' [h1 h2 h3 _]]]]] :=
    C119_estimates b b1 z hqr hqr1 gs wp tp tp' pr (pr' t) (or_introl erefl).
  exists t, a, a', a1, a1'; split=> // h; apply: Ft; move: h3; rewrite h -/k -/S -/(F t).
  rewrite -[X in X = _]addr0 => /addrI /esym /eqP.
  by rewrite mulf_eq0 invr_eq0 pnatr_eq0 orbF => /eqP.
have [t [tt Ft]] := @noise_vary k S (tau c) (elimT (RltbP _ _) kp) (elimT (RltbP _ _) tp).
have tt' : tau c < t by exact/RltbP.
have iv (x : R) : 0 < x :> RR -> Rinv x = x^-1.
  move=> x0; have h : x != 0 by rewrite gt_eqF.
  by rewrite -[x^-1]/(Rinvx x) /Rinvx ifT.
exists t; split=> // h; apply: Ft.
by rewrite (iv _ tp) (iv t (lt_trans tp tt')); exact: h.
Qed.
End Crit.

(* --- a case: three observations at two points, the first point observed twice --- *)
Section Case.
Let C : Type := R.
Let c : noisy R_rcfType C := Noisy (fun x y : R => 1 + x * y) 1.
Let u : 'I_(1 + 1) -> C := fun a => if a == ord0 then 0 else 1.
Let g : 'I_(1 + 2) -> 'I_(1 + 1) := fun i => if (i < 2)%N then ord0 else lift ord0 ord0.
Let w : 'I_(1 + 2) -> R := fun _ => 1.
Let z : 'cV[R]_(1 + 2) := \col_i (i%:R * 2%:R).
Example C119_case :
  [/\ forall a, exists i, g i = a, forall i, 0 < w i :> R_rcfType, 0 < tau c,
      [/\ proper (KZero : mean_kind R_rcfType C 1) c u, proper (KLinear (fun _ _ => 1) : mean_kind R_rcfType C 1) c u
        & proper (KParam (Some (fun x => x)) : mean_kind R_rcfType C 1) c u]
    & [/\ (1 < 2)%N, g ord0 = g (lift ord0 ord0), pooled_flag (R := R_rcfType) g w ord0 = 2%:R^-1,
          pooled_obs (R := R_rcfType) g w z ord0 0 = 1 & spread g w z = 2%:R]].
Proof.
have psd : pos_semidef (latent c u).
  have -> : latent c u = (\matrix_(i < 1 + 1, k < 1 + 1) (if k == ord0 then 1 else u i)) *m
      (\matrix_(i < 1 + 1, k < 1 + 1) (if k == ord0 then 1 else u i))^T.
    by apply/matrixP => i j; rewrite !mxE !big_ord_recl big_ord0 !mxE /= addr0 mul1r.
  split; first by rewrite /symmetric trmx_mul trmxK.
  move=> v; move: (\matrix_(i, k) _) => A; have := qform_mul 1%:M A^T v.
  by rewrite trmxK mulmx1 => <-; exact: qform1_ge0.
split.
- move=> a; case: (@split_ordP 1 1 a) => k ->; [exists ord0 | exists (lift ord0 (lift ord0 ord0))];
    by apply: val_inj; rewrite /= ord1.
- by move=> i; exact: ltr01.
- exact: ltr01.
- split=> //; split; first by split; [exact: psd.1 | move=> v _; exact: psd.2].
  move=> b /colP /(_ ord0); rewrite !mxE big_ord1 !mxE mul1r => h.
  by apply/colP => i; rewrite ord1 h mxE.
- have pf : pooled_flag (R := R_rcfType) g w ord0 = 2%:R^-1.
    rewrite /pooled_flag !big_mkcond !big_ord_recl big_ord0 /= !addr0 invr1.
    by rewrite [in RHS]mulr2n.
  have pf1 : pooled_flag (R := R_rcfType) g w (lift ord0 ord0) = 1.
    by rewrite /pooled_flag !big_mkcond !big_ord_recl big_ord0 /= !(addr0, add0r, invr1).
  have po : pooled_obs (R := R_rcfType) g w z ord0 0 = 1.
    rewrite mxE pf !big_mkcond !big_ord_recl big_ord0 /= !mxE /= !(addr0, add0r, mul0r, mul1r, divr1).
    by rewrite mulVf // pnatr_eq0.
  have po1 : pooled_obs (R := R_rcfType) g w z (lift ord0 ord0) 0 = 4%:R.
    rewrite mxE pf1 !big_mkcond !big_ord_recl big_ord0 /= !mxE /= !(addr0, add0r, mul0r, mul1r, divr1).
    by rewrite -natrM.
  split=> //.
  rewrite /spread !big_ord_recl big_ord0 /= /g /= po po1 !mxE /= !(addr0, mul0r, divr1, mul1r).
  rewrite -[bump 0 (bump 0 0)]/2%N; by ring.
Qed.
End Case.
Print Assumptions C119_predict.
Print Assumptions C119_loo.
Print Assumptions C119_loo_nugget.
Print Assumptions C119_criterion.
Print Assumptions C119_estimates.
Print Assumptions C119_noise_refuted.
Print Assumptions C119_case.
