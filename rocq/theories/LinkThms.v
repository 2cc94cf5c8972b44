(* LinkThms.v
   Property C115: one observation changes the likelihood by its predictive log
   score, as given by Model.loo or by Model.predict from the other observations. *)
From Coq Require Import Reals.
From mathcomp Require Import all_ssreflect all_algebra.
From Verif Require Import LinAlg KrigModel RealAux Rinst LikModel CholProofs LinQR KrigProofs KrigProofs2
  KrigProofs3 LooProofs PathProofs LikProofs OrderModel OrderProofs UpdProofs UpdThms LinkProofs.
Set Implicit Arguments.
Unset Strict Implicit.
Unset Printing Implicit Defensive.
Import Order.TTheory GRing.Theory Num.Theory.
Local Open Scope ring_scope.
Local Arguments ln : clear scopes.

Section Link.
Variables (X : Type) (q : nat).
Local Notation RR := R_rcfType.

(* The criterion that goes with each kind of mean: the restricted likelihood for a
   linear predictor, the likelihood for the two others. *)
Definition crit_at b r (qr : qr_fun RR q r) (mk : mean_kind RR X q) (c : kernel RR X)
  (x : 'I_(q + r) -> X) (z : 'cV[R]_(q + r)) : res ereal :=
  match mk with
  | KZero => nll_zero_mean b (cov_same c x) z
  | KLinear p => nrl b qr (cov_same c x) (design p x) z
  | KParam (Some h) => nll b (cov_same c x) (mean_col h x) z
  | KParam None => Err ValueErr
  end.

(* The part of the change that comes from the trend alone: it does not depend on
   the covariance nor on the observed values. *)
Definition trend_term (mk : mean_kind RR X q) n n1 (x : 'I_n -> X) (x1 : 'I_n1 -> X) : R :=
  match mk with
  | KLinear p => (ln (\det ((design p x1)^T *m design p x1)) - ln (\det ((design p x)^T *m design p x))) / 2%:R
  | _ => 0
  end.

Definition ncrit (mk : mean_kind RR X q) r := match mk with KLinear _ => r | _ => (q + r)%N end.

Lemma full_gram_pd n p (P : 'M[R]_(n, p)) : full_col_rank P -> pos_def (P^T *m P).
Proof. by move=> fP; have := pd_congr (pos_def1 RR n) fP; rewrite mulmx1. Qed.

Lemma B_uniq n p (K B B' : 'M[RR]_n) (P : 'M[RR]_(n, p)) C C' : uk_lhs K P \in unitmx ->
  P^T *m B = 0 -> K *m B + P *m C = 1%:M -> P^T *m B' = 0 -> K *m B' + P *m C' = 1%:M -> B = B'.
Proof.
move=> u h1 h2 h3 h4; rewrite -(trmx0 RR n p) in h1 h3.
by have [-> _] := uk_uniq u h2 h1; have [-> _] := uk_uniq u h4 h3.
Qed.

Lemma det_lhs0 n (K : 'M[RR]_n) (P : 'M[RR]_(n, 0)) : K \in unitmx -> \det (uk_lhs K P) = \det K.
Proof. by move=> uK; rewrite /uk_lhs det_schur // [\det (0 - _)]det_mx00 mulr1. Qed.

Lemma crit_rep b r (qr : qr_fun RR q r) mk c (x : 'I_(q + r) -> X) z B C :
  (forall P, is_qr P (qr P)) ->
  let K := cov_same c x in let P := design (@rp _ _ _ mk) x in
  cond_pos_def K P -> full_col_rank P -> mk <> KParam None ->
  P^T *m B = 0 -> K *m B + P *m C = 1%:M ->
  0 < (-1) ^+ rq mk * \det (uk_lhs K P) /\
  crit_at b qr mk c x z = Ok (Fin (((ncrit mk r)%:R * ln (2%:R * PI)
    + (ln ((-1) ^+ rq mk * \det (uk_lhs K P)) - ln (\det (P^T *m P)))
    + qform B (z - mean_col (rm mk) x)) / 2%:R)).
Proof.
move=> hqr K P cK fP nN PB KB.
have u := uk_lhs_unit cK fP.
have m0 : z - mean_col (fun _ : X => 0) x = z.
  by apply/colP => i; rewrite !mxE oppr0 addr0.
have ln10 (M : 'M[R]_0) : ln (\det M) = 0 by rewrite det_mx00; exact: ln_1.
have zero (h : X -> RR) (P0 : 'M[RR]_(q + r, 0)) B0 C0 : pos_def K -> P0^T *m B0 = 0 -> K *m B0 + P0 *m C0 = 1%:M ->
    uk_lhs K P0 \in unitmx ->
    0 < (-1) ^+ 0 * \det (uk_lhs K P0) /\
    nll_zero_mean b K (z - mean_col h x) =
    Ok (Fin (((q + r)%:R * ln (2%:R * PI) + (ln ((-1) ^+ 0 * \det (uk_lhs K P0)) - ln (\det (P0^T *m P0)))
      + qform B0 (z - mean_col h x)) / 2%:R)).
  move=> pK PB0 KB0 u0; have uK := pd_unit pK; rewrite expr0 mul1r det_lhs0 // ln10 subr0.
  split; first exact: pd_det.
  rewrite nll_zero_ok // /gauss_nll; congr (Ok (Fin ((_ + qform _ _) / _))).
  apply: (@B_uniq _ _ K _ _ P0 0 C0) => //; first by apply/matrixP => -[].
  by rewrite mulmxV // mulmx0 addr0.
case: mk C nN @P cK fP PB KB u => [|p|[h|]] //= C _ cK fP PB KB u.
- have := zero (fun=> 0) _ B C (pd_of_cpd0 cK) PB KB u.
  by rewrite m0.
- rewrite m0.
  have pG := G_pd (hqr (design p x)) cK; have dG := pd_det pG.
  have eD := det_lhs_G (hqr (design p x)) fP cK.1 (pd_unit pG).
  have dP := pd_det (full_gram_pd fP).
  rewrite eD; split; first exact: mulr_gt0.
  rewrite (nrl_ok _ _ (hqr _) cK) (lnM dG dP) addrK /nrl_of /gauss_nll; congr (Ok (Fin ((_ + _) / _))).
  have [C0 [sB0 PB0 KB0]] := cpd_B (hqr (design p x)) cK fP.
  rewrite (B_uniq u PB KB PB0 KB0) qform_mul; congr (qform _ _).
  by rewrite trmxK -mulmxA.
- exact: (zero _ _ _ C (pd_of_cpd0 cK)).
Qed.

Definition gone n n1 (f : 'I_n1 -> 'I_n) (i : 'I_n) : Prop :=
  [/\ injective f, forall l, f l != i & forall l, l != i -> exists a, f a = l].

Lemma lnD (b D D1 L T T1 qB qB1 g N : R) : 0 < b -> 0 < D -> D1 = D * b -> qB = qB1 + g ^+ 2 / b ->
  ((N + 1) * L + (ln D - ln T) + qB) / 2%:R =
  (N * L + (ln D1 - ln T1) + qB1) / 2%:R + (L + ln (1 / b) + (g / b) ^+ 2 / (1 / b)) / 2%:R + (ln T1 - ln T) / 2%:R.
Proof.
move=> b0 D0 -> ->; rewrite (lnM D0 b0) div1r lnV // invrK expr_div_n.
have e : g ^+ 2 / b ^+ 2 * b = g ^+ 2 / b.
  by rewrite -mulrA; congr (_ * _); rewrite expr2 invfM -mulrA mulVf ?mulr1 // gt_eqF.
by rewrite e; exact: (@link_id RR).
Qed.

(* What the two theorems have in common. *)
Lemma link b r (qr : qr_fun RR q r.+1) (qr' : qr_fun RR q r) mk c (x : 'I_(q + r.+1) -> X) z
  (f : 'I_(q + r) -> 'I_(q + r.+1)) i :
  (forall P, is_qr P (qr P)) -> (forall P, is_qr P (qr' P)) -> gone f i -> solvable mk c x f ->
  exists B C a a1,
    [/\ [/\ symmetric B, (design (@rp _ _ _ mk) x)^T *m B = 0,
             cov_same c x *m B + design (@rp _ _ _ mk) x *m C = 1%:M & 0 < B i i],
        loo_at qr mk c x z =
          Ok (\col_i (z i 0 - (B *m (z - mean_col (rm mk) x)) i 0 / B i i), \col_i (1 / B i i),
              \col_i ((B *m (z - mean_col (rm mk) x)) i 0 / B i i)),
        crit_at b qr mk c x z = Ok (Fin a),
        crit_at b qr' mk c (fun l => x (f l)) (\col_l z (f l) 0) = Ok (Fin a1)
      & a = a1 + gauss1_nll (z i 0 - (B *m (z - mean_col (rm mk) x)) i 0 / B i i) (1 / B i i) (z i 0)
              + trend_term mk x (fun l => x (f l))].
Proof.
move=> hqr hqr' [fi fni fon] /(solvable_rep fi) [cK fP nN].
have cK' : cond_pos_def (cov_same c (fun i => x (f i))) (design (@rp _ _ _ mk) (fun i => x (f i))).
  by rewrite (cov_same_sub c x fi) (design_sub (@rp _ _ _ mk) x f); exact: sub_cpd.
have fP' : full_col_rank (design (@rp _ _ _ mk) (fun i => x (f i))) by rewrite (design_sub (@rp _ _ _ mk) x f).
have cz : (\col_i z (f i) 0) - mean_col (rm mk) (fun i => x (f i)) =
    (sel RR f)^T *m (z - mean_col (rm mk) x).
  by rewrite -rows_ofE; apply/colP => a; rewrite !mxE.
have [B [C [sB PB KB EL]]] := loo_rep z hqr cK (sub_rank fP) nN.
have [B1 [C1 [sB1 PB1 KB1 _]]] := loo_rep (\col_l z (f l) 0) hqr' cK' fP' nN.
have fwo : full_col_rank (P_wo i (design (@rp _ _ _ mk) x)).
  move=> b0 hb; apply: fP; rewrite -mulmxA -rows_ofE; apply/colP => a; rewrite mxE [RHS]mxE.
  have [a' ea] : exists a', lift i a' = f a.
    by have := fni a; rewrite eq_sym => /unlift_some [a' -> _]; exists a'.
  have := hb; rewrite /P_wo => /colP /(_ a'); rewrite [RHS]mxE => <-.
  by rewrite -ea [LHS]mxE [RHS]mxE; apply: eq_bigr => t _; rewrite [row' _ _ _ _]mxE.
have Bii : 0 < B i i by rewrite (B_diag_pos cK sB PB KB).
have [D0 E0] := crit_rep b z hqr cK (sub_rank fP) nN PB KB.
have [D1 E1] := crit_rep b (\col_l z (f l) 0) hqr' cK' fP' nN PB1 KB1.
exists B, C; do 2 eexists; split; [by split | exact: EL | exact: E0 | exact: E1 |].
pose e : 'cV[RR]_(q + r.+1) := delta_mx i 0.
have Se := one_Se RR fni; have SS := one_SS RR fi fni fon.
have So : (sel RR f)^T *m sel RR f = 1%:M by exact: sel_inj_orth.
have ee : e^T *m e = 1%:M.
  by apply/matrixP => a a'; rewrite trmx_delta mul_delta_mx !ord1 !mxE eqxx.
have eBe : e^T *m B *m e = (B i i)%:M.
  by apply/matrixP => a a'; rewrite !ord1 trmx_delta -rowE -colE !mxE eqxx.
have eg : (e^T *m (B *m (z - mean_col (rm mk) x))) 0 0 = (B *m (z - mean_col (rm mk) x)) i 0.
  by rewrite trmx_delta -rowE mxE.
have bn : B i i != 0 by rewrite gt_eqF.
have u1 := uk_lhs_unit cK' fP'; have u0 := uk_lhs_unit cK (sub_rank fP).
have Q : qform B (z - mean_col (rm mk) x) = qform B1 ((\col_l z (f l) 0) - mean_col (rm mk) (fun l => x (f l)))
   + ((B *m (z - mean_col (rm mk) x)) i 0) ^+ 2 / B i i.
  rewrite cz -eg; move: PB1 KB1 u1; rewrite (cov_same_sub c x fi) (design_sub (@rp _ _ _ mk) x f) => PB1 KB1 u1.
  by apply: (one_quad Se So SS sB PB KB eBe bn u1) PB1 KB1.
have en : (q + r.+1)%N = (q + r).+1 by rewrite addnS.
have DD : (-1) ^+ rq mk * \det (uk_lhs (cov_same c (fun l => x (f l))) (design (@rp _ _ _ mk) (fun l => x (f l)))) =
  (-1) ^+ rq mk * \det (uk_lhs (cov_same c x) (design (@rp _ _ _ mk) x)) * B i i.
  rewrite (cov_same_sub c x fi) (design_sub (@rp _ _ _ mk) x f) -mulrA; congr (_ * _).
  exact: (det_lhs_one en Se So ee PB KB eBe u0).
have N1 : (ncrit mk r.+1)%:R = (ncrit mk r)%:R + 1 :> R.
  by case: (mk) => [|p|h] /=; rewrite ?addnS -addn1 natrD.
have TT : trend_term mk x (fun l => x (f l)) =
  (ln (\det ((design (@rp _ _ _ mk) (fun l => x (f l)))^T *m design (@rp _ _ _ mk) (fun l => x (f l))))
   - ln (\det ((design (@rp _ _ _ mk) x)^T *m design (@rp _ _ _ mk) x))) / 2%:R.
  by case: (mk) => [|p|h] //=; rewrite !det_mx00 subrr mul0r.
by rewrite N1 TT /gauss1_nll subKr; exact: lnD.
Qed.

(* --- the theorems --- *)

(* Leaving out observation i lowers the criterion by the log score of Model.loo at i
   (plus the trend term for a restricted likelihood). *)
Theorem C115_loo b r (qr : qr_fun RR q r.+1) (qr' : qr_fun RR q r) mk c (x : 'I_(q + r.+1) -> X) z
  (f : 'I_(q + r) -> 'I_(q + r.+1)) i :
  (forall P, is_qr P (qr P)) -> (forall P, is_qr P (qr' P)) -> gone f i -> solvable mk c x f ->
  exists a a1 zloo s2loo eloo,
    [/\ crit_at b qr mk c x z = Ok (Fin a),
        crit_at b qr' mk c (fun l => x (f l)) (\col_l z (f l) 0) = Ok (Fin a1),
        loo_at qr mk c x z = Ok (zloo, s2loo, eloo), 0 < s2loo i 0
      & a = a1 + gauss1_nll (zloo i 0) (s2loo i 0) (z i 0) + trend_term mk x (fun l => x (f l))].
Proof.
move=> hqr hqr' fi sol; have [B [C [a [a1 [[sB PB KB Bii] EL E0 E1 ea]]]]] := link b z hqr hqr' fi sol.
exists a, a1; do 3 eexists; split; [exact: E0 | exact: E1 | exact: EL | |].
- by rewrite mxE div1r invr_gt0.
- have cE (F : 'I_(q + r.+1) -> R) j : (\col_l F l) j 0 = F j by rewrite mxE.
  by rewrite !cE.
Qed.

(* The same with Model.predict at the left-out point from the other observations: the
   score is that of the predictive distribution of a noisy observation. *)
Theorem C115_predict b r (qr : qr_fun RR q r.+1) (qr' : qr_fun RR q r) ss mk c (x : 'I_(q + r.+1) -> X) z
  (f : 'I_(q + r) -> 'I_(q + r.+1)) i :
  (forall P, is_qr P (qr P)) -> (forall P, is_qr P (qr' P)) -> gone f i -> solvable mk c x f ->
  exists a a1 mu v lam,
    [/\ crit_at b qr mk c x z = Ok (Fin a),
        crit_at b qr' mk c (fun l => x (f l)) (\col_l z (f l) 0) = Ok (Fin a1),
        predict_at qr' ss mk c (fun l => x (f l)) (\col_l z (f l) 0) (fun _ : 'I_1 => x i) false = Ok (mu, v, lam),
        0 < v 0 0 + knug c
      & a = a1 + gauss1_nll (mu 0 0) (v 0 0 + knug c) (z i 0) + trend_term mk x (fun l => x (f l))].
Proof.
move=> hqr hqr' go sol; have [B [C [a [a1 [[sB PB KB Bii] EL E0 E1 ea]]]]] := link b z hqr hqr' go sol.
have [fi fni fon] := go; have [cK fP nN] := solvable_rep fi sol.
have cK' : cond_pos_def (cov_same c (fun i => x (f i))) (design (@rp _ _ _ mk) (fun i => x (f i))).
  by rewrite (cov_same_sub c x fi) (design_sub (@rp _ _ _ mk) x f); exact: sub_cpd.
have fP' : full_col_rank (design (@rp _ _ _ mk) (fun i => x (f i))) by rewrite (design_sub (@rp _ _ _ mk) x f).
have cz : (\col_i z (f i) 0) - mean_col (rm mk) (fun i => x (f i)) =
    (sel RR f)^T *m (z - mean_col (rm mk) x).
  by rewrite -rows_ofE; apply/colP => l; rewrite !mxE.
have Se := one_Se RR fni; have SS := one_SS RR fi fni fon.
pose e : 'cV[RR]_(q + r.+1) := delta_mx i 0.
have So : (sel RR f)^T *m sel RR f = 1%:M by exact: sel_inj_orth.
have ee : e^T *m e = 1%:M.
  by apply/matrixP => l l'; rewrite trmx_delta mul_delta_mx !ord1 !mxE eqxx.
have eBe : e^T *m B *m e = (B i i)%:M.
  by apply/matrixP => l l'; rewrite !ord1 trmx_delta -rowE -colE !mxE eqxx.
have bn : B i i != 0 by rewrite gt_eqF.
have u1 : uk_lhs ((sel RR f)^T *m cov_same c x *m sel RR f) ((sel RR f)^T *m design (@rp _ _ _ mk) x) \in unitmx.
  by rewrite -(cov_same_sub c x fi) -(design_sub (@rp _ _ _ mk) x f); exact: uk_lhs_unit.
have eK : cov_cross c (fun l => x (f l)) (fun _ : 'I_1 => x i) = (sel RR f)^T *m (cov_same c x *m e).
  by rewrite -colE -rows_ofE; apply/matrixP => l l'; rewrite !mxE (negbTE (fni l)) mulr0n addr0.
have eP : design (@rp _ _ _ mk) (fun _ : 'I_1 => x i) = e^T *m design (@rp _ _ _ mk) x.
  by rewrite trmx_delta -rowE; apply/matrixP => l l'; rewrite !mxE.
have M := one_pred Se SS sB PB KB eBe bn u1 (z - mean_col (rm mk) x).
have V := one_var Se ee SS sB PB KB eBe bn u1 cK.1.
have hK : (e^T *m cov_same c x *m e) 0 0 = kfun c (x i) (x i) + knug c.
  by rewrite trmx_delta -rowE -colE !mxE eqxx.
have hV (k g w : RR) : k - (k + g - w) + g = w by rewrite opprB addrC addrA (addrC g) addrC subrK.
have eg (y : 'cV[RR]_(q + r.+1)) : (e^T *m y) 0 0 = y i 0 by rewrite trmx_delta -rowE mxE.
have rE (F : 'I_1 -> RR) j : (\row_l F l) 0 j = F j by rewrite mxE.
exists a, a1; do 3 eexists; split; [exact: E0 | exact: E1 | exact: (predict_rep _ _ _ _ _ cK' fP' nN) | |].
all: rewrite /= (cov_same_sub c x fi) (design_sub (@rp _ _ _ mk) x f) eK eP ?cz rsubE einsum_iiE V msubE hK
  [_%:M 0 0]mxE eqxx mulr1n [cov_same_pairwise _ _ _ _]mxE hV.
- by rewrite invr_gt0.
- have sE (t : RR) (A : 'M[RR]_1) : (t *: A) 0 0 = t * A 0 0 by rewrite mxE.
  rewrite rE M msubE sE !eg.
  have -> : (z - mean_col (rm mk) x) i 0 = z i 0 - rm mk (x i) by rewrite msubE [mean_col _ _ _ _]mxE.
  by rewrite ea div1r; congr (_ + gauss1_nll _ _ _ + _); rewrite [in RHS]addrAC subrK [in RHS]mulrC.
Qed.

(* The first n points and observations of a sequence. *)
Definition first (x : nat -> X) n : 'I_n -> X := fun i => x i.
Definition firstz (z : nat -> R) n : 'cV[R]_n := \col_i z i.
(* the first q + m observations determine the trend, and the q + n first ones make a
   proper model *)
Definition solvable_from (mk : mean_kind RR X q) (c : kernel RR X) (x : nat -> X) m n : Prop :=
  match mk with
  | KLinear p => cond_pos_def (cov_same c (first x (n := q + n))) (design p (first x (n := q + n))) /\
                 full_col_rank (design p (first x (n := q + m)))
  | KParam None => False
  | _ => pos_def (cov_same c (first x (n := q + n)))
  end.

(* The criterion of a sequence of observations is that of its beginning plus the log
   scores of the successive one-step predictions. *)
Theorem C115_sequence b (qr : forall r, qr_fun RR q r) ss mk c x z m n :
  (forall r P, is_qr P (qr r P)) -> (m <= n)%N -> solvable_from mk c x m n ->
  exists a0 a (mu v : nat -> R),
    [/\ crit_at b (qr m) mk c (first x (n := q + m)) (firstz z (q + m)) = Ok (Fin a0),
        crit_at b (qr n) mk c (first x (n := q + n)) (firstz z (q + n)) = Ok (Fin a),
        forall l, (m <= l < n)%N -> 0 < v l + knug c /\ exists lam,
          predict_at (qr l) ss mk c (first x (n := q + l)) (firstz z (q + l)) (fun _ : 'I_1 => x (q + l)%N) false =
            Ok ((mu l)%:M, (v l)%:M, lam)
      & a = a0 + \sum_(m <= l < n) gauss1_nll (mu l) (v l + knug c) (z (q + l)%N)
               + trend_term mk (first x (n := q + n)) (first x (n := q + m))].
Proof.
move=> hqr /subnK <-; elim: (n - m)%N => [|k IH] sol; rewrite ?add0n in sol *.
  have sol' : solvable mk c (first x (n := q + m)) id.
    by case: (mk) sol => [|p|[h|]] //= [].
  have [cK fP nN] := solvable_rep (fun _ _ e => e) sol'.
  have fP' : full_col_rank (design (@rp _ _ _ mk) (first x (n := q + m))) by exact: sub_rank fP.
  have [B [C [sB PB KB _]]] := loo_rep (firstz z (q + m)) (hqr m) cK fP' nN.
  have [_ E] := crit_rep b (firstz z (q + m)) (hqr m) cK fP' nN PB KB.
  eexists; eexists; exists (fun=> 0), (fun=> 0); split; [exact: E | exact: E | |].
  - by move=> l /andP[h1 h2]; have := leq_trans h2 h1; rewrite ltnn.
  - rewrite big_geq // addr0; suff -> : trend_term mk (first x (n := q + m)) (first x (n := q + m)) = 0 by rewrite addr0.
    by rewrite /trend_term; case: (mk) => // p; rewrite subrr mul0r.
set r := (k + m)%N in IH *; rewrite -[(k.+1 + m)%N]/r.+1 in sol *.
have mr : (m <= r)%N by exact: leq_addl.
have le1 : (q + r <= q + r.+1)%N by rewrite leq_add2l.
have lem : (q + m <= q + r)%N by rewrite leq_add2l.
pose f : 'I_(q + r) -> 'I_(q + r.+1) := widen_ord le1.
pose g : 'I_(q + m) -> 'I_(q + r) := widen_ord lem.
have fi : injective f by move=> i j /(congr1 val) /= e; exact: val_inj.
have lt : (q + r < q + r.+1)%N by rewrite ltn_add2l.
pose i : 'I_(q + r.+1) := Ordinal lt.
have go : gone f i.
  split=> // l; first by rewrite -val_eqE /= ltn_eqF.
  rewrite -val_eqE /= => h; have lr : (l < q + r)%N.
    by have := ltn_ord l; rewrite {2}addnS ltnS leq_eqVlt (negbTE h).
  by exists (Ordinal lr); apply: val_inj.
have up (p : X -> 'I_q -> R) : full_col_rank (design p (first x (n := q + m))) -> full_col_rank (design p (first x (n := q + r))).
  by move=> h; apply: (@sub_rank _ _ _ _ g); rewrite -design_sub.
have solR : solvable_from mk c x m r.
  case: (mk) sol => [|p|[h|]] //=.
  - by move=> pK; have := sub_pd fi pK; rewrite -(cov_same_sub _ _ fi).
  - by case=> cK fP; split=> //; have := sub_cpd fi cK; rewrite -(cov_same_sub _ _ fi) -design_sub.
  - by move=> pK; have := sub_pd fi pK; rewrite -(cov_same_sub _ _ fi).
have solS : solvable mk c (first x (n := q + r.+1)) f.
  by case: (mk) sol => [|p|[h|]] //= [cK fP]; split=> //; exact: up.
have [a0 [a1 [mu [v [E0 E1 Ep ea1]]]]] := IH solR.
have [a [a1' [mu' [v' [lam [Ea Ea1 El v0 ea]]]]]] := C115_predict b ss (firstz z (q + r.+1)) (hqr r.+1) (hqr r) go solS.
have zz : \col_l (firstz z (q + r.+1)) (f l) 0 = firstz z (q + r) by apply/colP => l; rewrite !mxE.
rewrite zz in Ea1 El; rewrite Ea1 in E1; case: E1 => e1; subst a1'.
exists a0, a, (fun l => if l == r then mu' 0 0 else mu l), (fun l => if l == r then v' 0 0 else v l); split=> //.
- move=> l /andP[h1]; rewrite ltnS leq_eqVlt; case: eqP => [-> _ | _ /= h2]; last by apply: Ep; rewrite h1.
  split=> //; exists lam; rewrite El; congr (Ok (_, _, _)); apply/matrixP => s t; rewrite !ord1 [RHS]mxE eqxx //.
- rewrite big_nat_recr //= eqxx ea ea1.
  have -> : \sum_(m <= l < r) gauss1_nll (if l == r then mu' 0 0 else mu l) ((if l == r then v' 0 0 else v l) + knug c) (z (q + l)%N) =
            \sum_(m <= l < r) gauss1_nll (mu l) (v l + knug c) (z (q + l)%N).
    by apply: eq_big_nat => l /andP[_ h]; rewrite ltn_eqF.
  have -> : firstz z (q + r.+1) i 0 = z (q + r)%N by rewrite mxE.
  have TT : trend_term mk (first x (n := q + r.+1)) (first x (n := q + m)) =
    trend_term mk (first x (n := q + r)) (first x (n := q + m)) + trend_term mk (first x (n := q + r.+1)) (fun l => first x (n := q + r.+1) (f l)).
    rewrite /trend_term; case: (mk) => [|p|h]; rewrite ?addr0 // -mulrDl; congr (_ / _).
    by rewrite addrA subrK.
  by rewrite TT !addrA; congr (_ + _); rewrite -!addrA; congr (_ + (_ + _)); rewrite addrC.
Qed.
End Link.
Print Assumptions C115_loo.
Print Assumptions C115_predict.
Print Assumptions C115_sequence.

(* A concrete case: two observations, the second one removed, constant mean or known mean. *)
Section Case.
Let c : kernel R_rcfType 'I_(1 + 1) := Kernel (fun i j => w_K R_rcfType i j) 0.
Let x : 'I_(1 + 1) -> 'I_(1 + 1) := fun i => i.
Let p : 'I_(1 + 1) -> 'I_1 -> R := fun i k => w_P R_rcfType i k.
Let f : 'I_(1 + 0) -> 'I_(1 + 1) := fun i => lshift 1 i.
Example C115_case : [/\ gone f (rshift 1 ord0), solvable (KLinear p) c x f,
  solvable (KParam (Some (fun i => w_P R_rcfType i ord0)) : mean_kind R_rcfType 'I_(1 + 1) 1) c x f &
  (exists qr, forall P, is_qr P (qr P : 'M[R]_(1 + 1) * 'M[R]_(1 + 1, 1)))].
Proof. by have [h1 h2 h3 h4 h5] := C113_case R_rcfType; split=> //; exact: qr_exists. Qed.
(* the same two observations as a sequence *)
Example C115_sequence_case : solvable_from (KLinear p) c (fun l => inord l) 0 1.
Proof.
have eK : cov_same c (first (fun l => inord l) (n := 1 + 1)) = w_K R_rcfType.
  rewrite /cov_same /= raddf0 addr0; apply/matrixP => i j; rewrite [LHS]mxE /c /=.
  by congr (w_K _ _ _); apply: val_inj; rewrite /= inordK.
have eP : design p (first (fun l => inord l) (n := 1 + 1)) = w_P R_rcfType.
  by apply/matrixP => i j; rewrite [LHS]mxE /p; congr (w_P _ _ _); apply: val_inj; rewrite /= inordK.
split; first by rewrite eK eP; apply: pd_cpd; exact: w_pd.
move=> b0 /colP /(_ ord0); rewrite !mxE big_ord1 mxE /p /first /w_P.
have -> : inord (ord0 : 'I_(1 + 0)) = lshift 1 ord0 :> 'I_(1 + 1) by apply: val_inj; rewrite /= inordK.
by rewrite col_mxEu mxE eqxx mul1r => h; apply/colP => a; rewrite ord1 h mxE.
Qed.
End Case.
Print Assumptions C115_case.
