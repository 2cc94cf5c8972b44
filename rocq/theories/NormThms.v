(* NormThms.v
   Property C124: the squared norms that norm_k_sqrd_with_zero_mean and norm_k_sqrd
   return, when observations are added or removed, and what they say about predictions. *)
From mathcomp Require Import all_ssreflect all_fingroup all_algebra ring.
From Verif Require Import LinAlg KrigModel CholProofs LinQR KrigProofs KrigProofs2
  KrigProofs3 LooProofs OrderModel OrderProofs UpdProofs UpdThms ReplModel ReplProofs ReplThms
  InfoProofs InfoThms LinkProofs NormProofs.
Set Implicit Arguments.
Unset Strict Implicit.
Unset Printing Implicit Defensive.
Import Order.TTheory GRing.Theory Num.Theory.
Local Open Scope ring_scope.

Section Norms.
Variables (R : rcfType) (X : Type).

(* The norm that goes with each kind of mean: gpmp/core/model.py:429-452 and 481-504.
   norm_k_sqrd_with_zero_mean does not subtract the mean itself (its documentation speaks
   of the residual vector), so for a parameterized mean it is called on the residuals. *)
Definition norm_at q r (qr : qr_fun R q r) (mk : mean_kind R X q) (c : kernel R X)
  (x : 'I_(q + r) -> X) (z : 'cV[R]_(q + r)) : res R :=
  match mk with
  | KZero => norm_k_sqrd_with_zero_mean (cov_same c x) z
  | KLinear p => norm_k_sqrd qr (cov_same c x) (design p x) z
  | KParam (Some h) => norm_k_sqrd_with_zero_mean (cov_same c x) (z - mean_col h x)
  | KParam None => Err ValueErr
  end.

Lemma einsum_q n (A : 'M[R]_n) (z y : 'cV[R]_n) : y = A *m z -> einsum_ii z y 0 0 = qform A z.
Proof.
by move=> ->; rewrite einsum_iiE /qform /bilin mulmxA.
Qed.

Lemma B_uniq' n p (K B B' : 'M[R]_n) (P : 'M[R]_(n, p)) C C' : uk_lhs K P \in unitmx ->
  P^T *m B = 0 -> K *m B + P *m C = 1%:M -> P^T *m B' = 0 -> K *m B' + P *m C' = 1%:M -> B = B'.
Proof.
move=> u h1 h2 h3 h4; rewrite -(trmx0 R n p) in h1 h3.
by have [-> _] := uk_uniq u h2 h1; have [-> _] := uk_uniq u h4 h3.
Qed.

Lemma norm_rep q r (qr : qr_fun R q r) mk c (x : 'I_(q + r) -> X) z B C :
  (forall P, is_qr P (qr P)) ->
  let K := cov_same c x in let P := design (@rp _ _ _ mk) x in
  cond_pos_def K P -> full_col_rank P -> mk <> KParam None ->
  P^T *m B = 0 -> K *m B + P *m C = 1%:M ->
  norm_at qr mk c x z = Ok (qform B (z - mean_col (rm mk) x)).
Proof.
move=> hqr K P cK fP nN PB KB.
have u := uk_lhs_unit cK fP.
have m0 : z - mean_col (fun _ : X => 0) x = z.
  by apply/colP => i; rewrite !mxE oppr0 addr0.
have zero (y : 'cV[R]_(q + r)) (P0 : 'M[R]_(q + r, 0)) B0 C0 : pos_def K -> P0^T *m B0 = 0 ->
    K *m B0 + P0 *m C0 = 1%:M -> uk_lhs K P0 \in unitmx ->
    norm_k_sqrd_with_zero_mean K y = Ok (qform B0 y).
  move=> pK PB0 KB0 u0; have uK := pd_unit pK.
  rewrite /norm_k_sqrd_with_zero_mean; have [L cL -> /=] := cholesky_solve_ok y pK.
  rewrite (@einsum_q _ (invmx K)) //; congr (Ok (qform _ _)).
  apply: (@B_uniq' _ _ K _ _ P0 0 C0) => //; first by apply/matrixP => -[].
  by rewrite mulmxV // mulmx0 addr0.
case: mk C nN @P cK fP PB KB u => [|p|[h|]] //= C _ cK fP PB KB u.
- by rewrite m0; exact: (zero _ _ B C (pd_of_cpd0 cK) PB KB u).
- rewrite m0; have pG := G_pd (hqr (design p x)) cK.
  rewrite /norm_k_sqrd /compute_contrast_matrix /compute_contrast_covariance.
  have [C0 [sB0 PB0 KB0]] := cpd_B (hqr (design p x)) cK fP.
  have -> := B_uniq' u PB KB PB0 KB0.
  case E: (qr (design p x)) pG => [Q Rm] /= pG; rewrite -/K.
  have [L cL -> /=] := cholesky_solve_ok ((rsubmx Q)^T *m z) pG.
  rewrite (@einsum_q _ (invmx ((rsubmx Q)^T *m (K *m rsubmx Q)))) // qform_mul trmxK.
  by rewrite -mulmxA.
- exact: (zero _ _ B C (pd_of_cpd0 cK) PB KB u).
Qed.

Lemma norm_ex q r (qr : qr_fun R q r) mk c (x : 'I_(q + r) -> X) z :
  (forall P, is_qr P (qr P)) -> fits mk (cov_same c x) x ->
  let K := cov_same c x in let P := design (@rp _ _ _ mk) x in
  exists B C, [/\ symmetric B, P^T *m B = 0, K *m B + P *m C = 1%:M, cond_pos_def K P
    & norm_at qr mk c x z = Ok (qform B (z - mean_col (rm mk) x))].
Proof.
move=> hqr /fits_rep [cK fP nN] K P; have [B [C [sB PB KB _]]] := loo_rep z hqr cK fP nN.
by exists B, C; split=> //; exact: (norm_rep z hqr cK fP nN PB KB).
Qed.

(* What the second norm is given: some of the observations (f), at least as many possible
   means, a covariance function and a nugget at least as large. *)
Definition weaker q q' r r' (mk : mean_kind R X q) (mk' : mean_kind R X q') (c c' : kernel R X)
  (f : 'I_(q' + r') -> 'I_(q + r)) : Prop :=
  [/\ injective f, forall h, admits mk h -> admits mk' h, kern_le (kfun c) (kfun c') & knug c <= knug c'].

Lemma admits_le q q' (mk : mean_kind R X q) (mk' : mean_kind R X q') :
  (forall h, admits mk h -> admits mk' h) -> mean_le mk mk'.
Proof. by move=> H d [h [h' [H1 H2 H3]]]; exists h, h'; split; auto. Qed.

Lemma admits_rm q (mk : mean_kind R X q) : mk <> KParam None -> admits mk (rm mk).
Proof.
case: mk => [|p|[h|]] //= _.
by exists (fun=> 0) => y; rewrite big1 // => k _; rewrite mulr0.
Qed.

(* an admitted mean differs from rm by a combination of the trend functions *)
Lemma admits_span q (mk : mean_kind R X q) h : admits mk h ->
  exists b : 'cV[R]_(rq mk), forall n (x : 'I_n -> X), mean_col h x = mean_col (rm mk) x + design (@rp _ _ _ mk) x *m b.
Proof.
case: mk => [|p|[g|]] //=.
- by move=> H; exists 0 => n x; rewrite mulmx0 addr0; apply/colP => i; rewrite !mxE H.
- case=> b H; exists (\col_k b k) => n x; apply/colP => i; rewrite !mxE H add0r.
  by apply: eq_bigr => k _; rewrite !mxE.
- by move=> H; exists 0 => n x; rewrite mulmx0 addr0; apply/colP => i; rewrite !mxE H.
Qed.

Lemma qform_shift n q (B : 'M[R]_n) (P : 'M[R]_(n, q)) y b : symmetric B -> P^T *m B = 0 ->
  qform B (y + P *m b) = qform B y.
Proof.
move=> sB PB; have BP : B *m P = 0 by rewrite -[B]sB -[P]trmxK -trmx_mul PB trmx0.
rewrite !qE; have -> : (y + P *m b)^T = y^T + b^T *m P^T by rewrite -trmx_mul; apply/matrixP => i j; rewrite !mxE.
rewrite mulmxDl -(mulmxA b^T) PB mulmx0 addr0 mulmxDr mulmxA -(mulmxA _ B P) BP mulmx0 mul0mx addr0.
by [].
Qed.

(* The norm never increases when less is given. *)
Theorem C124_monotone q q' r r' (qr : qr_fun R q r) (qr' : qr_fun R q' r') mk mk' c c' f
  (x : 'I_(q + r) -> X) z :
  (forall P, is_qr P (qr P)) -> (forall P, is_qr P (qr' P)) ->
  weaker mk mk' c c' f ->
  fits mk (cov_same c x) x -> fits mk' (cov_same c' (fun i => x (f i))) (fun i => x (f i)) ->
  exists a a', [/\ norm_at qr mk c x z = Ok a,
     norm_at qr' mk' c' (fun i => x (f i)) (\col_i z (f i) 0) = Ok a' & 0 <= a' <= a].
Proof.
move=> hqr hqr' [fi ad kl nl] F F'.
have [B [C [sB PB KB cK E]]] := norm_ex z hqr F.
have [B' [C' [sB' PB' KB' cK' E']]] := norm_ex (\col_i z (f i) 0) hqr' F'.
do 2 eexists; split; [exact: E | exact: E' |].
have [A hA] := mean_span (admits_le ad).
have nN : mk <> KParam None by move: F; case: (mk) => [|p|[h|]].
have [b hb] := admits_span (ad _ (admits_rm nN)).
rewrite (norm_ge0 cK' sB' PB' KB') /=.
have -> : \col_i z (f i) 0 - mean_col (rm mk') (fun i => x (f i)) =
    (sel R f)^T *m (z - mean_col (rm mk) x) + design (@rp _ _ _ mk') (fun i => x (f i)) *m b.
  rewrite mulmxBr; have -> : (sel R f)^T *m mean_col (rm mk) x = mean_col (rm mk) (fun i => x (f i)).
    by rewrite -rows_ofE; apply/colP => i; rewrite !mxE.
  rewrite (hb _ (fun i => x (f i))) opprD addrA subrK; congr (_ - _).
  by rewrite -rows_ofE; apply/colP => i; rewrite !mxE.
rewrite qform_shift //; apply: (@norm_le _ _ _ _ _ _ _ _ C _ _ _ C' (sel R f) A cK sB PB KB sB' PB' KB') => //.
- by rewrite -design_sub; exact: design_span.
- move=> w; rewrite qform_mul -cov_same_sub // !nug_form; apply: ler_add; first exact: kl.
  by apply: ler_wpmul2r => //; apply: sumr_ge0 => l _; exact: sqr_ge0.
Qed.

(* The norm is zero exactly when the observations are the values of a possible mean. *)
Theorem C124_zero q r (qr : qr_fun R q r) mk c (x : 'I_(q + r) -> X) z :
  (forall P, is_qr P (qr P)) -> fits mk (cov_same c x) x ->
  exists a, [/\ norm_at qr mk c x z = Ok a, 0 <= a &
    a = 0 <-> exists h, admits mk h /\ forall i, z i 0 = h (x i)].
Proof.
move=> hqr F; have [B [C [sB PB KB cK E]]] := norm_ex z hqr F.
eexists; split; [exact: E | exact: (norm_ge0 cK sB PB KB) |].
have nN : mk <> KParam None by move: F; case: (mk) => [|p|[h|]].
apply: (iff_trans (norm_0 cK sB PB KB _)); split=> [[b hz]|[h [ah hz]]]; last first.
  have [b hb] := admits_span ah; exists b; apply/eqP; rewrite subr_eq addrC -hb; apply/eqP.
  by apply/colP => i; rewrite mxE hz.
exists (fun y => rm mk y + \sum_k rp y k * b k 0); split=> [|i].
  case: (mk) nN b {hz} => [|p|[g|]] //= _ b.
  + by move=> y; rewrite big_ord0 addr0.
  + by exists (fun k => b k 0) => y; rewrite add0r.
  + by move=> y; rewrite big_ord0 addr0.
have /eqP := hz; rewrite subr_eq addrC => /eqP ->; rewrite !mxE; congr (_ + _).
by apply: eq_bigr => k _; rewrite !mxE.
Qed.

(* One more observation adds to the norm the squared standardised prediction error. *)
Theorem C124_increment q r (qr : qr_fun R q r.+1) (qr' : qr_fun R q r) ss mk c (x : 'I_(q + r.+1) -> X) z
  (f : 'I_(q + r) -> 'I_(q + r.+1)) i :
  (forall P, is_qr P (qr P)) -> (forall P, is_qr P (qr' P)) ->
  injective f -> (forall l, f l != i) -> (forall l, l != i -> exists a, f a = l) -> solvable mk c x f ->
  exists a a1 mu v lam,
    [/\ norm_at qr mk c x z = Ok a,
        norm_at qr' mk c (fun l => x (f l)) (\col_l z (f l) 0) = Ok a1,
        predict_at qr' ss mk c (fun l => x (f l)) (\col_l z (f l) 0) (fun _ : 'I_1 => x i) false = Ok (mu, v, lam),
        0 < v 0 0 + knug c
      & a = a1 + (z i 0 - mu 0 0) ^+ 2 / (v 0 0 + knug c)].
Proof.
move=> hqr hqr' fi fni fon sol; have [cK fP nN] := solvable_rep fi sol.
have cK' : cond_pos_def (cov_same c (fun i => x (f i))) (design (@rp _ _ _ mk) (fun i => x (f i))).
  by rewrite (cov_same_sub c x fi) (design_sub (@rp _ _ _ mk) x f); exact: sub_cpd.
have fP' : full_col_rank (design (@rp _ _ _ mk) (fun i => x (f i))) by rewrite (design_sub (@rp _ _ _ mk) x f).
have cz : (\col_i z (f i) 0) - mean_col (rm mk) (fun i => x (f i)) =
    (sel R f)^T *m (z - mean_col (rm mk) x).
  by rewrite -rows_ofE; apply/colP => l; rewrite !mxE.
have [B [C [sB PB KB _]]] := loo_rep z hqr cK (sub_rank fP) nN.
have [B1 [C1 [sB1 PB1 KB1 _]]] := loo_rep (\col_l z (f l) 0) hqr' cK' fP' nN.
have fwo : full_col_rank (P_wo i (design (@rp _ _ _ mk) x)).
  move=> b0 hb; apply: fP; rewrite -mulmxA -rows_ofE; apply/colP => a; rewrite mxE [RHS]mxE.
  have [a' ea] : exists a', lift i a' = f a.
    by have := fni a; rewrite eq_sym => /unlift_some [a' -> _]; exists a'.
  have := hb; rewrite /P_wo => /colP /(_ a'); rewrite [RHS]mxE => <-.
  by rewrite -ea [LHS]mxE [RHS]mxE; apply: eq_bigr => t _; rewrite [row' _ _ _ _]mxE.
have Bii : 0 < B i i by rewrite (B_diag_pos cK sB PB KB).
have Se := one_Se R fni; have SS := one_SS R fi fni fon.
pose e : 'cV[R]_(q + r.+1) := delta_mx i 0.
have So : (sel R f)^T *m sel R f = 1%:M by exact: sel_inj_orth.
have ee : e^T *m e = 1%:M.
  by apply/matrixP => l l'; rewrite trmx_delta mul_delta_mx !ord1 !mxE eqxx.
have eBe : e^T *m B *m e = (B i i)%:M.
  by apply/matrixP => l l'; rewrite !ord1 trmx_delta -rowE -colE !mxE eqxx.
have bn : B i i != 0 by rewrite gt_eqF.
have u1 : uk_lhs ((sel R f)^T *m cov_same c x *m sel R f) ((sel R f)^T *m design (@rp _ _ _ mk) x) \in unitmx.
  by rewrite -(cov_same_sub c x fi) -(design_sub (@rp _ _ _ mk) x f); exact: uk_lhs_unit.
have eK : cov_cross c (fun l => x (f l)) (fun _ : 'I_1 => x i) = (sel R f)^T *m (cov_same c x *m e).
  by rewrite -colE -rows_ofE; apply/matrixP => l l'; rewrite !mxE (negbTE (fni l)) mulr0n addr0.
have eP : design (@rp _ _ _ mk) (fun _ : 'I_1 => x i) = e^T *m design (@rp _ _ _ mk) x.
  by rewrite trmx_delta -rowE; apply/matrixP => l l'; rewrite !mxE.
have M := one_pred Se SS sB PB KB eBe bn u1 (z - mean_col (rm mk) x).
have V := one_var Se ee SS sB PB KB eBe bn u1 cK.1.
have hK : (e^T *m cov_same c x *m e) 0 0 = kfun c (x i) (x i) + knug c.
  by rewrite trmx_delta -rowE -colE !mxE eqxx.
have hV (k g w : R) : k - (k + g - w) + g = w by rewrite opprB addrC addrA (addrC g) addrC subrK.
have eg (y : 'cV[R]_(q + r.+1)) : (e^T *m y) 0 0 = y i 0 by rewrite trmx_delta -rowE mxE.
have rE (F : 'I_1 -> R) j : (\row_l F l) 0 j = F j by rewrite mxE.
have Q : qform B (z - mean_col (rm mk) x) = qform B1 ((\col_l z (f l) 0) - mean_col (rm mk) (fun l => x (f l)))
   + ((B *m (z - mean_col (rm mk) x)) i 0) ^+ 2 / B i i.
  rewrite cz -eg; move: PB1 KB1; rewrite (cov_same_sub c x fi) (design_sub (@rp _ _ _ mk) x f) => PB1 KB1.
  by apply: (one_quad Se So SS sB PB KB eBe bn u1) PB1 KB1.
exists (qform B (z - mean_col (rm mk) x)), (qform B1 ((\col_l z (f l) 0) - mean_col (rm mk) (fun l => x (f l)))).
do 3 eexists; split; [exact: (norm_rep z hqr cK (sub_rank fP) nN PB KB)
  | exact: (norm_rep _ hqr' cK' fP' nN PB1 KB1) | exact: (predict_rep _ _ _ _ _ cK' fP' nN) | |].
all: rewrite /= (cov_same_sub c x fi) (design_sub (@rp _ _ _ mk) x f) eK eP ?cz rsubE einsum_iiE V msubE hK
  [_%:M 0 0]mxE eqxx mulr1n [cov_same_pairwise _ _ _ _]mxE hV.
- by rewrite invr_gt0.
- have sE (t : R) (A : 'M[R]_1) : (t *: A) 0 0 = t * A 0 0 by rewrite mxE.
  rewrite -cz Q; congr (_ + _); rewrite cz rE M msubE sE !eg.
  have -> : (z - mean_col (rm mk) x) i 0 = z i 0 - rm mk (x i) by rewrite msubE [mean_col _ _ _ _]mxE.
  set g := (B *m _) i 0; rewrite invrK addrAC subrK subKr exprMn.
  by rewrite [RHS]mulrAC -[RHS]mulrC; congr (_ * _); rewrite expr2 -mulrA mulVf // mulr1.
Qed.

(* The value observed at a point is no further from the prediction without it than the
   norm and the predictive variance allow. *)
Theorem C124_bound q r (qr : qr_fun R q r.+1) (qr' : qr_fun R q r) ss mk c (x : 'I_(q + r.+1) -> X) z
  (f : 'I_(q + r) -> 'I_(q + r.+1)) i :
  (forall P, is_qr P (qr P)) -> (forall P, is_qr P (qr' P)) ->
  injective f -> (forall l, f l != i) -> (forall l, l != i -> exists a, f a = l) -> solvable mk c x f ->
  exists a mu v lam,
    [/\ norm_at qr mk c x z = Ok a,
        predict_at qr' ss mk c (fun l => x (f l)) (\col_l z (f l) 0) (fun _ : 'I_1 => x i) false = Ok (mu, v, lam)
      & (z i 0 - mu 0 0) ^+ 2 <= a * (v 0 0 + knug c)].
Proof.
move=> hqr hqr' fi fni fon sol.
have [a [a1 [mu [v [lam [E E1 Ep v0 ea]]]]]] := C124_increment ss z hqr hqr' fi fni fon sol.
exists a, mu, v, lam; split=> //; rewrite ea mulrDl divfK ?gt_eqF // ler_addr.
apply: mulr_ge0; last exact: ltW.
have F : fits mk (cov_same c (fun l => x (f l))) (fun l => x (f l)).
  have [cK fP nN] := solvable_rep fi sol.
  have := sub_cpd fi cK; rewrite -(cov_same_sub c x fi) -(design_sub (@rp _ _ _ mk) x f) => cK'.
  have fP' := fP; rewrite -(design_sub (@rp _ _ _ mk) x f) in fP'.
  by case: (mk) nN cK' fP' => [|p|[h|]] //= _ cK' fP'; exact: (pd_of_cpd0 cK').
by have [a2 [E2 p2 _]] := C124_zero (\col_l z (f l) 0) hqr' F; move: E1; rewrite E2 => -[<-].
Qed.

(* The norm of some of the observations equals that of all of them exactly when the left
   out ones are the predictions from the kept ones. *)
Theorem C124_equal q r r' (qr : qr_fun R q r) (qr' : qr_fun R q r') ss mk c (x : 'I_(q + r) -> X) z
  (f : 'I_(q + r') -> 'I_(q + r)) neg :
  (forall P, is_qr P (qr P)) -> (forall P, is_qr P (qr' P)) -> injective f -> solvable mk c x f ->
  exists a a1 mu v lam,
    [/\ norm_at qr mk c x z = Ok a,
        norm_at qr' mk c (fun l => x (f l)) (\col_l z (f l) 0) = Ok a1,
        predict_at qr' ss mk c (fun l => x (f l)) (\col_l z (f l) 0) x neg = Ok (mu, v, lam)
      & a1 = a <-> forall l, (forall i, f i != l) -> z l 0 = mu 0 l].
Proof.
move=> hqr hqr' fi sol; have [cK fP nN] := solvable_rep fi sol.
have cK' : cond_pos_def (cov_same c (fun i => x (f i))) (design (@rp _ _ _ mk) (fun i => x (f i))).
  by rewrite (cov_same_sub c x fi) (design_sub (@rp _ _ _ mk) x f); exact: sub_cpd.
have fP' : full_col_rank (design (@rp _ _ _ mk) (fun i => x (f i))) by rewrite (design_sub (@rp _ _ _ mk) x f).
have cz : (\col_i z (f i) 0) - mean_col (rm mk) (fun i => x (f i)) =
    (sel R f)^T *m (z - mean_col (rm mk) x).
  by rewrite -rows_ofE; apply/colP => l; rewrite !mxE.
have [B [C [sB PB KB _]]] := loo_rep z hqr cK (sub_rank fP) nN.
have [B1 [C1 [sB1 PB1 KB1 _]]] := loo_rep (\col_l z (f l) 0) hqr' cK' fP' nN.
do 5 eexists; split; [exact: (norm_rep z hqr cK (sub_rank fP) nN PB KB)
  | exact: (norm_rep _ hqr' cK' fP' nN PB1 KB1) | exact: (predict_rep _ _ _ _ _ cK' fP' nN) |].
have hx : forall l a, (forall i, f i != l) ->
    cov_cross c (fun i => x (f i)) x a l = ((sel R f)^T *m cov_same c x) a l.
  by move=> l a nl; rewrite -rows_ofE !mxE (negbTE (nl a)) addr0.
move: PB1 KB1; rewrite cz (cov_same_sub c x fi) (design_sub (@rp _ _ _ mk) x f) => PB1 KB1.
apply: (iff_trans (sub_norm_eq fi cK fP sB PB KB sB1 PB1 KB1 hx _)).
by split=> h l nl; have := h l nl; rewrite msubE [mean_col _ _ l 0]mxE [(\row_j _) 0 l]mxE;
  [move/eqP; rewrite subr_eq => /eqP -> | move=> ->; rewrite addrK].
Qed.

(* For a constant mean the norm can be had from the three values of k_inverses. *)
Theorem C124_k_inverses r (qr : qr_fun R 1 r) c (x : 'I_(1 + r) -> X) (z : 'cV[R]_(1 + r)) :
  (forall P, is_qr P (qr P)) -> pos_def (cov_same c x) ->
  exists zz k1 kz, k_inverses (cov_same c x) z = Ok (zz, k1, kz) /\
    norm_at qr (KLinear (fun _ _ => 1)) c x z = Ok (zz - (\sum_i k1 i 0 * z i 0) ^+ 2 / \sum_i k1 i 0).
Proof.
move=> hqr pK; set K := cov_same c x in pK *; pose o : 'cV[R]_(1 + r) := const_mx 1.
have uK := pd_unit pK; have sI := (pd_inv pK).1.
rewrite /k_inverses /inv uK /=; do 3 eexists; split; first by [].
have eP : design (fun (_ : X) (_ : 'I_1) => 1 : R) x = o by apply/matrixP => i j; rewrite !mxE.
have fo : full_col_rank o.
  move=> b /colP /(_ ord0); rewrite !mxE big_ord1 !mxE mul1r => e.
  by apply/colP => k; rewrite ord1 e mxE.
have on : o != 0 by apply/eqP => /colP /(_ ord0); rewrite !mxE => /eqP; rewrite oner_eq0.
pose s := qform (invmx K) o; have s0 : 0 < s by exact: (pd_inv pK).2.
have sE : o^T *m invmx K *m o = s%:M.
  by apply/matrixP => i j; rewrite !ord1 [RHS]mxE eqxx mulr1n.
pose g := o^T *m invmx K.
pose B := invmx K - s^-1 *: (g^T *m g).
have PB : o^T *m B = 0.
  rewrite /B mulmxBr -scalemxAr mulmxA {2}/g trmx_mul trmxK sI mulmxA sE mul_scalar_mx scalerA mulVf ?gt_eqF //.
  by rewrite scale1r subrr.
have KB : K *m B + o *m (s^-1 *: g) = 1%:M.
  rewrite /B mulmxBr mulmxV // -!scalemxAr mulmxA {2}/g trmx_mul trmxK sI mulmxA mulmxV // mul1mx.
  by rewrite subrK.
have := @norm_rep 1 r qr (KLinear (fun _ _ => 1)) c x z B (s^-1 *: g) hqr.
rewrite /= eP => -> //; last exact: pd_cpd.
have -> : z - mean_col (fun _ : X => 0) x = z by apply/colP => i; rewrite !mxE oppr0 addr0.
have k1E i : (invmx K *m (const_mx 1 : 'cV[R]_(1 + r))) i 0 = g 0 i.
  have -> : g = (invmx K *m o)^T by rewrite trmx_mul sI.
  by rewrite [RHS]mxE.
congr (Ok _); rewrite (@einsum_q _ (invmx K) z) // /B /qform bilin_addm bilin_oppm bilin_scalem.
congr (_ - _); rewrite mulrC; congr (_ / _).
  have -> : bilin (g^T *m g) z z = ((g *m z)^T *m (g *m z)) 0 0 by clear; move: g => h; rewrite /bilin trmx_mul !mulmxA.
  rewrite mxE big_ord1 [_^T 0 0]mxE expr2; congr (_ * _); rewrite mxE; by apply: eq_bigr => i _; rewrite k1E.
rewrite /s /qform /bilin -/g mxE; by apply: eq_bigr => i _; rewrite k1E [o i 0]mxE mulr1.
Qed.

End Norms.
Print Assumptions C124_monotone.
Print Assumptions C124_zero.
Print Assumptions C124_increment.
Print Assumptions C124_bound.
Print Assumptions C124_equal.
Print Assumptions C124_k_inverses.

(* A concrete case: two observations 1 and 3 at two points with variances 1 and 4 and no
   correlation, constant mean, which are not the values of a constant. *)
Section Case.
Variable R : rcfType.
Let c : kernel R 'I_(1 + 1) := Kernel (fun i j => w_K R i j) 0.
Let x : 'I_(1 + 1) -> 'I_(1 + 1) := fun i => i.
Let p : 'I_(1 + 1) -> 'I_1 -> R := fun i k => w_P R i k.
Let f : 'I_(1 + 0) -> 'I_(1 + 1) := fun i => lshift 1 i.
Example C124_case :
  [/\ weaker (KLinear p) (KLinear p) c c f, fits (KLinear p) (cov_same c x) x,
      solvable (KLinear p) c x f & ~ exists h, admits (KLinear p) h /\
        forall i, (col_mx 1%:M (3%:R)%:M : 'cV[R]_(1 + 1)) i 0 = h (x i)].
Proof.
have [fi _ _ so _] := C113_case R; split=> //.
- by split=> [||n y v|] //; exact: lexx.
- split; first by case: so.
  have := sub_rank (f := f); move=> H; apply: H.
  by rewrite -(design_sub p x f); case: so.
- case=> h [[b hb] H]; have := H (lshift 1 ord0); have := H (rshift 1 ord0).
  rewrite col_mxEu col_mxEd !hb !big_ord1 /p /w_P /x col_mxEu col_mxEd !mxE !eqxx !mul1r => <- /eqP.
  by rewrite eqr_nat.
Qed.
End Case.
Print Assumptions C124_case.
