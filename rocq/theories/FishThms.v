(* FishThms.v
   Property C125: the Fisher information matrices of Model.fisher_information and
   Model.fisher_information_cpd, and the amount of data. *)
From mathcomp Require Import all_ssreflect all_fingroup all_algebra ring.
From Verif Require Import LinAlg KrigModel CholProofs LinQR KrigProofs KrigProofs2
  KrigProofs3 LooProofs PathProofs OrderModel OrderProofs UpdProofs UpdThms ReplModel ReplProofs ReplThms
  InfoProofs InfoThms NormProofs NormThms.
Set Implicit Arguments.
Unset Strict Implicit.
Unset Printing Implicit Defensive.
Import Order.TTheory GRing.Theory Num.Theory.
Local Open Scope ring_scope.

Lemma psd_unit_pd (R : rcfType) n (A : 'M[R]_n) : symmetric A -> (forall v, 0 <= qform A v) -> A \in unitmx -> pos_def A.
Proof.
move=> sA p u; split=> // v vn; rewrite lt_neqAle p andbT eq_sym; apply/eqP => q0.
pose w := A *m v; have wn : w != 0.
  by apply/eqP => w0; case/eqP: vn; apply: (inj_of_unit u); rewrite -/w w0.
set b := qform A w; pose a := (w^T *m w) 0 0.
have a0 : 0 < a.
  by have := (pos_def1 R n).2 w wn; rewrite /qform /bilin mulmx1.
have h t : qform A (v + t *: w) = 2%:R * t * a + t ^+ 2 * b.
  have eT : (v + t *: w)^T = v^T + t *: w^T by apply/matrixP => i j; rewrite !mxE.
  have e1 : v^T *m A = w^T by rewrite /w trmx_mul sA.
  have E (M M' : 'M[R]_1) : (M + M') 0 0 = M 0 0 + M' 0 0 by rewrite mxE.
  have E' k (M : 'M[R]_1) : (k *: M) 0 0 = k * M 0 0 by rewrite mxE.
  have e2 : (w^T *m v) 0 0 = 0 by rewrite -e1; exact: q0.
  have e3 : (w^T *m A *m v) 0 0 = a by rewrite -mulmxA.
  rewrite qE eT mulmxDl e1 -scalemxAl mulmxDl !mulmxDr -!scalemxAr -!scalemxAl !E !E' e2 e3 -/a -[(w^T *m A *m w) 0 0]/b.
  clear; ring.
have b0 : 0 <= b by exact: p.
have b1 : 0 < b + 1 by rewrite ltr_paddl ?ltr01.
have := p (v + (- (a / (b + 1))) *: w); rewrite h leNgt => /negP; apply.
have -> : 2%:R * - (a / (b + 1)) * a + (- (a / (b + 1))) ^+ 2 * b = - (a / (b + 1)) ^+ 2 * (b + 2%:R).
  have bn : b + 1 != 0 by rewrite gt_eqF.
  have -> : 2%:R * - (a / (b + 1)) * a = - (2%:R * (a / (b + 1)) ^+ 2 * (b + 1)).
    by rewrite mulrN mulNr expr2 -!mulrA; congr (- (_ * (_ * _))); rewrite [RHS]mulrCA mulVf // mulr1 mulrC.
  move: (a / (b + 1)) => d; clear; ring.
rewrite mulNr oppr_lt0 pmulr_rgt0; first by rewrite ltr_paddl // ltr0n.
by rewrite exprn_gt0 // divr_gt0.
Qed.

Section Fish.
Variables (R : rcfType) (X : Type) (p : nat).

(* gpmp/core/fisher.py:105-151 fisher_information_cpd: contrast space for a linear
   predictor, fisher_information otherwise.  c theta is the covariance function for the
   parameters theta.  (fisher_information itself, fisher.py:13-78, is the case KZero:
   it does not look at the mean.) *)
Definition fisher_at q r (qr : qr_fun R q r) (mk : mean_kind R X q) (c : 'rV[R]_p -> kernel R X)
  (theta : 'rV[R]_p) (eps : R) (x : 'I_(q + r) -> X) : res 'M[R]_p :=
  let cov th := cov_same (c th) x in
  match mk with
  | KLinear P => fisher_information_cpd qr (cov theta) (design P x)
      (fun i => derivative_finite_diff (fun v => cov (set_coord theta i v)) (theta 0 i) eps)
  | _ => fisher_information_fd cov theta eps
  end.

Let dK (c : 'rV[R]_p -> kernel R X) theta eps n (x : 'I_n -> X) (i : 'I_p) : 'M[R]_n :=
  derivative_finite_diff (fun v => cov_same (c (set_coord theta i v)) x) (theta 0 i) eps.

Lemma dK_sym c theta eps n (x : 'I_n -> X) i : (forall th, sym_kern (kfun (c th))) -> symmetric (dK c theta eps x i).
Proof.
move=> sk; apply: fd_sym => t; apply/matrixP => a b; rewrite !mxE sk; congr (_ + _).
by rewrite eq_sym.
Qed.
Lemma dK_sub c theta eps n k (x : 'I_n -> X) (f : 'I_k -> 'I_n) i : injective f ->
  dK c theta eps (fun a => x (f a)) i = (sel R f)^T *m dK c theta eps x i *m sel R f.
Proof.
by move=> fi; rewrite -both_ofE /dK; apply/matrixP => a b; rewrite !mxE !(inj_eq fi).
Qed.

Lemma fisher_rep q r (qr : qr_fun R q r) mk c theta eps (x : 'I_(q + r) -> X) :
  (forall P, is_qr P (qr P)) -> fits mk (cov_same (c theta) x) x ->
  let K := cov_same (c theta) x in let P := design (@rp _ _ _ mk) x in
  exists B C l (N : 'M[R]_(q + r, l)),
   [/\ symmetric B, P^T *m B = 0, K *m B + P *m C = 1%:M, B = N *m N^T
    & fisher_at qr mk c theta eps x = Ok (\matrix_(i, j) fisher_trace B (dK c theta eps x i) (dK c theta eps x j))].
Proof.
move=> hqr F K P.
have zero : pos_def K -> forall P0 : 'M[R]_(q + r, 0), exists B (C : 'M[R]_(0, q + r)) l (N : 'M[R]_(q + r, l)),
   [/\ symmetric B, P0^T *m B = 0, K *m B + P0 *m C = 1%:M, B = N *m N^T
    & fisher_information_fd (fun th => cov_same (c th) x) theta eps =
      Ok (\matrix_(i, j) fisher_trace B (dK c theta eps x i) (dK c theta eps x j))].
  move=> pK P0; have [N hN] := G_factor 1%:M pK; exists (invmx K), 0, (q + r)%N, N.
  split; [exact: (pd_inv pK).1 | by apply/matrixP => -[] | by rewrite mulmxV ?pd_unit // mulmx0 addr0 | |].
    by rewrite -hN trmx1 mulmx1 mul1mx.
  by rewrite /fisher_information_fd fisher_entries ?pd_unit.
case: mk @P F => [|P1|[h|]] //=.
- by move=> pK; exact: (zero pK).
- case=> cK fP; have pG := G_pd (hqr (design P1 x)) cK.
  have [C [sB PB KB]] := cpd_B (hqr (design P1 x)) cK fP.
  have [N hN] := G_factor (rsubmx (qr (design P1 x)).1) pG.
  do 4 eexists; split; [exact: sB | exact: PB | exact: KB | exact: hN |].
  have [I [-> hI]] := fisher_cpd_B (dK c theta eps x) (hqr (design P1 x)) cK fP PB KB.
  by congr (Ok _); apply/matrixP => i j; rewrite hI [RHS]mxE /fisher_trace mulrC.
- by move=> pK; exact: (zero pK).
Qed.

Lemma fisher_q n (B : 'M[R]_n) (D : 'I_p -> 'M[R]_n) (v : 'cV[R]_p) :
  qform (\matrix_(i, j) fisher_trace B (D i) (D j)) v =
  2%:R^-1 * \tr (B *m (\sum_i v i 0 *: D i) *m B *m (\sum_i v i 0 *: D i)).
Proof. by rewrite fisher_qform /= mulmxA. Qed.

Lemma fisher_le q q' r r' (qr : qr_fun R q r) (qr' : qr_fun R q' r') mk mk' c theta eps
  (x : 'I_(q + r) -> X) (f : 'I_(q' + r') -> 'I_(q + r)) :
  (forall P, is_qr P (qr P)) -> (forall P, is_qr P (qr' P)) -> injective f -> mean_le mk mk' ->
  (forall th, sym_kern (kfun (c th))) ->
  fits mk (cov_same (c theta) x) x -> fits mk' (cov_same (c theta) (fun i => x (f i))) (fun i => x (f i)) ->
  exists I I', [/\ fisher_at qr mk c theta eps x = Ok I,
    fisher_at qr' mk' c theta eps (fun i => x (f i)) = Ok I', symmetric I /\ symmetric I',
    forall v, 0 <= qform I' v & forall v, qform I' v <= qform I v].
Proof.
move=> hqr hqr' fi ml sk F F'.
have [cK fP nN] := fits_rep F; have [cK' fP' nN'] := fits_rep F'.
have [B [C [l [N [sB PB KB eB E]]]]] := fisher_rep eps hqr F.
have [B' [C' [l' [N' [sB' PB' KB' eB' E']]]]] := fisher_rep eps hqr' F'.
have [A hA] := mean_span ml.
do 2 eexists; split; [exact: E | exact: E' | | |].
- by split; apply/matrixP => i j; rewrite !mxE fisher_trace_sym.
- move=> v; rewrite fisher_q pmulr_rge0 ?invr_gt0 ?ltr0n //; set D := \sum_i _.
  have sD : D^T = D by apply: sum_sym => i; exact: dK_sym.
  have -> : \tr (B' *m D *m B' *m D) = \tr ((N'^T *m D *m N')^T *m (N'^T *m D *m N')).
    by rewrite !trmx_mul trmxK sD eB' -!mulmxA mxtrace_mulC !mulmxA.
  exact: trace_gram_ge0.
move=> v; rewrite !fisher_q ler_pmul2l ?invr_gt0 ?ltr0n //; set S := sel R f.
have -> : \sum_i v i 0 *: dK c theta eps (fun a => x (f a)) i = S^T *m (\sum_i v i 0 *: dK c theta eps x i) *m S.
  rewrite mulmx_sumr mulmx_suml; apply: eq_bigr => i _.
  by rewrite dK_sub // -/S; move: (dK c theta eps x i) => M; rewrite -scalemxAr -scalemxAl.
set D := \sum_i _; have sD : D^T = D by apply: sum_sym => i; exact: dK_sym.
have -> : \tr (B' *m (S^T *m D *m S) *m B' *m (S^T *m D *m S)) =
    \tr ((S *m B' *m S^T) *m D *m (S *m B' *m S^T) *m D).
  by rewrite !mulmxA [LHS]mxtrace_mulC !mulmxA.
apply: (@tr_le _ _ _ _ _ _ _ N (S *m N') eB _ sD).
  by rewrite trmx_mul {1}eB' !mulmxA.
move=> z; have -> : qform (S *m B' *m S^T) z = qform B' (S^T *m z) by rewrite qform_mul trmxK.
apply: (@norm_le _ _ _ _ _ _ _ _ C _ _ _ C' S A cK sB PB KB sB' PB' KB').
- by rewrite -design_sub; exact: design_span.
- by move=> w; rewrite qform_mul -cov_same_sub.
Qed.

(* Removing observations or leaving more of the mean unknown never adds information, on
   any combination of the parameters. *)
Theorem C125_less q q' r r' (qr : qr_fun R q r) (qr' : qr_fun R q' r') mk mk' c theta eps
  (x : 'I_(q + r) -> X) (f : 'I_(q' + r') -> 'I_(q + r)) :
  (forall P, is_qr P (qr P)) -> (forall P, is_qr P (qr' P)) -> injective f -> mean_le mk mk' ->
  (forall th, sym_kern (kfun (c th))) ->
  fits mk (cov_same (c theta) x) x -> fits mk' (cov_same (c theta) (fun i => x (f i))) (fun i => x (f i)) ->
  exists I I', [/\ fisher_at qr mk c theta eps x = Ok I,
    fisher_at qr' mk' c theta eps (fun i => x (f i)) = Ok I' & forall v, qform I' v <= qform I v].
Proof.
move=> h1 h2 h3 h4 h5 h6 h7; have [I [I' [E E' _ _ h]]] := fisher_le eps h1 h2 h3 h4 h5 h6 h7.
by exists I, I'.
Qed.

(* The approximate variances of the parameter estimates, in the inverse matrix, are
   never larger with more data or a better known mean. *)
Theorem C125_variances q q' r r' (qr : qr_fun R q r) (qr' : qr_fun R q' r') mk mk' c theta eps
  (x : 'I_(q + r) -> X) (f : 'I_(q' + r') -> 'I_(q + r)) :
  (forall P, is_qr P (qr P)) -> (forall P, is_qr P (qr' P)) -> injective f -> mean_le mk mk' ->
  (forall th, sym_kern (kfun (c th))) ->
  fits mk (cov_same (c theta) x) x -> fits mk' (cov_same (c theta) (fun i => x (f i))) (fun i => x (f i)) ->
  exists I I', [/\ fisher_at qr mk c theta eps x = Ok I,
    fisher_at qr' mk' c theta eps (fun i => x (f i)) = Ok I' &
    I' \in unitmx -> I \in unitmx /\ forall v, 0 <= qform (invmx I) v <= qform (invmx I') v].
Proof.
move=> h1 h2 h3 h4 h5 h6 h7; have [I [I' [E E' [sI sI'] p0 h]]] := fisher_le eps h1 h2 h3 h4 h5 h6 h7.
exists I, I'; split=> // u.
have pI' : pos_def I' by apply: psd_unit_pd.
have pI : pos_def I by split=> // v vn; apply: lt_le_trans (h v); exact: pI'.2.
split=> [|v]; first exact: pd_unit.
have [sB sB'] := ((pd_inv pI).1, (pd_inv pI').1).
pose P0 : 'M[R]_(p, 0) := 0; have z1 (A : 'M[R]_p) : P0^T *m A = 0 by apply/matrixP => -[].
have e1 : I *m invmx I + P0 *m (0 : 'M[R]_(0, p)) = 1%:M by rewrite mulmxV ?pd_unit // mulmx0 addr0.
have e2 : I' *m invmx I' + P0 *m (0 : 'M[R]_(0, p)) = 1%:M by rewrite mulmxV // mulmx0 addr0.
rewrite (norm_ge0 (pd_cpd P0 pI) sB (z1 _) e1) /=.
have := @norm_le _ _ _ _ _ _ _ P0 0 _ _ P0 0 1%:M 0 (pd_cpd P0 pI') sB' (z1 _) e2 sB (z1 _) e1.
rewrite trmx1 mul1mx => /(_ _ _ v); rewrite mul1mx; apply.
- by apply/matrixP => i [].
- by move=> w; rewrite mul1mx.
Qed.

(* The five-point difference quotient of gpmp/num/shared.py:44-55, on numbers. *)
Definition quotient (g : R -> R) (x h : R) : R :=
  (- g (x + 2%:R * h) + 8%:R * g (x + h) - 8%:R * g (x - h) + g (x - 2%:R * h)) / (12%:R * h).
Definition effective q r (mk : mean_kind R X q) : nat := match mk with KLinear _ => r | _ => q + r end.

(* A parameter that multiplies the covariance: its information depends on the number of
   data only (minus the number of trend functions), not on the points nor on the rest of
   the covariance. *)
Theorem C125_scale q r (qr : qr_fun R q r) mk c theta eps (x : 'I_(q + r) -> X) i g K0 :
  (forall P, is_qr P (qr P)) -> fits mk (cov_same (c theta) x) x ->
  (forall v, cov_same (c (set_coord theta i v)) x = g v *: K0) ->
  exists I, fisher_at qr mk c theta eps x = Ok I /\
    I i i = (quotient g (theta 0 i) eps / g (theta 0 i)) ^+ 2 * ((effective r mk)%:R / 2%:R).
Proof.
move=> hqr F hc; have [cK fP nN] := fits_rep F.
have [B [C [l [N [sB PB KB eB E]]]]] := fisher_rep eps hqr F.
eexists; split; first exact: E.
have th : set_coord theta i (theta 0 i) = theta.
  by apply/rowP => k; rewrite mxE; case: eqP => // ->.
set K := cov_same (c theta) x in KB cK; set P := design _ x in PB KB cK fP.
have eK : K = g (theta 0 i) *: K0 by rewrite /K -{1}th hc.
have eD : dK c theta eps x i = quotient g (theta 0 i) eps *: K0.
  rewrite /dK; apply/matrixP => a b; rewrite /derivative_finite_diff !hc !mxE /quotient.
  move: (12%:R * eps)^-1 (K0 a b) (g _) (g _) (g _) (g _) => d k t1 t2 t3 t4; clear; ring.
have CP : C *m P = 1%:M.
  apply/eqP; rewrite -subr_eq0; apply/eqP; apply/matrixP => a b.
  have := fP (col b (C *m P - 1%:M)).
  rewrite colE mulmxA mulmxBr mulmx1 mulmxA.
  have -> : P *m C *m P - P = 0.
    have -> : P *m C = 1%:M - K *m B by rewrite -KB addrAC subrr add0r.
    by rewrite mulmxBl mul1mx -mulmxA (BP0 sB PB) mulmx0 subr0 subrr.
  rewrite mul0mx -colE => /(_ erefl) /colP /(_ a); by rewrite [LHS]mxE => ->; rewrite !mxE.
have tr : \tr (B *m K *m B *m K) = (effective r mk)%:R.
  rewrite (BKB sB PB KB) mxtrace_mulC; have -> : K *m B = 1%:M - P *m C by rewrite -KB addrK.
  rewrite linearB /= mxtrace1 [\tr (P *m C)]mxtrace_mulC CP mxtrace1 /effective.
  by case: (mk) => [|p0|h] /=; rewrite ?subr0 // natrD addrC addKr.
rewrite mxE eD /fisher_trace; have [g0|g0] := eqVneq (g (theta 0 i)) 0.
  have K00 : K = 0 by rewrite eK g0 scale0r.
  have B0 : B = 0 by rewrite -(BKB sB PB KB) K00 mulmx0 mul0mx.
  by rewrite -tr B0 !mul0mx linear0 mulr0 mul0r mulr0.
have -> : quotient g (theta 0 i) eps *: K0 = (quotient g (theta 0 i) eps / g (theta 0 i)) *: K.
  by rewrite eK scalerA divfK.
rewrite -!(scalemxAr, scalemxAl) scalerA linearZ /= tr.
by rewrite mulrCA -expr2; congr (_ * _); rewrite mulrC.
Qed.
End Fish.
Print Assumptions C125_less.
Print Assumptions C125_variances.
Print Assumptions C125_scale.

(* A concrete case: a variance parameter and two points, one of them removed. *)
Section Case.
Variable R : rcfType.
Let c (th : 'rV[R]_1) : kernel R 'I_(1 + 1) := Kernel (fun i j => th 0 0 * w_K R i j) 0.
Let x : 'I_(1 + 1) -> 'I_(1 + 1) := fun i => i.
Let f : 'I_(1 + 0) -> 'I_(1 + 1) := fun i => lshift 1 i.
Let zero : mean_kind R 'I_(1 + 1) 1 := KZero.
Let th1 : 'rV[R]_1 := const_mx 1.
Let p : 'I_(1 + 1) -> 'I_1 -> R := fun i k => w_P R i k.
Example C125_case :
  [/\ injective f, mean_le zero (KLinear p), forall th, sym_kern (kfun (c th)),
      fits zero (cov_same (c th1) x) x & forall v, cov_same (c (set_coord th1 0 v)) x = v *: w_K R].
Proof.
have sw i j : w_K R i j = w_K R j i by rewrite -{1}[w_K R](w_pd R).1 mxE.
split.
- exact: lshift_inj.
- have a0 : admits (KLinear p) (fun=> 0).
    by rewrite /=; exists (fun=> 0) => y; rewrite big1 // => k _; rewrite mulr0.
  move=> d [h [h' [H H' Hd]]]; exists (fun=> 0), (fun=> 0); split=> [//|//|y]; by rewrite Hd H H'.
- by move=> th a b; rewrite /= sw.
- have -> : cov_same (c th1) x = w_K R by rewrite /cov_same /= raddf0 addr0; apply/matrixP => i j; rewrite [LHS]mxE mxE mul1r.
  exact: w_pd.
- by move=> v; rewrite /cov_same /= raddf0 addr0; apply/matrixP => i j; rewrite [LHS]mxE [RHS]mxE mxE eqxx.
Qed.
End Case.
Print Assumptions C125_case.
