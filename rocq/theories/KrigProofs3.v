(* KrigProofs3.v: the null-space fall-back, predict, object identity (C25-C27). *)
From mathcomp Require Import all_ssreflect all_algebra ring.
From Verif Require Import LinAlg KrigModel CholProofs LinQR KrigProofs KrigProofs2.
Set Implicit Arguments.
Unset Strict Implicit.
Unset Printing Implicit Defensive.
Import Order.TTheory GRing.Theory Num.Theory.
Local Open Scope ring_scope.

Section Fallback.
Variable R : rcfType.
Implicit Types (n m q r : nat).

(* weights of the ordinary least squares predictor of the trend *)
Definition ols_weights n q m (P : 'M[R]_(n, q)) (Pt : 'M[R]_(m, q)) : 'M[R]_(n, m) :=
  P *m (invmx (P^T *m P) *m Pt^T).

Lemma invmx_mul n (A B : 'M[R]_n) : A \in unitmx -> B \in unitmx ->
  invmx (A *m B) = invmx B *m invmx A.
Proof.
move=> uA uB; have uAB : A *m B \in unitmx by rewrite unitmx_mul uA.
apply: (can_inj (mulKmx uAB)); rewrite mulmxV // -mulmxA (mulmxA B) mulmxV // mul1mx mulmxV //.
Qed.

Lemma ols_qr q r m (P : 'M[R]_(q + r, q)) (Pt : 'M[R]_(m, q)) QR : is_qr P QR ->
  usubmx QR.2 \in unitmx ->
  lsubmx QR.1 *m (invmx (usubmx QR.2)^T *m Pt^T) = ols_weights P Pt.
Proof.
move=> /qr_blocks [eP QQ _ _ _] uR; set Q1 := lsubmx _ in eP QQ *; set Rq := usubmx _ in eP uR *.
have uRT : Rq^T \in unitmx by rewrite unitmx_tr.
have PP : P^T *m P = Rq^T *m Rq by rewrite eP trmx_mul mulmxA -(mulmxA Rq^T) QQ mulmx1.
rewrite /ols_weights PP invmx_mul // {1}eP -!mulmxA; congr (_ *m _).
by rewrite mulKVmx.
Qed.

Section WithQR.
Variables (q r m : nat) (qr : qr_fun R q r).
Variables (K : 'M[R]_(q + r)) (P : 'M[R]_(q + r, q)) (Kit : 'M[R]_(q + r, m)) (Pt : 'M[R]_(m, q)).
Variable tt : prior_tt R m.
Hypothesis qrP : is_qr P (qr P).
Hypothesis sK : symmetric K.
Let W := rsubmx (qr P).1.
Let Rq := usubmx (qr P).2.

(* with a general solver for R' b = Pt' : unbiased, but off the optimum by a
   term that vanishes iff K maps the least squares weights into the span of P *)
Lemma fallback_defect rt lam v :
  kriging_predictor_nullspace qr (@solve R q m) K P Kit Pt tt rt = Ok (lam, v) ->
  let G := W^T *m (K *m W) in
  [/\ P^T *m lam = Pt^T,
      lam = uk_lambda K P Kit Pt + W *m (invmx G *m (W^T *m (K *m ols_weights P Pt)))
    & (lam == uk_lambda K P Kit Pt) = (W^T *m (K *m ols_weights P Pt) == 0)].
Proof.
move=> H G; have [e1 e2 uG] := fallback_weights qrP sK H.
have u := nullspace_ok_unit qrP sK (@general_solve_ok _ _ _ _ qr P) H.
have uR := qr_Rq_unit qrP (uk_lhs_unit_rank u).
rewrite (ols_qr Pt qrP uR) -/W -/G in e2 uG.
split=> //; rewrite {1}e2 -subr_eq0 addrAC subrr add0r.
set x := W^T *m (K *m _).
have [_ _ WW _ _] := qr_blocks qrP; rewrite -/W in WW.
apply/eqP/eqP => [h|->]; last by rewrite !mulmx0.
have := congr1 (fun y => G *m (W^T *m y)) h.
by rewrite (mulmxA W^T) WW mul1mx mulKVmx // !mulmx0.
Qed.

(* with the solver that reads one triangle (SciPy, assume_a="sym"): the bias *)
Lemma fallback_scipy_bias rt lam v :
  kriging_predictor_nullspace qr (@scipy_symsolve R q m) K P Kit Pt tt rt = Ok (lam, v) ->
  P^T *m lam = Rq^T *m (invmx (diag_mx (\row_i Rq i i)) *m Pt^T).
Proof.
have [eP QQ WW QW QQW] := qr_blocks qrP.
rewrite /kriging_predictor_nullspace.
move: QW QQ eP; case E: (qr P) => [Q Rm] /= QW QQ eP.
have eR : usubmx Rm = Rq by rewrite /Rq E.
rewrite eR; case: (cholesky_solve _ _) => [aL|//] /=.
rewrite /scipy_symsolve sym_of_upper_Rq // /solve; case: ifP => //= uD.
case: (compute_posterior_variance _ _ _ _) => [v'|//] /= [<- _].
have ePt : P^T = Rq^T *m (lsubmx Q)^T by rewrite {1}eP trmx_mul eR.
rewrite ePt mulmxDr -!mulmxA (mulmxA _ (rsubmx Q)) QW mul0mx mulmx0 add0r.
by rewrite (mulmxA _ (lsubmx Q)) QQ mul1mx.
Qed.

(* zero cross covariance: the fall-back ignores the observation covariance *)
Lemma fallback_zero_cross lam v :
  Kit = 0 ->
  kriging_predictor_nullspace qr (@solve R q m) K P Kit Pt tt 0 = Ok (lam, PVVar v) ->
  lam = ols_weights P Pt /\
  v = tt_pairwise tt - einsum_ii (invmx Rq^T *m Pt^T) Pt^T.
Proof.
move=> K0 H; have u := nullspace_ok_unit qrP sK (@general_solve_ok _ _ _ _ qr P) H.
have uR := qr_Rq_unit qrP (uk_lhs_unit_rank u).
move: H; rewrite /kriging_predictor_nullspace.
case E: (qr P) => [Q Rm].
have eW : rsubmx Q = W by rewrite /W E.
have eR : usubmx Rm = Rq by rewrite /Rq E.
have eQ : lsubmx Q = lsubmx (qr P).1 by rewrite E.
rewrite eW eR eQ.
have sG : symmetric (W^T *m (K *m W)) by rewrite /symmetric !trmx_mul trmxK sK mulmxA.
case E1: (cholesky_solve _ _) => [aL|//] /=.
have [pG ea _] := cholesky_solve_inv sG E1.
rewrite /solve unitmx_tr uR /= => -[<- <-].
rewrite ea K0 !mulmx0 add0r (ols_qr Pt qrP uR); split=> //.
by congr (_ - _); apply/rowP => j; rewrite !einsum_iiE tr_col_mx mul_row_col mulmx0 add0r.
Qed.

(* and it succeeds whenever K is positive definite and P has full rank *)
Lemma fallback_ok rt : pos_def K -> full_col_rank P -> rt \in [:: -1; 0; 1] ->
  exists lv, kriging_predictor_nullspace qr (@solve R q m) K P Kit Pt tt rt = Ok lv.
Proof.
move=> pK fP rtv; rewrite /kriging_predictor_nullspace.
case E: (qr P) => [Q Rm].
have eW : rsubmx Q = W by rewrite /W E.
have eR : usubmx Rm = Rq by rewrite /Rq E.
rewrite eW eR; have [_ _ WW _ _] := qr_blocks qrP; rewrite -/W in WW.
have pG : pos_def (W^T *m (K *m W)) by rewrite mulmxA; exact/pd_congr/orth_full_rank.
have [L _ -> /=] := cholesky_solve_ok (W^T *m Kit) pG.
rewrite /solve unitmx_tr (qr_Rq_unit qrP fP) /=.
by move: rtv; rewrite !inE => /or3P [] /eqP -> /=; eexists.
Qed.
End WithQR.

(* witness: two observations with variances 1 and 4, constant mean, target
   uncorrelated with the data *)
Definition w_K : 'M[R]_(1 + 1) := block_mx 1%:M 0 0 (4%:R)%:M.
Definition w_P : 'M[R]_(1 + 1, 1) := col_mx 1%:M 1%:M.

Lemma w_pd : pos_def w_K.
Proof.
split.
  by rewrite /w_K /symmetric tr_block_mx !tr_scalar_mx !trmx0.
move=> x xn0; rewrite /w_K -[x]vsubmxK qform_block.
have [a ea] : exists a, a = usubmx x by eexists.
have [b eb] : exists b, b = dsubmx x by eexists.
rewrite -ea -eb.
have -> : qform 1%:M a = a 0 0 ^+ 2 by rewrite qform1 big_ord1.
have -> : qform (4%:R)%:M b = 4%:R * b 0 0 ^+ 2.
  by rewrite -scalemx1 /qform bilin_scalem -/(qform _ _) qform1 big_ord1.
have z1 (u v : 'cV[R]_1) : bilin 0 u v = 0 by rewrite /bilin mulmx0 mul0mx mxE.
rewrite !z1 !addr0.
have h1 := sqr_ge0 (a 0 0); have h2 := sqr_ge0 (b 0 0).
have h3 : 0 <= 4%:R * b 0 0 ^+ 2 by rewrite mulr_ge0 ?ler0n.
rewrite lt_neqAle (addr_ge0 h1 h3) andbT eq_sym (paddr_eq0 h1 h3).
rewrite [4%:R * _ == 0]mulf_eq0 pnatr_eq0 /= !sqrf_eq0; apply: contra xn0 => /andP [/eqP e1 /eqP e2].
have a0 : a = 0 by apply/colP => i; rewrite ord1 e1 mxE.
have b0 : b = 0 by apply/colP => i; rewrite ord1 e2 mxE.
by rewrite -[x]vsubmxK -ea -eb a0 b0 col_mx0.
Qed.
Lemma w_full : full_col_rank w_P.
Proof.
by move=> b; rewrite /w_P mul_col_mx !mul1mx -col_mx0 => /eq_col_mx [].
Qed.
Lemma w_main tt :
  kriging_predictor_block w_K w_P (0 : 'M[R]_(1 + 1, 1)) 1%:M tt 0 =
    Ok (col_mx (4%:R / 5%:R)%:M (1 / 5%:R)%:M, PVVar (tt_pairwise tt + (4%:R / 5%:R)%:M)).
Proof.
have u := uk_lhs_unit (pd_cpd w_P w_pd) w_full.
rewrite krig_block_ok0 //.
have [||<- e2] := @uk_uniq _ _ _ _ w_K w_P 0 1%:M
   (col_mx (4%:R / 5%:R)%:M (1 / 5%:R)%:M) (- (4%:R / 5%:R)%:M) u.
- rewrite /w_K mul_block_col /w_P !mul0mx addr0 add0r mul_col_mx !mul1mx add_col_mx subrr.
  rewrite -!scalar_mxM (_ : _ * (1 / _) = 4%:R / 5%:R :> R) ?subrr ?col_mx0 //.
  by field.
- rewrite /w_P tr_col_mx !trmx1 mul_row_col !mul1mx -!raddfD /=; congr (_%:M).
  by field.
congr (Ok (_, PVVar _)); congr (_ + _); apply/rowP => j; rewrite [LHS]mxE einsum_iiE uk_sol_rhs -e2.
by rewrite mulmx0 add0r trmx1 mulmx1 linearN /= tr_scalar_mx ord1 !mxE opprK.
Qed.

Lemma w_fallback (qr : qr_fun R 1 1) tt : is_qr w_P (qr w_P) ->
  exists lam v,
  [/\ kriging_predictor_nullspace qr (@solve R 1 1) w_K w_P 0 1%:M tt 0 = Ok (lam, PVVar v),
      lam = col_mx (1 / 2%:R)%:M (1 / 2%:R)%:M
    & 2%:R * (v 0 0 - tt_pairwise tt 0 0) ^+ 2 = 1].
Proof.
move=> qrP; have [[lam v] H] := fallback_ok (0 : 'M[R]_(1 + 1, 1)) 1%:M tt (rt := 0) qrP w_pd w_full isT.
have sK := pd_sym w_pd.
have : exists v0, v = PVVar v0.
  move: H; rewrite /kriging_predictor_nullspace; case: (qr w_P) => Q Rm.
  case: (cholesky_solve _ _) => [aL|//] /=; case: (solve _ _) => [beta|//] /=.
  by case=> _ <-; eexists.
case=> v0 e; rewrite {v}e in H; exists lam, v0; split=> //.
  have [-> _] := fallback_zero_cross qrP sK erefl H.
  rewrite /ols_weights /w_P tr_col_mx !trmx1 mul_row_col !mul1mx mul_col_mx !mul1mx.
  rewrite -raddfD /= invmx_scalar !mulmx1; congr (col_mx _%:M _%:M); by field.
have [_ ->] := fallback_zero_cross qrP sK erefl H.
rewrite rsubE addrAC subrr add0r sqrrN einsum_iiE trmx1 !mulmx1.
set Rq := usubmx _.
have PP : Rq^T *m Rq = (2%:R)%:M.
  have [eP QQ _ _ _] := qr_blocks qrP.
  have : w_P^T *m w_P = (2%:R)%:M by rewrite /w_P tr_col_mx !trmx1 mul_row_col !mul1mx -raddfD.
  by rewrite {1 2}eP trmx_mul mulmxA -(mulmxA _^T) QQ mulmx1.
clearbody Rq; have eR : Rq = (Rq 0 0)%:M by rewrite [LHS]mx11E.
have := congr1 (fun M : 'M[R]_1 => M 0 0) PP.
rewrite eR tr_scalar_mx invmx_scalar tr_scalar_mx -scalar_mxM !mxE !mulr1n; set x := Rq 0 0 => ex.
have x0 : x != 0 by apply/eqP => x0; move: ex; rewrite x0 mul0r => /esym/eqP; rewrite pnatr_eq0.
by rewrite -ex -expr2 -exprMn mulfV // expr1n.
Qed.

Lemma sum2 (F : 'I_2 -> R) : \sum_i F i = F 0 + F 1.
Proof. by rewrite big_ord_recl big_ord1; congr (_ + F _); apply/val_inj. Qed.

(* SciPy bias witness: two observations, q = 2 (saturated trend) *)
Definition w2_P : 'M[R]_(2 + 0, 2) := \matrix_(i, j) ((i <= j)%N)%:R.
Definition w2_Pt : 'M[R]_(1, 2) := \row_j (j == 0)%:R.

Lemma w2_bias (qr : qr_fun R 2 0) (K : 'M[R]_(2 + 0)) Kit tt rt lam v : is_qr w2_P (qr w2_P) ->
  symmetric K ->
  kriging_predictor_nullspace qr (@scipy_symsolve R 2 1) K w2_P Kit w2_Pt tt rt = Ok (lam, v) ->
  (w2_P^T *m lam) 1 0 = 1 /\ w2_Pt 0 1 = 0.
Proof.
move=> qrP sK H; split; last by rewrite mxE.
rewrite (fallback_scipy_bias qrP H).
set Rq := usubmx _.
have PP : Rq^T *m Rq = w2_P^T *m w2_P.
  have [eP QQ _ _ _] := qr_blocks qrP.
  by rewrite {1 2}eP trmx_mul mulmxA -(mulmxA _^T) QQ mulmx1.
have up : Rq 1 0 = 0 by have := @Rq_upper _ _ _ _ _ qrP 1 0 isT.
have P00 : (w2_P^T *m w2_P) 0 0 = 1 by rewrite mxE sum2 !mxE /=; ring.
have P01 : (w2_P^T *m w2_P) 0 1 = 1 by rewrite mxE sum2 !mxE /=; ring.
have P11 : (w2_P^T *m w2_P) 1 1 = 2%:R by rewrite mxE sum2 !mxE /=; ring.
have T i j : (Rq^T *m Rq) i j = Rq 0 i * Rq 0 j + Rq 1 i * Rq 1 j.
  by rewrite mxE sum2 ![Rq^T _ _]mxE.
rewrite -PP !T up in P00 P01 P11; clearbody Rq.
move: P00 P01 P11; set a := Rq 0 0; set b := Rq 0 1; set d := Rq 1 1.
rewrite !mul0r !addr0 => P00 P01 P11.
have a0 : a != 0 by apply/eqP => a0; move: P00; rewrite a0 mul0r => /esym/eqP; rewrite oner_eq0.
have b2 : b * b = 1 by rewrite -[LHS]mul1r -{1}P00 mulrACA P01 mulr1.
have d2 : d * d = 1 by apply: (addrI (b * b)); rewrite P11 b2.
have d0 : d != 0 by apply/eqP => d0; move: d2; rewrite d0 mul0r => /esym/eqP; rewrite oner_eq0.
set D := diag_mx _.
have uD : D \in unitmx by rewrite unitmxE det_diag unitfE big_ord_recl big_ord1 !mxE mulf_neq0 // (_ : lift _ _ = 1) //; apply/val_inj.
set y := invmx D *m _; have Dy : D *m y = w2_Pt^T by rewrite mulKVmx.
have y0 : a * y 0 0 = 1.
  have := congr1 (fun M : 'cV[R]_2 => M 0 0) Dy.
  by rewrite mxE sum2 !mxE /= mulr1n mulr0n mul0r addr0.
have y1 : y 1 0 = 0.
  have := congr1 (fun M : 'cV[R]_2 => M 1 0) Dy.
  rewrite mxE sum2 !mxE /= mulr0n mulr1n mul0r add0r => /eqP.
  by rewrite mulf_eq0 (negbTE d0) => /eqP.
rewrite mxE sum2 ![Rq^T _ _]mxE y1 mulr0 addr0 -/b.
by rewrite -[LHS]mul1r -{1}P00 mulrACA P01 mul1r.
Qed.
End Fallback.

(* ---- predict ---- *)
Section Predict.
Variable R : rcfType.
Variables (q r m : nat) (qr : qr_fun R q r).
Variable symsolve : 'M[R]_q -> 'M[R]_(q, m) -> res 'M[R]_(q, m).
Variables (K : 'M[R]_(q + r)) (Kit : 'M[R]_(q + r, m)).
Variable tt : prior_tt R m.

(* the kriging predictor called for each kind of mean, and the mean at the data
   and target points *)
Definition kriged (mean : meanspec R q r m) : res ('M[R]_(q + r, m) * pvar R m) :=
  match mean with
  | MLinear P Pt => kriging_predictor qr symsolve K P Kit Pt tt 0
  | _ => kriging_predictor_with_zero_mean K Kit tt 0
  end.
Definition mean_i (mean : meanspec R q r m) : 'cV[R]_(q + r) :=
  match mean with MParam (Some (mi, _)) => mi | _ => 0 end.
Definition mean_t (mean : meanspec R q r m) : 'rV[R]_m :=
  match mean with MParam (Some (_, mt)) => mt | _ => 0 end.

Lemma kriged_var mean lam v : kriged mean = Ok (lam, v) -> exists v0, v = PVVar v0.
Proof.
have zm : kriging_predictor_with_zero_mean K Kit tt 0 = Ok (lam, v) -> exists v0, v = PVVar v0.
  rewrite /kriging_predictor_with_zero_mean; case: (cholesky_solve _ _) => [aL|//] /=.
  by case=> _ <-; eexists.
case: mean => [|P Pt|[[mi mt]|]] //=; rewrite /kriging_predictor /kriging_predictor_block.
case: (solve _ _) => [s|e] /=; first by case=> _ <-; eexists.
rewrite /kriging_predictor_nullspace; case: (qr P) => Q Rm.
case: (cholesky_solve _ _) => [aL|//] /=; case: (symsolve _ _) => [beta|//] /=.
by case=> _ <-; eexists.
Qed.

Lemma predict_spec mean zi (clip : bool) :
  match predict qr symsolve mean K Kit tt zi clip with
  | Err e => mean = MParam None /\ e = ValueErr \/ kriged mean = Err e
  | Ok (mu, v, lam) => mean <> MParam None /\
      exists v0, kriged mean = Ok (lam, PVVar v0) /\
      forall j,
        [/\ mu 0 j = lincomb (col j lam) (zi - mean_i mean) + mean_t mean 0 j,
            clip -> 0 <= v 0 j,
            0 <= v0 0 j -> v 0 j = v0 0 j,
            clip -> v0 0 j < 0 -> v 0 j = 0
          & ~~ clip -> v 0 j = v0 0 j]
  end.
Proof.
have clipP (v0 : 'rV[R]_m) j :
   let v := if clip then clip0 v0 else v0 in
   [/\ clip -> 0 <= v 0 j, 0 <= v0 0 j -> v 0 j = v0 0 j, clip -> v0 0 j < 0 -> v 0 j = 0
     & ~~ clip -> v 0 j = v0 0 j].
  case: clip => /=; split=> //; rewrite /clip0 ?mxE => h.
  - by rewrite le_maxr lexx orbT.
  - by apply/max_idPl.
  - by move=> h'; apply/max_idPr/ltW.
rewrite /predict /select_predictor; case: mean => [|P Pt|[[mi mt]|]] /=; last by left.
- case E: (kriging_predictor_with_zero_mean _ _ _ _) => [[lam v]|e] /=; last by right.
  have [v0 ev] := @kriged_var (MZero R q r m) _ _ E; subst v; split=> //.
  exists v0; split=> // j; have [h1 h2 h3 h4] := clipP v0 j; split=> //.
  by rewrite maddE einsum_iz_lincomb subr0.
- case E: (kriging_predictor _ _ _ _ _ _ _ _) => [[lam v]|e] /=; last by right.
  have [v0 ev] := @kriged_var (MLinear P Pt) _ _ E; subst v; split=> //.
  exists v0; split=> // j; have [h1 h2 h3 h4] := clipP v0 j; split=> //.
  by rewrite maddE einsum_iz_lincomb subr0.
case E: (kriging_predictor_with_zero_mean _ _ _ _) => [[lam v]|e] /=; last by right.
have [v0 ev] := @kriged_var (MZero R q r m) _ _ E; subst v; split=> //.
exists v0; split=> // j; have [h1 h2 h3 h4] := clipP v0 j; split=> //.
by rewrite maddE einsum_iz_lincomb.
Qed.
End Predict.

(* ---- object identity and the nugget (C27) ---- *)
Section Identity.
Variables (R : rcfType) (X : Type).
Variables (q r : nat) (qr : qr_fun R q r).
Variable symsolve : 'M[R]_q -> 'M[R]_(q, q + r) -> res 'M[R]_(q, q + r).
Variables (c : kernel R X) (x : 'I_(q + r) -> X).
Hypothesis pd : pos_def (cov_same c x).
Let K := cov_same c x.

Lemma same_object_predict zi :
  exists mu v lam,
   predict qr symsolve (MZero R q r _) K (cov_same c x) (cov_tt c x) zi false = Ok (mu, v, lam)
   /\ forall j, mu 0 j = zi j 0 /\ v 0 j = - knug c.
Proof.
exists (einsum_iz (zm_lambda K K) zi + 0), (cov_same_pairwise c x - einsum_ii (zm_lambda K K) K), (zm_lambda K K).
rewrite predict_zero_ok //; split=> // j.
have e : col j K = col j K by [].
have l0 := zm_col_interp pd e.
rewrite addr0 einsum_iz_lincomb l0 lincomb_delta; split=> //.
rewrite rsubE (zm_einsum_interp pd e) /K /cov_same !mxE eqxx mulr1n.
by rewrite opprD addrA subrr add0r.
Qed.

Lemma copy_predict zi :
  exists mu v lam,
   predict qr symsolve (MZero R q r _) K (cov_cross c x x) (cov_tt c x) zi false = Ok (mu, v, lam)
   /\ forall j, mu 0 j = zi j 0 - knug c * (invmx K *m zi) j 0
             /\ v 0 j = knug c - knug c ^+ 2 * invmx K j j.
Proof.
set k := cov_cross c x x.
exists (einsum_iz (zm_lambda K k) zi + 0), (cov_same_pairwise c x - einsum_ii (zm_lambda K k) k), (zm_lambda K k).
rewrite predict_zero_ok //; split=> // j.
have uK := pd_unit pd; have sK := pd_sym pd.
have ek : k = K - (knug c)%:M by rewrite /K /cov_same addrK.
have el : zm_lambda K k = 1%:M - knug c *: invmx K.
  by rewrite /zm_lambda ek mulmxBr mulVmx // mul_mx_scalar.
have elt : (zm_lambda K k)^T = 1%:M - knug c *: invmx K.
  by rewrite el linearB /= trmx1 linearZ /= trmx_inv sK.
rewrite addr0 einsum_izE elt mulmxBl mul1mx -scalemxAl; split; first by rewrite !mxE.
have ekk : cov_same_pairwise c x 0 j = k j j by rewrite !mxE.
rewrite rsubE einsum_iiE elt ekk mulmxBl mul1mx -scalemxAl {3}ek mulmxBr mulVmx // mul_mx_scalar.
by rewrite !mxE eqxx !mulr1n; gring.
Qed.

(* smoothing is strict *)
Lemma copy_differs (zi : 'cV[R]_(q + r)) : knug c != 0 -> zi != 0 ->
  exists j, zi j 0 - knug c * (invmx K *m zi) j 0 != zi j 0.
Proof.
move=> nu0 z0; have uK := pd_unit pd.
have : invmx K *m zi != 0.
  apply: contra z0 => /eqP h; rewrite -[zi](mulKVmx uK) h mulmx0 //.
move=> h; have [j hj] : exists j, (invmx K *m zi) j 0 != 0.
  apply/existsP; apply: contraR h => /existsPn h; apply/eqP/colP => j.
  by have := h j; rewrite negbK [RHS]mxE => /eqP.
exists j; rewrite -subr_eq0 addrAC subrr add0r oppr_eq0 mulf_neq0 //.
Qed.

(* with a PSD kernel, the copy's variance lies in [0, nu) *)
Lemma copy_var_bounds j : 0 < knug c -> pos_semidef (kmx (kfun c) x x) ->
  0 <= knug c - knug c ^+ 2 * invmx K j j < knug c.
Proof.
move=> nu0 ps; have pI := pd_inv pd; have dpos := pd_diag_gt0 j pI.
apply/andP; split; last by rewrite ltr_subl_addl ltr_addr mulr_gt0 // exprn_gt0.
have uK := pd_unit pd.
(* nu - nu^2 K^-1 = nu K^-1 k, and K^-1 k = K^-1 (k K) K^-1 = K^-1 k k K^-1 + nu K^-1 k K^-1 *)
set k := kmx (kfun c) x x in ps.
have eK : K = k + (knug c)%:M by [].
have sI : (invmx K)^T = invmx K by case: pI.
have e1 : knug c - knug c ^+ 2 * invmx K j j = knug c * (invmx K *m k) j j.
  have -> : k = K - (knug c)%:M by rewrite eK addrK.
  rewrite mulmxBr mulVmx // mul_mx_scalar !mxE eqxx mulr1n; gring.
rewrite e1 mulr_ge0 //; first exact: ltW.
have -> : invmx K *m k = invmx K *m (k *m K) *m invmx K.
  by rewrite -!mulmxA mulmxV // mulmx1.
rewrite eK mulmxDr mul_mx_scalar -eK.
apply: psd_diag_ge0.
rewrite mulmxDr mulmxDl -scalemxAr -scalemxAl; apply: psd_add.
  have -> : invmx K *m (k *m k) *m invmx K = (k *m invmx K)^T *m (k *m invmx K).
    by rewrite trmx_mul sI (ps.1 : k^T = k) !mulmxA.
  exact: psd_gram.
apply: psd_scale; first exact: ltW.
rewrite -{1}sI; exact: psd_congr.
Qed.
End Identity.

Section More.
Variable R : rcfType.
Implicit Types (n m q r : nat).

Lemma uk_cov_same n q (K : 'M[R]_n) (P : 'M[R]_(n, q)) tt :
  uk_lhs K P \in unitmx -> tt_full tt = K ->
  kriging_predictor_block K P K P tt 1 = Ok (1%:M, PVCov 0).
Proof.
move=> u e; have [||e1 e2] := @uk_uniq _ _ _ _ K P K P 1%:M 0 u; rewrite ?mulmx1 ?mulmx0 ?addr0 //.
by rewrite krig_block_ok1 // uk_sol_rhs -e1 -e2 e trmx1 mul1mx trmx0 mul0mx addr0 subrr.
Qed.

(* example data: two observations and one target with joint covariance
   [1 0 1; 0 4 2; 1 2 3] *)
Definition e_Kit : 'M[R]_(1 + 1, 1) := col_mx 1%:M (2%:R)%:M.
Definition e_Ktt : 'M[R]_1 := (3%:R)%:M.
Definition e_tt : prior_tt R 1 := PriorTT (3%:R)%:M (3%:R)%:M.

Lemma e_diag : tt_pairwise e_tt = diag_of e_Ktt.
Proof. by apply/rowP => j; rewrite ord1 !mxE. Qed.

Lemma e_joint_psd : pos_semidef (joint (w_K R) e_Kit e_Ktt).
Proof.
pose M : 'M[R]_(1 + 1 + 1) := block_mx (block_mx 1%:M 0 0 (2%:R)%:M) (col_mx 1%:M 1%:M) 0 1%:M.
have -> : joint (w_K R) e_Kit e_Ktt = M^T *m M.
  rewrite /M /joint /w_K /e_Kit /e_Ktt tr_block_mx mulmx_block !trmx0 !trmx1 !mul0mx ?addr0.
  rewrite !tr_block_mx !tr_col_mx !trmx0 !trmx1 !tr_scalar_mx !mulmx_block !mul_block_col.
  rewrite !mul_row_block !mul_row_col !mulmx0 !mul0mx !mulmx1 !mul1mx ?addr0 ?add0r -?scalar_mxM.
  rewrite -!raddfD /= -natrM.
  by congr block_mx; congr (_%:M); ring.
exact: psd_gram.
Qed.

Lemma e_zm : kriging_predictor_with_zero_mean (w_K R) e_Kit e_tt 0 =
  Ok (col_mx 1%:M (1 / 2%:R)%:M, PVVar 1%:M).
Proof.
rewrite krig_zero_ok; last exact: w_pd.
have e : zm_lambda (w_K R) e_Kit = col_mx 1%:M (1 / 2%:R)%:M.
  have u := pd_unit (w_pd R); apply: (can_inj (mulKmx u)); rewrite /zm_lambda mulKVmx //.
  rewrite /w_K mul_block_col !mul0mx mulmx1 addr0 add0r -scalar_mxM /e_Kit.
  by congr (col_mx _ _%:M); field.
rewrite e; congr (Ok (_, PVVar _)); apply/rowP => j; rewrite ord1 rsubE einsum_iiE.
rewrite /e_Kit tr_col_mx mul_row_col !tr_scalar_mx -!scalar_mxM -raddfD /= !mxE !mulr1n.
by field.
Qed.

(* example kernel on two points with a nugget: k(x,y) = [x = y], nu = 1 *)
Definition e_ker : kernel R bool := Kernel (fun a b => (a == b)%:R) 1.
Definition e_pts (i : 'I_(1 + 1)) : bool := (i == 0).

Lemma e_kmx : kmx (kfun e_ker) e_pts e_pts = 1%:M.
Proof.
apply/matrixP => i j; rewrite !mxE /= /e_pts.
have ob (k : 'I_(1 + 1)) : k = 0 \/ k = 1.
  by case: k => [[|[|k]] h] //; [left|right]; apply/val_inj.
by case: (ob i) => ->; case: (ob j) => ->.
Qed.
Lemma e_ker_pd : pos_def (cov_same e_ker e_pts).
Proof.
rewrite /cov_same e_kmx /= -raddfD /= -scalemx1; split.
  by rewrite /symmetric linearZ /= trmx1.
move=> x xn0; rewrite /qform bilin_scalem mulr_gt0 ?addr_gt0 ?ltr01 //.
exact: (pos_def1 R _).2.
Qed.
End More.

Section More2.
Variable R : rcfType.
Lemma w_unit : uk_lhs (w_K R) (w_P R) \in unitmx.
Proof. by apply: uk_lhs_unit; [exact/pd_cpd/w_pd | exact: w_full]. Qed.
Lemma bilin0r n m (A : 'M[R]_(n, m)) x : bilin A x 0 = 0.
Proof. by rewrite /bilin mulmx0 mxE. Qed.
Lemma bilin0m n m x y : bilin (0 : 'M[R]_(n, m)) x y = 0.
Proof. by rewrite /bilin mulmx0 mul0mx mxE. Qed.
Lemma predict_gls q r m (qr : qr_fun R q r)
  (symsolve : 'M[R]_q -> 'M[R]_(q, m) -> res 'M[R]_(q, m))
  (K : 'M[R]_(q + r)) (P : 'M[R]_(q + r, q)) (Kit : 'M[R]_(q + r, m)) (Pt : 'M[R]_(m, q)) tt
  zi b clip :
  pos_def K -> full_col_rank P -> gls_minimiser K P zi b ->
  exists mu v lam mu0 v0 lam0,
    [/\ predict qr symsolve (MLinear P Pt) K Kit tt zi clip = Ok (mu, v, lam),
        predict qr symsolve (MZero R q r m) K Kit tt (zi - P *m b) clip = Ok (mu0, v0, lam0)
      & mu = (Pt *m b)^T + mu0].
Proof.
move=> pK fP gb; have u := uk_lhs_unit (pd_cpd P pK) fP; do 6 eexists.
split; [exact: predict_linear_ok | exact: predict_zero_ok |].
rewrite !addr0; apply/rowP => j; rewrite maddE !einsum_izE (uk_gls Kit Pt pK fP gb).
rewrite maddE [(Pt *m b)^T _ _]mxE /zm_lambda trmx_mul trmx_inv (pd_sym pK).
by [].
Qed.

Lemma w_both (qr : qr_fun R 1 1) tt :
  is_qr (w_P R) (qr (w_P R)) ->
  kriging_predictor_block (w_K R) (w_P R) (0 : 'M[R]_(1 + 1, 1)) 1%:M tt 0 =
    Ok (col_mx (4%:R / 5%:R)%:M (1 / 5%:R)%:M, PVVar (tt_pairwise tt + (4%:R / 5%:R)%:M)) /\
  exists lam v,
  [/\ kriging_predictor_nullspace qr (@solve R 1 1) (w_K R) (w_P R) 0 1%:M tt 0 = Ok (lam, PVVar v),
      lam = col_mx (1 / 2%:R)%:M (1 / 2%:R)%:M,
      v 0 0 <> tt_pairwise tt 0 0 + 4%:R / 5%:R
    & v 0 0 <> mse (joint (w_K R) 0 (diag_mx (tt_pairwise tt))) (col 0 lam) 0].
Proof.
move=> qrP; split; first exact: w_main.
have [lam [v [H el ev]]] := w_fallback tt qrP; exists lam, v.
have bad (x : R) : 2%:R * x ^+ 2 != 1 -> v 0 0 <> tt_pairwise tt 0 0 + x.
  by move=> h e; move/eqP: h; apply; rewrite -[RHS]ev e addrAC subrr add0r.
split=> //.
  apply: bad; apply/eqP => h.
  have : (32%:R : R) = 25%:R.
    rewrite -[RHS]mulr1 -h; by field.
  by move/eqP; rewrite eqr_nat.
have -> : mse (joint (w_K R) 0 (diag_mx (tt_pairwise tt))) (col 0 lam) 0 = tt_pairwise tt 0 0 + 5%:R / 4%:R.
  rewrite mseE [col 0 0](_ : _ = 0); last by apply/colP => i; rewrite !mxE.
  rewrite bilin0r mulr0 subr0 mxE eqxx mulr1n; congr (_ + _).
  have -> : col 0 lam = lam by apply/colP => i; rewrite mxE.
  rewrite el /w_K qform_block !bilin0m !addr0 /qform /bilin.
  rewrite !tr_scalar_mx -!scalar_mxM !mxE !mulr1n; by field.
apply: bad; apply/eqP => h.
have : (25%:R : R) = 8%:R.
  rewrite -[RHS]mulr1 -h; by field.
by move/eqP; rewrite eqr_nat.
Qed.

Lemma w2_ok :
  exists (qr : qr_fun R 2 0) lam v, is_qr (w2_P R) (qr (w2_P R)) /\
  kriging_predictor_nullspace qr (@scipy_symsolve R 2 1) (1%:M : 'M[R]_(2 + 0)) (w2_P R)
     (0 : 'M[R]_(2 + 0, 1)) (w2_Pt R) (PriorTT 1%:M 1%:M) 0 = Ok (lam, v).
Proof.
exists (fun P => (1%:M, P)).
have qrP : is_qr (w2_P R) (1%:M, w2_P R).
  split=> /=; rewrite ?trmx1 ?mulmx1 ?mul1mx // => i j ij.
  by rewrite mxE leqNgt ij.
rewrite /kriging_predictor_nullspace /scipy_symsolve.
have pG : pos_def ((rsubmx (1%:M : 'M[R]_(2 + 0)))^T *m (1%:M *m rsubmx (1%:M : 'M[R]_(2 + 0)))).
  by split=> [|x]; [apply/matrixP => -[] | rewrite (_ : x = 0) ?eqxx //; apply/matrixP => -[]].
have [L _ -> /=] := cholesky_solve_ok ((rsubmx (1%:M : 'M[R]_(2 + 0)))^T *m (0 : 'M[R]_(2 + 0, 1))) pG.
have -> : sym_of_upper (usubmx (w2_P R))^T = 1%:M.
  apply/matrixP => i j; rewrite !mxE; case: ltngtP => // h.
  - by case: eqP h => // ->; rewrite ltnn.
  - by case: eqP h => // ->; rewrite ltnn.
  by rewrite (_ : i == j) //; apply/eqP/val_inj.
rewrite /solve unitmx1 /=; by do 2 eexists; split.
Qed.
End More2.
