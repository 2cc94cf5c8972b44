(* KrigProofs.v: zero-mean and universal kriging (properties C19-C26). *)
From mathcomp Require Import all_ssreflect all_algebra ring.
From Verif Require Import LinAlg KrigModel CholProofs LinQR.
Set Implicit Arguments.
Unset Strict Implicit.
Unset Printing Implicit Defensive.
Import Order.TTheory GRing.Theory Num.Theory.
Local Open Scope ring_scope.

Section Spec.
Variable R : rcfType.
(* --- specification vocabulary, independent of the model --- *)

(* Joint covariance of (observations, targets). *)
Definition joint n m (Kii : 'M[R]_n) (Kit : 'M[R]_(n, m)) (Ktt : 'M[R]_m) : 'M[R]_(n + m) :=
  block_mx Kii Kit Kit^T Ktt.

(* Variance of the prediction error Z_t(j) - w' Z_i: the quadratic form of the
   joint covariance at the coefficients of that linear combination. *)
Definition mse n m (J : 'M[R]_(n + m)) (w : 'cV[R]_n) (j : 'I_m) : R :=
  qform J (col_mx (- w) (delta_mx j 0)).

(* w' Z_i has the same mean as Z_t(j) whatever the trend coefficients b, when the
   means of the observations and targets are Pi b and Pt b. *)
Definition unbiased n q m (Pi : 'M[R]_(n, q)) (Pt : 'M[R]_(m, q)) (w : 'cV[R]_n) (j : 'I_m) : Prop :=
  forall b : 'cV[R]_q, \sum_i w i 0 * (Pi *m b) i 0 = (Pt *m b) j 0.

(* the prediction w' z *)
Definition lincomb n (w z : 'cV[R]_n) : R := \sum_i w i 0 * z i 0.

Definition diag_of m (A : 'M[R]_m) : 'rV[R]_m := \row_j A j j.
End Spec.

Section Proofs.
Variable R : rcfType.
Implicit Types (n m q r : nat).

Lemma einsum_iiE n m (A B : 'M[R]_(n, m)) j : einsum_ii A B 0 j = (A^T *m B) j j.
Proof. by rewrite !mxE; apply: eq_bigr => i _; rewrite mxE. Qed.

Lemma einsum_izE n m (A : 'M[R]_(n, m)) z j : einsum_iz A z 0 j = (A^T *m z) j 0.
Proof. by rewrite !mxE; apply: eq_bigr => i _; rewrite mxE. Qed.

Lemma einsum_iz_lincomb n m (A : 'M[R]_(n, m)) z j : einsum_iz A z 0 j = lincomb (col j A) z.
Proof. by rewrite !mxE; apply: eq_bigr => i _; rewrite mxE. Qed.

Lemma bilin_colr n m (A : 'M[R]_(n, m)) x j : bilin A x (delta_mx j 0) = (x^T *m col j A) 0 0.
Proof. by rewrite /bilin -mulmxA -colE. Qed.

Lemma mseE n m (Kii : 'M[R]_n) (Kit : 'M[R]_(n, m)) Ktt w j :
  mse (joint Kii Kit Ktt) w j =
  Ktt j j - 2%:R * bilin 1%:M w (col j Kit) + qform Kii w.
Proof.
rewrite /mse /joint qform_block qformN qform_delta [bilin Kit^T _ _]bilin_tr trmxK.
have -> : bilin 1%:M w (col j Kit) = bilin Kit w (delta_mx j 0).
  by rewrite bilin_colr /bilin mulmx1.
rewrite bilinNl; gring.
Qed.

Lemma rsubE m (a b : 'rV[R]_m) j : (a - b) 0 j = a 0 j - b 0 j.
Proof. by rewrite !mxE. Qed.
Lemma msubE m p (a b : 'M[R]_(m, p)) i j : (a - b) i j = a i j - b i j.
Proof. by rewrite !mxE. Qed.
Lemma maddE m p (a b : 'M[R]_(m, p)) i j : (a + b) i j = a i j + b i j.
Proof. by rewrite !mxE. Qed.
Lemma diagE m (a : 'M[R]_m) j : diag_of a 0 j = a j j.
Proof. by rewrite mxE. Qed.

(* ---- zero mean ---- *)
Definition zm_lambda n m (Kii : 'M[R]_n) (Kit : 'M[R]_(n, m)) := invmx Kii *m Kit.

Lemma krig_zero_ok n m (Kii : 'M[R]_n) (Kit : 'M[R]_(n, m)) tt :
  pos_def Kii ->
  kriging_predictor_with_zero_mean Kii Kit tt 0 =
    Ok (zm_lambda Kii Kit, PVVar (tt_pairwise tt - einsum_ii (zm_lambda Kii Kit) Kit)).
Proof.
move=> pdK; rewrite /kriging_predictor_with_zero_mean.
by have [L _ ->] := cholesky_solve_ok Kit pdK.
Qed.
Lemma krig_zero_ok1 n m (Kii : 'M[R]_n) (Kit : 'M[R]_(n, m)) tt :
  pos_def Kii ->
  kriging_predictor_with_zero_mean Kii Kit tt 1 =
    Ok (zm_lambda Kii Kit, PVCov (tt_full tt - (zm_lambda Kii Kit)^T *m Kit)).
Proof.
move=> pdK; rewrite /kriging_predictor_with_zero_mean.
by have [L _ ->] := cholesky_solve_ok Kit pdK.
Qed.
Lemma krig_zero_okN n m (Kii : 'M[R]_n) (Kit : 'M[R]_(n, m)) tt :
  pos_def Kii ->
  kriging_predictor_with_zero_mean Kii Kit tt (-1) = Ok (zm_lambda Kii Kit, PVNone).
Proof.
move=> pdK; rewrite /kriging_predictor_with_zero_mean.
by have [L _ ->] := cholesky_solve_ok Kit pdK.
Qed.

Lemma zm_mse n m (Kii : 'M[R]_n) (Kit : 'M[R]_(n, m)) Ktt w j :
  pos_def Kii ->
  mse (joint Kii Kit Ktt) w j =
  (Ktt j j - einsum_ii (zm_lambda Kii Kit) Kit 0 j) + qform Kii (w - col j (zm_lambda Kii Kit)).
Proof.
move=> pdK; have uK := pd_unit pdK; have sK := pd_sym pdK.
rewrite mseE qformD // qformN bilinNr.
have e1 : Kii *m col j (zm_lambda Kii Kit) = col j Kit.
  by rewrite -col_mulmx /zm_lambda mulKVmx.
have -> : bilin Kii w (col j (zm_lambda Kii Kit)) = bilin 1%:M w (col j Kit).
  by rewrite /bilin mulmx1 -mulmxA e1.
have -> : qform Kii (col j (zm_lambda Kii Kit)) = einsum_ii (zm_lambda Kii Kit) Kit 0 j.
  rewrite einsum_iiE /qform /bilin -mulmxA e1 tr_col -row_mul !mxE.
  by apply: eq_bigr => i _; rewrite !mxE.
gring.
Qed.

Lemma zero_mean_blup n m (Kii : 'M[R]_n) (Kit : 'M[R]_(n, m)) (Ktt : 'M[R]_m) tt :
  pos_def Kii -> tt_pairwise tt = diag_of Ktt ->
  exists lam v,
    kriging_predictor_with_zero_mean Kii Kit tt 0 = Ok (lam, PVVar v) /\
    forall j, v 0 j = mse (joint Kii Kit Ktt) (col j lam) j /\
      forall w, w != col j lam -> v 0 j < mse (joint Kii Kit Ktt) w j.
Proof.
move=> pdK ett; exists (zm_lambda Kii Kit); eexists; split; first exact: krig_zero_ok.
move=> j; rewrite rsubE ett [diag_of _ _ _]mxE.
split=> [|w wn]; first by rewrite zm_mse // subrr qform0 addr0.
rewrite zm_mse // ltr_addl; apply: pdK.2; by rewrite subr_eq0.
Qed.

(* the predictor fails exactly when the data covariance is not positive definite *)
Lemma krig_zero_fail n m (Kii : 'M[R]_n) (Kit : 'M[R]_(n, m)) tt rt :
  symmetric Kii -> ~ pos_def Kii ->
  kriging_predictor_with_zero_mean Kii Kit tt rt = Err LinAlgError.
Proof.
by move=> sK nK; rewrite /kriging_predictor_with_zero_mean cholesky_solve_fail.
Qed.

(* interpolation *)
Lemma zm_col_interp n m (Kii : 'M[R]_n) (Kit : 'M[R]_(n, m)) i j :
  pos_def Kii -> col j Kit = col i Kii -> col j (zm_lambda Kii Kit) = delta_mx i 0.
Proof.
move=> pdK e; rewrite /zm_lambda col_mulmx e colE mulKmx //; exact: pd_unit.
Qed.

Lemma lincomb_delta n (i : 'I_n) (z : 'cV[R]_n) : lincomb (delta_mx i 0) z = z i 0.
Proof.
rewrite /lincomb (bigD1 i) //= big1 ?mxE ?eqxx ?mul1r ?addr0 // => k ki.
by rewrite mxE (negbTE ki) mul0r.
Qed.

Lemma zm_einsum_interp n m (Kii : 'M[R]_n) (Kit : 'M[R]_(n, m)) i j :
  pos_def Kii -> col j Kit = col i Kii ->
  einsum_ii (zm_lambda Kii Kit) Kit 0 j = Kii i i.
Proof.
move=> pdK e; have l := zm_col_interp pdK e.
have -> : einsum_ii (zm_lambda Kii Kit) Kit 0 j = lincomb (col j (zm_lambda Kii Kit)) (col j Kit).
  by rewrite mxE; apply: eq_bigr => k _; rewrite !mxE.
by rewrite l lincomb_delta e mxE.
Qed.

Section PredictZero.
Variables (q r m : nat) (qr : qr_fun R q r).
Variable symsolve : 'M[R]_q -> 'M[R]_(q, m) -> res 'M[R]_(q, m).

Lemma predict_zero_ok (Kii : 'M[R]_(q + r)) Kit tt zi (clip : bool) :
  pos_def Kii ->
  predict qr symsolve (MZero R q r m) Kii Kit tt zi clip =
  let v := tt_pairwise tt - einsum_ii (zm_lambda Kii Kit) Kit in
  Ok (einsum_iz (zm_lambda Kii Kit) zi + 0, if clip then clip0 v else v, zm_lambda Kii Kit).
Proof. by move=> pdK; rewrite /predict /= krig_zero_ok. Qed.

Lemma predict_param_ok (Kii : 'M[R]_(q + r)) Kit tt zi (clip : bool) mi mt :
  pos_def Kii ->
  predict qr symsolve (MParam (Some (mi, mt))) Kii Kit tt zi clip =
  let v := tt_pairwise tt - einsum_ii (zm_lambda Kii Kit) Kit in
  Ok (einsum_iz (zm_lambda Kii Kit) (zi - mi) + mt, if clip then clip0 v else v, zm_lambda Kii Kit).
Proof. by move=> pdK; rewrite /predict /= krig_zero_ok. Qed.

(* at a target whose covariances with the data are those of observation i *)
Lemma predict_zero_interp (Kii : 'M[R]_(q + r)) Kit tt zi i j :
  pos_def Kii -> col j Kit = col i Kii ->
  exists mu v lam,
    predict qr symsolve (MZero R q r m) Kii Kit tt zi false = Ok (mu, v, lam) /\
    mu 0 j = zi i 0 /\ v 0 j = tt_pairwise tt 0 j - Kii i i.
Proof.
move=> pdK e; do 3 eexists; split; first exact: predict_zero_ok.
rewrite addr0 einsum_iz_lincomb (zm_col_interp pdK e) lincomb_delta; split=> //.
by rewrite rsubE (zm_einsum_interp pdK e).
Qed.

Lemma predict_param_interp (Kii : 'M[R]_(q + r)) Kit tt zi (mi : 'cV[R]_(q + r)) (mt : 'rV[R]_m) i j :
  pos_def Kii -> col j Kit = col i Kii -> mt 0 j = mi i 0 ->
  exists mu v lam,
    predict qr symsolve (MParam (Some (mi, mt))) Kii Kit tt zi false = Ok (mu, v, lam) /\
    mu 0 j = zi i 0 /\ v 0 j = tt_pairwise tt 0 j - Kii i i.
Proof.
move=> pdK e em; do 3 eexists; split; first exact: predict_param_ok.
rewrite maddE einsum_iz_lincomb (zm_col_interp pdK e) lincomb_delta msubE em subrK; split=> //.
by rewrite rsubE (zm_einsum_interp pdK e).
Qed.
End PredictZero.

Lemma krig_zero_cov_same n (Kii : 'M[R]_n) tt :
  pos_def Kii -> tt_full tt = Kii ->
  kriging_predictor_with_zero_mean Kii Kii tt 1 = Ok (1%:M, PVCov 0).
Proof.
move=> pdK e; rewrite krig_zero_ok1 // /zm_lambda mulVmx ?pd_unit // trmx1 mul1mx e.
by rewrite subrr.
Qed.

(* posterior covariance *)
Lemma zm_postcov n m (Kii : 'M[R]_n) (Kit : 'M[R]_(n, m)) (Ktt : 'M[R]_m) tt :
  pos_def Kii -> pos_semidef (joint Kii Kit Ktt) ->
  tt_pairwise tt = diag_of Ktt -> tt_full tt = Ktt ->
  exists lam v C,
   [/\ kriging_predictor_with_zero_mean Kii Kit tt 0 = Ok (lam, PVVar v),
       kriging_predictor_with_zero_mean Kii Kit tt 1 = Ok (lam, PVCov C),
       pos_semidef C, v = diag_of C
     & forall j, 0 <= v 0 j <= Ktt j j].
Proof.
move=> pdK psJ e1 e2.
set lam := zm_lambda Kii Kit; exists lam.
exists (tt_pairwise tt - einsum_ii lam Kit), (tt_full tt - lam^T *m Kit).
have psC : pos_semidef (tt_full tt - lam^T *m Kit).
  have := schur_psd pdK psJ.
  by rewrite e2 /lam /zm_lambda trmx_mul trmx_inv (pd_sym pdK).
have ev : tt_pairwise tt - einsum_ii lam Kit = diag_of (tt_full tt - lam^T *m Kit).
  by apply/rowP => j; rewrite diagE rsubE msubE e1 e2 diagE einsum_iiE.
split; [exact: krig_zero_ok | exact: krig_zero_ok1 | exact: psC | exact: ev |].
move=> j; apply/andP; split.
  by rewrite ev diagE; apply: psd_diag_ge0.
rewrite ev diagE e2 msubE ger_addl oppr_le0.
have -> : lam^T *m Kit = Kit^T *m invmx Kii *m Kit.
  by rewrite /lam /zm_lambda trmx_mul trmx_inv (pd_sym pdK).
apply: psd_diag_ge0; apply: psd_congr; exact/pd_psd/pd_inv.
Qed.

(* more observations never increase the variance *)
Lemma zm_more_obs n1 n2 m (A : 'M[R]_n1) (B : 'M[R]_(n1, n2)) (D : 'M[R]_n2)
  (K1 : 'M[R]_(n1, m)) (K2 : 'M[R]_(n2, m)) tt :
  pos_def (block_mx A B B^T D) ->
  exists l1 v1 l2 v2,
  [/\ kriging_predictor_with_zero_mean A K1 tt 0 = Ok (l1, PVVar v1),
      kriging_predictor_with_zero_mean (block_mx A B B^T D) (col_mx K1 K2) tt 0 = Ok (l2, PVVar v2)
    & forall j, v2 0 j <= v1 0 j].
Proof.
move=> pdK; have pdA := pd_block_ul pdK.
pose Ktt : 'M[R]_m := diag_mx (tt_pairwise tt).
have ett : tt_pairwise tt = diag_of Ktt by apply/rowP => j; rewrite !mxE eqxx mulr1n.
have [l1 [v1 [E1 H1]]] := zero_mean_blup K1 pdA ett.
have [l2 [v2 [E2 H2]]] := zero_mean_blup (col_mx K1 K2) pdK ett.
exists l1, v1, l2, v2; split=> // j.
have [-> _] := H1 j.
pose w : 'cV[R]_(n1 + n2) := col_mx (col j l1) 0.
have -> : mse (joint A K1 Ktt) (col j l1) j = mse (joint (block_mx A B B^T D) (col_mx K1 K2) Ktt) w j.
  rewrite !mseE /w qform_block qform0 /bilin trmx0 !mulmx0 !mul0mx !mulmx1 col_col_mx.
  by rewrite tr_col_mx trmx0 mul_row_col mul0mx !mxE !addr0.
have [e h] := H2 j; have [->|wn] := eqVneq w (col j l2); first by rewrite e.
exact/ltW/h.
Qed.

(* ---- universal kriging ---- *)
Lemma uk_lhs_unit n q (K : 'M[R]_n) (P : 'M[R]_(n, q)) :
  cond_pos_def K P -> full_col_rank P -> uk_lhs K P \in unitmx.
Proof.
case=> sK pK fP; apply: unit_of_inj => v; rewrite -(vsubmxK v).
set x := usubmx v; set y := dsubmx v.
rewrite /uk_lhs mul_block_col mul0mx addr0 -col_mx0 => /eq_col_mx [e1 e2].
have x0 : x = 0.
  apply/eqP; apply: contraT => xn0; have := pK x e2 xn0.
  have -> : qform K x = 0; last by rewrite ltxx.
  have : x^T *m (K *m x + P *m y) = 0 by rewrite e1 mulmx0.
  rewrite mulmxDr [x^T *m (P *m y)]mulmxA.
  have -> : x^T *m P = 0 by apply: trmx_inj; rewrite trmx_mul trmxK e2 trmx0.
  by rewrite mul0mx addr0 /qform /bilin -mulmxA => ->; rewrite mxE.
move: e1; rewrite x0 mulmx0 add0r => /fP ->.
by rewrite col_mx0.
Qed.

(* converse ingredients: a nonsingular block system has a full-rank basis *)
Lemma uk_lhs_unit_rank n q (K : 'M[R]_n) (P : 'M[R]_(n, q)) :
  uk_lhs K P \in unitmx -> full_col_rank P.
Proof.
move=> u b Pb; have : uk_lhs K P *m col_mx 0 b = 0.
  by rewrite /uk_lhs mul_block_col Pb !mulmx0 mul0mx !addr0 col_mx0.
by move/(inj_of_unit u); rewrite -col_mx0 => /eq_col_mx [].
Qed.

Definition uk_sol n q m (K : 'M[R]_n) (P : 'M[R]_(n, q)) (Kit : 'M[R]_(n, m)) (Pt : 'M[R]_(m, q)) :=
  invmx (uk_lhs K P) *m uk_rhs Kit Pt.
Definition uk_lambda n q m (K : 'M[R]_n) (P : 'M[R]_(n, q)) (Kit : 'M[R]_(n, m)) (Pt : 'M[R]_(m, q)) :=
  usubmx (uk_sol K P Kit Pt).
Definition uk_mu n q m (K : 'M[R]_n) (P : 'M[R]_(n, q)) (Kit : 'M[R]_(n, m)) (Pt : 'M[R]_(m, q)) :=
  dsubmx (uk_sol K P Kit Pt).

Lemma uk_eqs n q m (K : 'M[R]_n) (P : 'M[R]_(n, q)) (Kit : 'M[R]_(n, m)) Pt :
  uk_lhs K P \in unitmx ->
  K *m uk_lambda K P Kit Pt + P *m uk_mu K P Kit Pt = Kit /\
  P^T *m uk_lambda K P Kit Pt = Pt^T.
Proof.
move=> u; have : uk_lhs K P *m uk_sol K P Kit Pt = uk_rhs Kit Pt by rewrite mulKVmx.
rewrite -[uk_sol _ _ _ _]vsubmxK -/(uk_lambda _ _ _ _) -/(uk_mu _ _ _ _).
by rewrite /uk_lhs mul_block_col mul0mx addr0 => /eq_col_mx.
Qed.

Lemma uk_uniq n q m (K : 'M[R]_n) (P : 'M[R]_(n, q)) (Kit : 'M[R]_(n, m)) Pt lam mu :
  uk_lhs K P \in unitmx ->
  K *m lam + P *m mu = Kit -> P^T *m lam = Pt^T ->
  lam = uk_lambda K P Kit Pt /\ mu = uk_mu K P Kit Pt.
Proof.
move=> u e1 e2; have e : uk_lhs K P *m col_mx lam mu = uk_rhs Kit Pt.
  by rewrite /uk_lhs mul_block_col mul0mx addr0 e1 e2.
rewrite /uk_lambda /uk_mu /uk_sol -e mulKmx //.
by rewrite col_mxKu col_mxKd.
Qed.

Lemma krig_block_ok0 n q m (K : 'M[R]_n) (P : 'M[R]_(n, q)) (Kit : 'M[R]_(n, m)) Pt tt :
  uk_lhs K P \in unitmx ->
  kriging_predictor_block K P Kit Pt tt 0 =
  Ok (uk_lambda K P Kit Pt,
      PVVar (tt_pairwise tt - einsum_ii (uk_sol K P Kit Pt) (uk_rhs Kit Pt))).
Proof. by move=> u; rewrite /kriging_predictor_block /solve u. Qed.
Lemma krig_block_ok1 n q m (K : 'M[R]_n) (P : 'M[R]_(n, q)) (Kit : 'M[R]_(n, m)) Pt tt :
  uk_lhs K P \in unitmx ->
  kriging_predictor_block K P Kit Pt tt 1 =
  Ok (uk_lambda K P Kit Pt,
      PVCov (tt_full tt - (uk_sol K P Kit Pt)^T *m (uk_rhs Kit Pt))).
Proof. by move=> u; rewrite /kriging_predictor_block /solve u. Qed.

Lemma uk_sol_rhs n q m (K : 'M[R]_n) (P : 'M[R]_(n, q)) (Kit : 'M[R]_(n, m)) Pt :
  (uk_sol K P Kit Pt)^T *m uk_rhs Kit Pt =
  (uk_lambda K P Kit Pt)^T *m Kit + (uk_mu K P Kit Pt)^T *m Pt^T.
Proof.
rewrite -[uk_sol _ _ _ _]vsubmxK -/(uk_lambda _ _ _ _) -/(uk_mu _ _ _ _).
by rewrite tr_col_mx /uk_rhs mul_row_col.
Qed.

Lemma unbiasedE n q m (P : 'M[R]_(n, q)) (Pt : 'M[R]_(m, q)) w j :
  unbiased P Pt w j <-> P^T *m w = (row j Pt)^T.
Proof.
have key (b : 'cV[R]_q) : \sum_i w i 0 * (P *m b) i 0 = ((P^T *m w)^T *m b) 0 0.
  rewrite trmx_mul trmxK -mulmxA mxE; apply: eq_bigr => i _; by rewrite !mxE.
have key2 (b : 'cV[R]_q) : (Pt *m b) j 0 = (row j Pt *m b) 0 0 by rewrite -row_mul [RHS]mxE.
split=> [H|H b]; last by rewrite key H trmxK key2.
apply: trmx_inj; rewrite trmxK; apply/rowP => k.
have := H (delta_mx k 0); rewrite key key2 -!colE !mxE => -> //.
Qed.

Lemma uk_mse n q m (K : 'M[R]_n) (P : 'M[R]_(n, q)) (Kit : 'M[R]_(n, m)) Pt Ktt w j :
  symmetric K -> uk_lhs K P \in unitmx -> P^T *m w = (row j Pt)^T ->
  mse (joint K Kit Ktt) w j =
  (Ktt j j - einsum_ii (uk_sol K P Kit Pt) (uk_rhs Kit Pt) 0 j)
   + qform K (w - col j (uk_lambda K P Kit Pt)).
Proof.
move=> sK u ew; have [e1 e2] := uk_eqs Kit Pt u.
set lam := uk_lambda _ _ _ _ in e1 e2 *; set mu := uk_mu _ _ _ _ in e1 e2 *.
rewrite einsum_iiE uk_sol_rhs -/lam -/mu mseE qformD // qformN bilinNr.
have ej : K *m col j lam = col j Kit - P *m col j mu.
  by rewrite -!col_mulmx -linearB /= -e1 addrK.
have e2j : P^T *m col j lam = (row j Pt)^T by rewrite -col_mulmx e2 tr_row.
have e3 : bilin K w (col j lam) = bilin 1%:M w (col j Kit) - (row j Pt *m col j mu) 0 0.
  rewrite /bilin -mulmxA ej mulmxBr mulmx1 [LHS]mxE; congr (_ + _).
  by rewrite mxE mulmxA -[w^T *m P]trmxK trmx_mul trmxK ew trmxK.
have e4 : qform K (col j lam) = bilin 1%:M (col j lam) (col j Kit) - (row j Pt *m col j mu) 0 0.
  rewrite /qform /bilin -mulmxA ej mulmxBr mulmx1 [LHS]mxE; congr (_ + _).
  by rewrite mxE mulmxA -[(col j lam)^T *m P]trmxK trmx_mul trmxK e2j trmxK.
rewrite e3 e4.
have -> : (lam^T *m Kit + mu^T *m Pt^T) j j =
  bilin 1%:M (col j lam) (col j Kit) + (row j Pt *m col j mu) 0 0.
  rewrite [LHS]mxE; congr (_ + _).
    rewrite /bilin mulmx1 !mxE.
    by apply: eq_bigr => i _; rewrite !mxE.
  rewrite !mxE; apply: eq_bigr => i _; by rewrite !mxE mulrC.
gring.
Qed.

Lemma uk_blup n q m (K : 'M[R]_n) (P : 'M[R]_(n, q)) (Kit : 'M[R]_(n, m)) Pt Ktt tt :
  cond_pos_def K P -> full_col_rank P -> tt_pairwise tt = diag_of Ktt ->
  exists lam v,
    kriging_predictor_block K P Kit Pt tt 0 = Ok (lam, PVVar v) /\
    forall j,
      [/\ unbiased P Pt (col j lam) j,
          v 0 j = mse (joint K Kit Ktt) (col j lam) j
        & forall w, unbiased P Pt w j -> w != col j lam ->
            v 0 j < mse (joint K Kit Ktt) w j].
Proof.
move=> cK fP ett; have u := uk_lhs_unit cK fP; have sK := cK.1.
exists (uk_lambda K P Kit Pt); eexists; split; first exact: krig_block_ok0.
move=> j; have [_ e2] := uk_eqs Kit Pt u.
have e2j : P^T *m col j (uk_lambda K P Kit Pt) = (row j Pt)^T by rewrite -col_mulmx e2 tr_row.
rewrite rsubE ett [diag_of _ _ _]mxE.
split; first exact/unbiasedE.
  by rewrite (uk_mse _ _ sK u e2j) subrr qform0 addr0.
move=> w /unbiasedE ew wn; rewrite (uk_mse _ _ sK u ew) ltr_addl; apply: cK.2.
  by rewrite mulmxBr ew e2j subrr.
by rewrite subr_eq0.
Qed.

End Proofs.
