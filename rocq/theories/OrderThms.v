(* OrderThms.v
   Property C112: the order in which the observations are given does not matter,
   and predicting at several points is predicting at each of them.

   The arrays of points are functions from indices to points; the reordered data
   are x (s i), z (s i) for a permutation s, and the target array is read through
   any index map g, which may drop, repeat or reorder targets. *)
From Coq Require Import Reals.
From mathcomp Require Import all_ssreflect all_fingroup all_algebra.
From Verif Require Import LinAlg KrigModel RealAux Rinst LikModel CholProofs LinQR KrigProofs KrigProofs2
  KrigProofs3 LooProofs PathProofs LikProofs OrderModel OrderProofs.
Set Implicit Arguments.
Unset Strict Implicit.
Unset Printing Implicit Defensive.
Import Order.TTheory GRing.Theory Num.Theory.
Local Open Scope ring_scope.
Local Arguments ln : clear scopes.

Section Predict.
Variables (R : rcfType) (X : Type) (q r m k : nat).

(* Model.predict on reordered observations and selected targets: the selected
   means and variances, and the weights with both permutations applied; the same
   exception when it fails.  Exact for the zero and parameterized means; for a
   linear predictor under the condition that the block system is solvable, so
   that neither call takes the fallback. *)
Theorem C112_predict (qr : qr_fun R q r)
  (ss : forall p, 'M[R]_q -> 'M[R]_(q, p) -> res 'M[R]_(q, p))
  (mk : mean_kind R X q) (c : kernel R X) (x : 'I_(q + r) -> X) (xt : 'I_m -> X)
  (z : 'cV[R]_(q + r)) (neg : bool) (s : 'S_(q + r)) (g : 'I_k -> 'I_m) :
  (forall a b, kfun c a b = kfun c b a) ->
  match mk with KLinear p => uk_lhs (cov_same c x) (design p x) \in unitmx | _ => true end ->
  predict_at qr (@ss k) mk c (fun i => x (s i)) (\col_i z (s i) 0) (fun j => xt (g j)) neg =
  match predict_at qr (@ss m) mk c x z xt neg with
  | Ok (mu, v, lam) =>
      Ok (\row_j mu 0 (g j), \row_j v 0 (g j), \matrix_(i, j) lam (s i) (g j))
  | Err e => Err e
  end.
Proof.
move=> sym hu; have sK := cov_same_sym x sym.
have oS := sel_orth R s.
have ez : (\col_i z (s i) 0) = (sel R s)^T *m z.
  by rewrite -rows_ofE; apply/colP => i; rewrite !mxE.
have cl (v : 'rV[R]_m) (w : 'rV[R]_k) : (forall j, w 0 j = v 0 (g j)) ->
  (if neg then clip0 w else w) = \row_j (if neg then clip0 v else v) 0 (g j).
  by move=> h; apply/rowP => j; rewrite mxE; case: neg; rewrite ?mxE h // mxE.
have cE (w : 'rV[R]_m) j : (\row_l w 0 (g l)) 0 j = w 0 (g j) by rewrite mxE.
rewrite /predict_at /predict ez cov_same_order cov_cross_order.
have tE j : tt_pairwise (cov_tt c (fun j0 => xt (g j0))) 0 j = tt_pairwise (cov_tt c xt) 0 (g j).
  by rewrite !mxE.
have lamE (L : 'M[R]_(q + r, m)) :
    (sel R s)^T *m L *m sel R g = \matrix_(i, j) L (s i) (g j).
  by rewrite -rows_ofE -cols_ofE; apply/matrixP => i j; rewrite !mxE.
have zeroE : kriging_predictor_with_zero_mean ((sel R s)^T *m cov_same c x *m sel R s)
     ((sel R s)^T *m cov_cross c x xt *m sel R g) (cov_tt c (fun j => xt (g j))) 0 =
   match kriging_predictor_with_zero_mean (cov_same c x) (cov_cross c x xt) (cov_tt c xt) 0 with
   | Ok (lam, PVVar v) => Ok ((sel R s)^T *m lam *m sel R g, PVVar (\row_j v 0 (g j)))
   | Ok (lam, _) => Ok (0, PVNone)
   | Err e => Err e
   end.
  case E: (chol (cov_same c x)) => [L|]; last first.
    have E' := (orth_chol_none oS sK).2 E.
    by rewrite /kriging_predictor_with_zero_mean /cholesky_solve E E'.
  have pK : pos_def (cov_same c x) by apply/(chol_some_iff sK); exists L.
  have pK' := (orth_pd oS (cov_same c x)).2 pK.
  rewrite !krig_zero_ok // /zm_lambda orth_sol //; congr (Ok (_, PVVar _)).
  by apply/rowP => j; rewrite cE !rsubE tE orth_einsum.
case: mk hu => [|p|[f|]] //= hu.
- rewrite zeroE; case E: (kriging_predictor_with_zero_mean _ _ _ _) => [[lam v]|e] //=.
  have [v0 ->] : exists v0, v = PVVar v0.
    move: E; rewrite /kriging_predictor_with_zero_mean; case: (cholesky_solve _ _) => [xL|//] /=.
    by case=> _ <-; eexists.
  rewrite lamE; congr (Ok (_, _, _)); last by apply: cl => j; rewrite cE.
  by rewrite -lamE !addr0; apply/rowP => j; rewrite cE orth_einsumz.
- have u' : uk_lhs ((sel R s)^T *m cov_same c x *m sel R s) ((sel R s)^T *m design p x) \in unitmx.
    by rewrite ext_lhs orth_unit // ext_orth.
  have dt : design p (fun j => xt (g j)) = rows_of g (design p xt) by apply/matrixP => i j; rewrite !mxE.
  rewrite design_order /kriging_predictor !krig_block_ok0 //=.
  have es : uk_sol ((sel R s)^T *m cov_same c x *m sel R s) ((sel R s)^T *m design p x)
       ((sel R s)^T *m cov_cross c x xt *m sel R g) (design p (fun j => xt (g j))) =
      (ext q (sel R s))^T *m uk_sol (cov_same c x) (design p x) (cov_cross c x xt) (design p xt) *m sel R g.
    by rewrite /uk_sol dt ext_lhs ext_rhs orth_sol // ext_orth.
  rewrite /uk_lambda es ext_usub !addr0; congr (Ok (_, _, _)); last exact: lamE.
    by apply/rowP => j; rewrite cE orth_einsumz.
  apply: cl => j; rewrite !rsubE tE dt ext_rhs orth_einsum //; exact: ext_orth.
- rewrite zeroE; case E: (kriging_predictor_with_zero_mean _ _ _ _) => [[lam v]|e] //=.
  have [v0 ->] : exists v0, v = PVVar v0.
    move: E; rewrite /kriging_predictor_with_zero_mean; case: (cholesky_solve _ _) => [xL|//] /=.
    by case=> _ <-; eexists.
  rewrite mean_col_order -mulmxBr lamE; congr (Ok (_, _, _)); last by apply: cl => j; rewrite cE.
  rewrite -lamE; apply/rowP => j; rewrite cE !maddE orth_einsumz //; congr (_ + _).
  by rewrite !mxE.
Qed.
End Predict.
Print Assumptions C112_predict.

(* Leave-one-out. *)
Section Loo.
Variables (R : rcfType) (X : Type).

(* the three arrays read in the new order *)
Definition read_loo n (s : 'S_n) (t : res ('cV[R]_n * 'cV[R]_n * 'cV[R]_n)) :=
  match t with
  | Ok (zl, s2, e) => Ok (\col_i zl (s i) 0, \col_i s2 (s i) 0, \col_i e (s i) 0)
  | Err e => Err e
  end.

Theorem C112_loo_zero n (c : kernel R X) (x : 'I_n -> X) (z : 'cV[R]_n) (s : 'S_n) :
  (forall a b, kfun c a b = kfun c b a) ->
  loo_zero_mean (cov_same c (fun i => x (s i))) (\col_i z (s i) 0) =
  read_loo s (loo_zero_mean (cov_same c x) z).
Proof.
move=> sym; have sK := cov_same_sym x sym; have oS := sel_orth R s.
have ez : (\col_i z (s i) 0) = (sel R s)^T *m z.
  by rewrite -rows_ofE; apply/colP => i; rewrite !mxE.
rewrite /loo_zero_mean cov_same_order.
case E: (chol (cov_same c x)) => [L|]; last first.
  have E' := (orth_chol_none oS sK).2 E.
  by rewrite /cholesky_solve E E'.
have pK : pos_def (cov_same c x) by apply/(chol_some_iff sK); exists L.
have pK' := (orth_pd oS (cov_same c x)).2 pK.
have [M cM ->] := cholesky_solve_ok z pK.
have [M' cM' ->] := cholesky_solve_ok (\col_i z (s i) 0) pK' => /=.
have dE i : diag_Kinv_from_chol M' 0 i = diag_Kinv_from_chol M 0 (s i).
  by rewrite (diag_Kinv_ok cM') (diag_Kinv_ok cM) orth_inv // -both_ofE mxE.
have nE i : (invmx ((sel R s)^T *m cov_same c x *m sel R s) *m (\col_i0 z (s i0) 0)) i 0 =
    (invmx (cov_same c x) *m z) (s i) 0.
  rewrite ez; have := orth_sol (cov_same c x) z (1%:M : 'M[R]_1) oS.
  by rewrite !mulmx1 => ->; rewrite -rows_ofE mxE.
have cE (F : 'I_n -> R) i : (\col_l F l) i 0 = F i by rewrite mxE.
congr (Ok (_, _, _)); apply/colP => i; rewrite !cE ?msubE ?cE ?dE ?nE //.
Qed.

Theorem C112_loo_param n (c : kernel R X) (f : X -> R) (x : 'I_n -> X) (z : 'cV[R]_n) (s : 'S_n) :
  (forall a b, kfun c a b = kfun c b a) ->
  loo_parameterized_mean (cov_same c (fun i => x (s i))) (mean_col f (fun i => x (s i)))
    (\col_i z (s i) 0) =
  read_loo s (loo_parameterized_mean (cov_same c x) (mean_col f x) z).
Proof.
move=> sym; rewrite /loo_parameterized_mean.
have -> : (\col_i z (s i) 0) - mean_col f (fun i => x (s i)) = \col_i (z - mean_col f x) (s i) 0.
  by apply/colP => i; rewrite !mxE.
rewrite C112_loo_zero //; case: (loo_zero_mean _ _) => [[[zl s2] e]|e] //=.
by congr (Ok (_, _, _)); apply/colP => i; rewrite !mxE.
Qed.

Theorem C112_loo_linear q r (qr : qr_fun R q r) (c : kernel R X) (p : X -> 'I_q -> R)
  (x : 'I_(q + r) -> X) (z : 'cV[R]_(q + r)) (s : 'S_(q + r)) :
  (forall P, is_qr P (qr P)) ->
  cond_pos_def (cov_same c x) (design p x) -> full_col_rank (design p x) ->
  loo_linear_cpd qr (cov_same c (fun i => x (s i))) (design p (fun i => x (s i))) (\col_i z (s i) 0) =
  read_loo s (loo_linear_cpd qr (cov_same c x) (design p x) z).
Proof.
move=> hqr cK fP; have oS := sel_orth R s.
have ez : (\col_i z (s i) 0) = (sel R s)^T *m z.
  by rewrite -rows_ofE; apply/colP => i; rewrite !mxE.
rewrite cov_same_order design_order.
move: cK fP; set K := cov_same c x; set P := design p x => cK fP.
have cK' := orth_cond oS cK; have fP' := orth_rank oS fP.
have [C [sB PB KB]] := cpd_B (hqr P) cK fP.
have [C' [sB' PB' KB']] := cpd_B (hqr ((sel R s)^T *m P)) cK' fP'.
have pG := G_pd (hqr P) cK; have pG' := G_pd (hqr ((sel R s)^T *m P)) cK'.
rewrite /loo_linear_cpd.
case E: (qr P) => [Q Rm]; case E': (qr ((sel R s)^T *m P)) => [Q' Rm'].
rewrite E /= in sB PB KB pG; rewrite E' /= in sB' PB' KB' pG'.
have [L _ -> /=] := cholesky_solve_ok (rsubmx Q)^T pG.
have [L' _ -> /=] := cholesky_solve_ok (rsubmx Q')^T pG'.
move: sB PB KB sB' PB' KB'.
set B := rsubmx Q *m _; set B' := rsubmx Q' *m _ => sB PB KB sB' PB' KB'.
have eB := order_B oS (uk_lhs_unit cK' fP') PB KB PB' KB'.
have dE (W : 'M[R]_(q + r, r)) (T : 'M[R]_(r, q + r)) i : \sum_j W i j * T^T i j = (W *m T) i i.
  by rewrite mxE; apply: eq_bigr => j _; rewrite mxE.
have cE (F : 'I_(q + r) -> R) i : (\col_l F l) i 0 = F i by rewrite mxE.
have nE i : (rsubmx Q' *m (invmx ((rsubmx Q')^T *m ((sel R s)^T *m K *m sel R s *m rsubmx Q')) *m
      (rsubmx Q')^T *m (\col_l z (s l) 0))) i 0 =
    (rsubmx Q *m (invmx ((rsubmx Q)^T *m (K *m rsubmx Q)) *m (rsubmx Q)^T *m z)) (s i) 0.
  have a1 (W : 'M[R]_(q + r, r)) (T : 'M[R]_(r, q + r)) y : W *m (T *m y) = (W *m T) *m (y : 'cV[R]_(q + r)).
    by rewrite mulmxA.
  by rewrite !a1 -/B -/B' eB ez order_Bz // -rows_ofE mxE.
have gE i : B' i i = B (s i) (s i) by rewrite eB -both_ofE mxE.
congr (Ok (_, _, _)); apply/colP => i; rewrite !cE ?msubE ?cE ?dE ?nE -?/B -?/B' ?gE //.
Qed.
End Loo.
Print Assumptions C112_loo_zero.
Print Assumptions C112_loo_param.
Print Assumptions C112_loo_linear.

(* Likelihoods. *)
Section Lik.
Variable X : Type.

(* negative log-likelihood, both backends, failures included *)
Theorem C112_nll b n (c : kernel R_rcfType X) (f : X -> R) (x : 'I_n -> X) (z : 'cV[R]_n) (s : 'S_n) :
  (forall a b, kfun c a b = kfun c b a) ->
  nll b (cov_same c (fun i => x (s i))) (mean_col (f : X -> R_rcfType) (fun i => x (s i))) (\col_i z (s i) 0) =
  nll b (cov_same c x) (mean_col (f : X -> R_rcfType) x) z.
Proof.
move=> sym; have sK := cov_same_sym x sym; have oS := sel_orth R_rcfType s.
rewrite /nll.
have -> : (\col_i z (s i) 0) - mean_col (f : X -> R_rcfType) (fun i => x (s i)) =
    (sel R_rcfType s)^T *m (z - mean_col (f : X -> R_rcfType) x).
  by rewrite -rows_ofE; apply/colP => i; rewrite !mxE.
rewrite cov_same_order; move: (z - _) => y.
case E: (chol (cov_same c x)) => [L|]; last first.
  have E' := (orth_chol_none oS sK).2 E.
  by rewrite /nll_zero_mean /cholesky_solve E E'.
have pK : pos_def (cov_same c x) by apply/(chol_some_iff sK); exists L.
have pK' := (orth_pd oS (cov_same c x)).2 pK.
rewrite !nll_zero_ok //; congr (Ok (Fin _)); rewrite /gauss_nll orth_inv //; congr ((_ + _ + _) / _).
  by congr ln; rewrite !det_mulmx mulrAC det_tr (det_orth oS) mul1r.
by rewrite -qform_mul mulmxA sel_orth' mul1mx.
Qed.

(* restricted likelihood *)
Theorem C112_reml b q r (qr : qr_fun R_rcfType q r) (c : kernel R_rcfType X) (p : X -> 'I_q -> R)
  (x : 'I_(q + r) -> X) (z : 'cV[R]_(q + r)) (s : 'S_(q + r)) :
  (forall P, is_qr P (qr P)) ->
  cond_pos_def (cov_same c x) (design (p : X -> 'I_q -> R_rcfType) x) ->
  full_col_rank (design (p : X -> 'I_q -> R_rcfType) x) ->
  nrl b qr (cov_same c (fun i => x (s i))) (design (p : X -> 'I_q -> R_rcfType) (fun i => x (s i))) (\col_i z (s i) 0) =
  nrl b qr (cov_same c x) (design (p : X -> 'I_q -> R_rcfType) x) z.
Proof.
move=> hqr cK fP; have oS := sel_orth R_rcfType s.
have ez : (\col_i z (s i) 0) = (sel R_rcfType s)^T *m z.
  by rewrite -rows_ofE; apply/colP => i; rewrite !mxE.
rewrite cov_same_order design_order ez.
move: cK fP; set K := cov_same c x; set P := design _ x => cK fP; clearbody K P.
have cK' := orth_cond oS cK; have fP' := orth_rank oS fP.
rewrite !nrl_ok //; congr (Ok (Fin _)).
have [WW PW _] := qr_contrast (hqr P).
rewrite -(nrl_of_basis _ (hqr _) fP' cK' (W' := (sel R_rcfType s)^T *m rsubmx (qr P).1)).
  rewrite /nrl_of; set W := rsubmx _; set S := sel R_rcfType s.
  have oS' : S *m S^T = 1%:M := mulmx1C oS.
  congr gauss_nll; first by rewrite trmx_mul trmxK !mulmxA -[_ *m S *m S^T]mulmxA oS' mulmx1
     -[_ *m S *m S^T]mulmxA oS' mulmx1.
  by rewrite trmx_mul trmxK -mulmxA (mulmxA S) oS' mul1mx.
split=> //.
  by rewrite trmx_mul trmxK -mulmxA (mulmxA (sel R_rcfType s)) sel_orth' mul1mx.
by rewrite trmx_mul trmxK -mulmxA (mulmxA (sel R_rcfType s)) sel_orth' mul1mx.
Qed.
End Lik.
Print Assumptions C112_nll.
Print Assumptions C112_reml.

(* Fisher information: the covariance and its parameter derivatives are kernels *)
Section Fisher.
Variables (R : rcfType) (X : Type).
Theorem C112_fisher n pp (c : kernel R X) (dc : 'I_pp -> kernel R X) (x : 'I_n -> X) (s : 'S_n) :
  fisher_information (cov_same c (fun i => x (s i))) (fun l => cov_same (dc l) (fun i => x (s i))) =
  fisher_information (cov_same c x) (fun l => cov_same (dc l) x).
Proof.
have oS := sel_orth R s.
rewrite /fisher_information /inv cov_same_order orth_unit //.
case: ifP => // uK; congr (Ok _).
have tE i j : \tr (invmx ((sel R s)^T *m cov_same c x *m sel R s) *m cov_same (dc i) (fun l => x (s l)) *m
     invmx ((sel R s)^T *m cov_same c x *m sel R s) *m cov_same (dc j) (fun l => x (s l))) =
   \tr (invmx (cov_same c x) *m cov_same (dc i) x *m invmx (cov_same c x) *m cov_same (dc j) x).
  rewrite orth_inv // !cov_same_order; set S := sel R s.
  move: (invmx (cov_same c x)) (cov_same (dc i) x) (cov_same (dc j) x) => A D E.
  have oS' : S *m S^T = 1%:M := sel_orth' R s.
  rewrite !mulmxA -[_ *m S *m S^T]mulmxA oS' mulmx1 -[_ *m S *m S^T]mulmxA oS' mulmx1
    -[_ *m S *m S^T]mulmxA oS' mulmx1 mxtrace_mulC !mulmxA oS' mul1mx //.
by apply/matrixP => i j; rewrite !mxE; case: ifP => _; rewrite tE.
Qed.
End Fisher.
Print Assumptions C112_fisher.

(* A concrete case: two observations with covariance w_K and trend w_P, exchanged. *)
Section Case.
Variable R : rcfType.
Let c : kernel R 'I_(1 + 1) := Kernel (fun i j => w_K R i j) 0.
Let x : 'I_(1 + 1) -> 'I_(1 + 1) := fun i => i.
Let p : 'I_(1 + 1) -> 'I_1 -> R := fun i k => w_P R i k.
Let s : 'S_(1 + 1) := tperm ord0 ord_max.

Example C112_case :
  [/\ forall a b, kfun c a b = kfun c b a,
      pos_def (cov_same c x), full_col_rank (design p x),
      uk_lhs (cov_same c x) (design p x) \in unitmx & s ord0 = ord_max].
Proof.
have eK : cov_same c x = w_K R.
  rewrite /cov_same /= raddf0 addr0; apply/matrixP => i j; by rewrite [LHS]mxE.
have eP : design p x = w_P R by apply/matrixP => i j; rewrite [LHS]mxE.
have pK : pos_def (w_K R) by exact: w_pd.
have fP : full_col_rank (w_P R) by exact: w_full.
rewrite eK eP; split=> //.
- by move=> a b /=; have := pd_sym pK; rewrite /symmetric => e; rewrite -[w_K R in RHS]e [RHS]mxE.
- exact: uk_lhs_unit (pd_cpd _ pK) fP.
- by rewrite tpermL.
Qed.
End Case.
Print Assumptions C112_case.
