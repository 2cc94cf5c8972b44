(* UpdThms.v
   Property C113: adding and removing observations in Model.predict, and the
   influence of one observation in terms of Model.loo.

   The reduced data set is x (f i), z (f i) for an injective index map f. *)
From Coq Require Import Reals.
From mathcomp Require Import all_ssreflect all_fingroup all_algebra.
From Verif Require Import LinAlg KrigModel CholProofs LinQR KrigProofs KrigProofs2
  KrigProofs3 LooProofs OrderModel OrderProofs UpdProofs.
Set Implicit Arguments.
Unset Strict Implicit.
Unset Printing Implicit Defensive.
Import Order.TTheory GRing.Theory Num.Theory.
Local Open Scope ring_scope.

Section Upd.
Variables (R : rcfType) (X : Type) (q : nat).

(* The data and the model for which predictions exist: positive definite data
   covariance; for a linear predictor it is enough that the covariance is positive
   definite on the contrasts and that the kept points determine the trend. *)
Definition solvable n k (mk : mean_kind R X q) (c : kernel R X) (x : 'I_n -> X) (f : 'I_k -> 'I_n) : Prop :=
  match mk with
  | KLinear p => cond_pos_def (cov_same c x) (design p x) /\ full_col_rank (design p (fun i => x (f i)))
  | KParam None => False
  | _ => pos_def (cov_same c x)
  end.

(* --- common form of the three kinds of mean --- *)
Definition rq (mk : mean_kind R X q) := match mk with KLinear _ => q | _ => 0%N end.
Definition rp (mk : mean_kind R X q) : X -> 'I_(rq mk) -> R :=
  match mk return X -> 'I_(rq mk) -> R with KLinear p => p | _ => fun _ _ => 0 end.
Definition rm (mk : mean_kind R X q) : X -> R :=
  match mk with KParam (Some h) => h | _ => fun _ => 0 end.

Lemma cov_same_sub n k (c : kernel R X) (x : 'I_n -> X) (f : 'I_k -> 'I_n) : injective f ->
  cov_same c (fun i => x (f i)) = (sel R f)^T *m cov_same c x *m sel R f.
Proof. by move=> fi; rewrite -both_ofE; apply/matrixP => i j; rewrite !mxE (inj_eq fi). Qed.
Lemma cov_cross_sub n k m (c : kernel R X) (x : 'I_n -> X) (f : 'I_k -> 'I_n) (xt : 'I_m -> X) :
  cov_cross c (fun i => x (f i)) xt = (sel R f)^T *m cov_cross c x xt.
Proof. by rewrite -rows_ofE; apply/matrixP => i j; rewrite !mxE. Qed.
Lemma design_sub n k q' (p : X -> 'I_q' -> R) (x : 'I_n -> X) (f : 'I_k -> 'I_n) :
  design p (fun i => x (f i)) = (sel R f)^T *m design p x.
Proof. by rewrite -rows_ofE; apply/matrixP => i j; rewrite !mxE. Qed.

Lemma solvable_rep n k mk c (x : 'I_n -> X) (f : 'I_k -> 'I_n) : injective f -> solvable mk c x f ->
  [/\ cond_pos_def (cov_same c x) (design (@rp mk) x), full_col_rank ((sel R f)^T *m design (@rp mk) x)
    & mk <> KParam None].
Proof.
move=> fi; case: mk => [|p|[h|]] //=.
- by move=> pK; split=> //; [exact: pd_cpd | move=> b _; apply/colP => -[]].
- by case=> cK fP; split=> //; rewrite -design_sub.
- by move=> pK; split=> //; [exact: pd_cpd | move=> b _; apply/colP => -[]].
Qed.

Lemma pd_of_cpd0 n (K : 'M[R]_n) (P : 'M[R]_(n, 0)) : cond_pos_def K P -> pos_def K.
Proof. by case=> sK pK; split=> // v vn; apply: pK => //; apply/colP => -[]. Qed.

Lemma predict_rep r m (qr : qr_fun R q r) ss mk c (x : 'I_(q + r) -> X) z (xt : 'I_m -> X) neg :
  cond_pos_def (cov_same c x) (design (@rp mk) x) -> full_col_rank (design (@rp mk) x) ->
  mk <> KParam None ->
  let K := cov_same c x in let P := design (@rp mk) x in
  let Kit := cov_cross c x xt in let Pt := design (@rp mk) xt in
  let lam := uk_lambda K P Kit Pt in
  let v := cov_same_pairwise c xt - einsum_ii (uk_sol K P Kit Pt) (uk_rhs Kit Pt) in
  predict_at qr ss mk c x z xt neg =
  Ok (\row_j ((lam^T *m (z - mean_col (rm mk) x)) j 0 + rm mk (xt j)),
      (if neg then clip0 v else v), lam).
Proof.
move=> cK fP nN K P Kit Pt lam v; rewrite /predict_at /predict.
have zE (L : 'M[R]_(q + r, m)) (h : X -> R) y : einsum_iz L y + mean_row h xt =
    \row_j ((L^T *m y) j 0 + h (xt j)).
  by apply/rowP => j; rewrite maddE einsum_izE !mxE.
have zE0 (L : 'M[R]_(q + r, m)) y : einsum_iz L y + 0 = \row_j ((L^T *m y) j 0 + (fun _ : X => 0) (xt j)).
  by apply/rowP => j; rewrite maddE einsum_izE !mxE.
have m0 : z - mean_col (fun _ : X => 0) x = z.
  by apply/colP => i; rewrite !mxE oppr0 addr0.
have z0 : forall n0 (y : 'I_n0 -> X) , design (fun (_ : X) (_ : 'I_0) => 0 : R) y = 0.
  by move=> n0 y; apply/matrixP => i [].
case: mk nN cK fP @P @Pt @lam @v => [|p|[h|]] //= _ cK fP.
- have pK := pd_of_cpd0 cK; rewrite krig_zero_ok //= m0 zE0 !z0.
  have [e1 e2] := zm_uk Kit pK; rewrite -[cov_cross c x xt]/Kit -[cov_same c x]/K -e1.
  by congr (Ok (_, _, _)); case: neg; [congr clip0|]; apply/rowP => j; rewrite !rsubE e2.
- rewrite /kriging_predictor krig_block_ok0 /=; last exact: uk_lhs_unit.
  by rewrite m0 zE0.
- have pK := pd_of_cpd0 cK; rewrite krig_zero_ok //= zE !z0.
  have [e1 e2] := zm_uk Kit pK; rewrite -[cov_cross c x xt]/Kit -[cov_same c x]/K -e1.
  by congr (Ok (_, _, _)); case: neg; [congr clip0|]; apply/rowP => j; rewrite !rsubE e2.
Qed.

Lemma loo_rep r (qr : qr_fun R q r) mk c (x : 'I_(q + r) -> X) z :
  (forall P, is_qr P (qr P)) ->
  cond_pos_def (cov_same c x) (design (@rp mk) x) -> full_col_rank (design (@rp mk) x) ->
  mk <> KParam None ->
  exists B C, [/\ symmetric B, (design (@rp mk) x)^T *m B = 0,
     cov_same c x *m B + design (@rp mk) x *m C = 1%:M &
     loo_at qr mk c x z =
     Ok (\col_i (z i 0 - (B *m (z - mean_col (rm mk) x)) i 0 / B i i), \col_i (1 / B i i),
         \col_i ((B *m (z - mean_col (rm mk) x)) i 0 / B i i))].
Proof.
move=> hqr; have cE (F : 'I_(q + r) -> R) i : (\col_l F l) i 0 = F i by rewrite mxE.
have m0 : z - mean_col (fun _ : X => 0) x = z.
  by apply/colP => i; rewrite !mxE oppr0 addr0.
case: mk => [|p|[h|]] //= cK fP _.
- have pK := pd_of_cpd0 cK; exists (invmx (cov_same c x)), 0; split.
  + exact: (pd_inv pK).1.
  + by apply/matrixP => -[].
  + by rewrite mulmxV ?pd_unit // mulmx0 addr0.
  rewrite /loo_zero_mean m0; have [L cL -> /=] := cholesky_solve_ok z pK.
  by congr (Ok (_, _, _)); apply/colP => i; rewrite ?msubE !cE (diag_Kinv_ok cL).
- have [C [sB PB KB]] := cpd_B (hqr (design p x)) cK fP.
  have pG := G_pd (hqr (design p x)) cK.
  rewrite /loo_linear_cpd; case E: (qr (design p x)) => [Q Rm]; rewrite E /= in sB PB KB pG.
  exists (rsubmx Q *m (invmx ((rsubmx Q)^T *m (cov_same c x *m rsubmx Q)) *m (rsubmx Q)^T)), C.
  split=> //; rewrite m0.
  have [L _ -> /=] := cholesky_solve_ok (rsubmx Q)^T pG.
  have dE (W : 'M[R]_(q + r, r)) (T : 'M[R]_(r, q + r)) i : \sum_j W i j * T^T i j = (W *m T) i i.
    by rewrite mxE; apply: eq_bigr => j _; rewrite mxE.
  have a1 (W : 'M[R]_(q + r, r)) (T : 'M[R]_(r, q + r)) y : W *m (T *m y) = (W *m T) *m (y : 'cV[R]_(q + r)).
    by rewrite mulmxA.
  by congr (Ok (_, _, _)); apply/colP => i; rewrite ?msubE !cE ?a1 ?dE.
- have pK := pd_of_cpd0 cK; exists (invmx (cov_same c x)), 0; split.
  + exact: (pd_inv pK).1.
  + by apply/matrixP => -[].
  + by rewrite mulmxV ?pd_unit // mulmx0 addr0.
  rewrite /loo_parameterized_mean /loo_zero_mean.
  have [L cL -> /=] := cholesky_solve_ok (z - mean_col h x) pK.
  set e := \col_i (_ / diag_Kinv_from_chol L 0 i).
  have eE i : e i 0 = (invmx (cov_same c x) *m (z - mean_col h x)) i 0 / invmx (cov_same c x) i i.
    by rewrite cE (diag_Kinv_ok cL).
  congr (Ok (_, _, _)); apply/colP => i.
  + by rewrite maddE !msubE addrAC subrK eE [RHS]cE.
  + by rewrite !cE (diag_Kinv_ok cL).
  + by rewrite eE [RHS]cE.
Qed.

Lemma clip_le neg m (v v' : 'rV[R]_m) j : v 0 j <= v' 0 j ->
  (if neg then clip0 v else v) 0 j <= (if neg then clip0 v' else v') 0 j.
Proof.
case: neg => // h; rewrite [clip0 v 0 j]mxE [clip0 v' 0 j]mxE.
by rewrite le_maxl !le_maxr lexx orbT andbT h.
Qed.

(* ---- the theorems ---- *)

(* Fewer observations never give a smaller variance, whatever the values. *)
Theorem C113_variance r r' m (qr : qr_fun R q r) (qr' : qr_fun R q r') ss ss'
  (mk : mean_kind R X q) (c : kernel R X) (x : 'I_(q + r) -> X) (z : 'cV[R]_(q + r))
  (f : 'I_(q + r') -> 'I_(q + r)) (z' : 'cV[R]_(q + r')) (xt : 'I_m -> X) (neg : bool) :
  injective f -> solvable mk c x f ->
  exists mu v lam mu' v' lam',
    [/\ predict_at qr ss mk c x z xt neg = Ok (mu, v, lam),
        predict_at qr' ss' mk c (fun i => x (f i)) z' xt neg = Ok (mu', v', lam')
      & forall j, v 0 j <= v' 0 j].
Proof.
move=> fi /(solvable_rep fi) [cK fP nN].
have cK' : cond_pos_def (cov_same c (fun i => x (f i))) (design (@rp mk) (fun i => x (f i))).
  by rewrite (cov_same_sub c x fi) (design_sub (@rp mk) x f); exact: sub_cpd.
have fP' : full_col_rank (design (@rp mk) (fun i => x (f i))) by rewrite (design_sub (@rp mk) x f).
do 6 eexists; split; [exact: (predict_rep _ _ _ _ _ cK (sub_rank fP) nN) | exact: (predict_rep _ _ _ _ _ cK' fP' nN) |].
move=> j; rewrite (cov_same_sub c x fi) (design_sub (@rp mk) x f) (cov_cross_sub c x f xt).
have h := sub_var_le (cov_cross c x xt) (design (@rp mk) xt) fi cK fP (cov_same_pairwise c xt) j.
exact: clip_le.
Qed.

(* Observing, at new points, exactly the predicted values changes no prediction. *)
Theorem C113_believer r r' m (qr : qr_fun R q r) (qr' : qr_fun R q r') ss ss' ssx
  (mk : mean_kind R X q) (c : kernel R X) (x : 'I_(q + r) -> X) (z : 'cV[R]_(q + r))
  (f : 'I_(q + r') -> 'I_(q + r)) (xt : 'I_m -> X) (neg : bool) mux vx lamx :
  injective f -> solvable mk c x f ->
  predict_at qr' ssx mk c (fun i => x (f i)) (\col_i z (f i) 0) x neg = Ok (mux, vx, lamx) ->
  (forall l, (forall i, f i != l) -> z l 0 = mux 0 l) ->
  exists mu v lam v' lam',
    predict_at qr ss mk c x z xt neg = Ok (mu, v, lam) /\
    predict_at qr' ss' mk c (fun i => x (f i)) (\col_i z (f i) 0) xt neg = Ok (mu, v', lam').
Proof.
move=> fi /(solvable_rep fi) [cK fP nN].
have cK' : cond_pos_def (cov_same c (fun i => x (f i))) (design (@rp mk) (fun i => x (f i))).
  by rewrite (cov_same_sub c x fi) (design_sub (@rp mk) x f); exact: sub_cpd.
have fP' : full_col_rank (design (@rp mk) (fun i => x (f i))) by rewrite (design_sub (@rp mk) x f).
have cz : (\col_i z (f i) 0) - mean_col (rm mk) (fun i => x (f i)) =
    (sel R f)^T *m (z - mean_col (rm mk) x).
  by rewrite -rows_ofE; apply/colP => i; rewrite !mxE.
rewrite (predict_rep _ _ _ _ _ cK' fP' nN) => -[emu _ _] h.
have hb : forall l, (forall i, f i != l) -> (z - mean_col (rm mk) x) l 0 =
    ((uk_lambda ((sel R f)^T *m cov_same c x *m sel R f) ((sel R f)^T *m design (@rp mk) x)
        (cov_cross c (fun i => x (f i)) x) (design (@rp mk) x))^T *m
       ((sel R f)^T *m (z - mean_col (rm mk) x))) l 0.
  move=> l nl; rewrite msubE (h l nl) -emu [(\row_j _) 0 l]mxE cz (cov_same_sub c x fi) (design_sub (@rp mk) x f).
  by rewrite [mean_col _ _ l 0]mxE addrK.
have hx : forall l a, (forall i, f i != l) ->
    cov_cross c (fun i => x (f i)) x a l = ((sel R f)^T *m cov_same c x) a l.
  by move=> l a nl; rewrite -rows_ofE !mxE (negbTE (nl a)) addr0.
have main := sub_believe (cov_cross c x xt) (design (@rp mk) xt) fi cK fP hx hb.
do 5 eexists; split; first exact: (predict_rep _ _ _ _ _ cK (sub_rank fP) nN).
rewrite (predict_rep _ _ _ _ _ cK' fP' nN); congr (Ok (_, _, _)).
apply/rowP => j; rewrite [LHS]mxE [RHS]mxE cz main.
by rewrite (cov_same_sub c x fi) (design_sub (@rp mk) x f) (cov_cross_sub c x f xt).
Qed.

(* Removing one observation changes the prediction at t by lambda_{i,t} times its
   leave-one-out error, and the (unclipped) variance by lambda_{i,t}^2 times its
   leave-one-out variance. *)
Theorem C113_influence r r' m (qr : qr_fun R q r) (qr' : qr_fun R q r') ss ss'
  (mk : mean_kind R X q) (c : kernel R X) (x : 'I_(q + r) -> X) (z : 'cV[R]_(q + r))
  (f : 'I_(q + r') -> 'I_(q + r)) (xt : 'I_m -> X) (i : 'I_(q + r)) :
  (forall P, is_qr P (qr P)) ->
  injective f -> (forall l, f l != i) -> (forall l, l != i -> exists a, f a = l) ->
  solvable mk c x f ->
  exists mu v lam mu' v' lam' zloo s2loo eloo,
    [/\ predict_at qr ss mk c x z xt false = Ok (mu, v, lam),
        predict_at qr' ss' mk c (fun a => x (f a)) (\col_a z (f a) 0) xt false = Ok (mu', v', lam'),
        loo_at qr mk c x z = Ok (zloo, s2loo, eloo),
        forall j, mu' 0 j = mu 0 j - lam i j * eloo i 0
      & forall j, v' 0 j = v 0 j + lam i j ^+ 2 * s2loo i 0].
Proof.
move=> hqr fi fni fon /(solvable_rep fi) [cK fP nN].
have cK' : cond_pos_def (cov_same c (fun i => x (f i))) (design (@rp mk) (fun i => x (f i))).
  by rewrite (cov_same_sub c x fi) (design_sub (@rp mk) x f); exact: sub_cpd.
have fP' : full_col_rank (design (@rp mk) (fun i => x (f i))) by rewrite (design_sub (@rp mk) x f).
have cz : (\col_i z (f i) 0) - mean_col (rm mk) (fun i => x (f i)) =
    (sel R f)^T *m (z - mean_col (rm mk) x).
  by rewrite -rows_ofE; apply/colP => a; rewrite !mxE.
have [B [C [sB PB KB EL]]] := loo_rep z hqr cK (sub_rank fP) nN.
have fwo : full_col_rank (P_wo i (design (@rp mk) x)).
  move=> b hb; apply: fP; rewrite -mulmxA -rows_ofE; apply/colP => a; rewrite mxE [RHS]mxE.
  have [a' ea] : exists a', lift i a' = f a.
    by have := fni a; rewrite eq_sym => /unlift_some [a' -> _]; exists a'.
  have := hb; rewrite /P_wo => /colP /(_ a'); rewrite [RHS]mxE => <-.
  by rewrite -ea [LHS]mxE [RHS]mxE; apply: eq_bigr => t _; rewrite [row' _ _ _ _]mxE.
have rE (F : 'I_m -> R) j : (\row_l F l) 0 j = F j by rewrite mxE.
have cE (F : 'I_(q + r) -> R) a : (\col_l F l) a 0 = F a by rewrite mxE.
have Bii : B i i != 0 by rewrite gt_eqF // (B_diag_pos cK sB PB KB).
have [_ Hm Hv] := sub_one (cov_cross c x xt) (design (@rp mk) xt) fi cK fP fni fon sB PB KB Bii.
do 9 eexists; split; [exact: (predict_rep _ _ _ _ _ cK (sub_rank fP) nN)
  | exact: (predict_rep _ _ _ _ _ cK' fP' nN) | exact: EL | |] => j.
- rewrite !(rE, cE).
  by rewrite cz (cov_same_sub c x fi) (design_sub (@rp mk) x f) (cov_cross_sub c x f xt) Hm addrAC.
- by rewrite /= (cov_same_sub c x fi) (design_sub (@rp mk) x f) (cov_cross_sub c x f xt) Hv cE.
Qed.

End Upd.
Print Assumptions C113_variance.
Print Assumptions C113_believer.
Print Assumptions C113_influence.

(* A concrete case: two observations, the second one removed, constant mean. *)
Section Case.
Variable R : rcfType.
Let c : kernel R 'I_(1 + 1) := Kernel (fun i j => w_K R i j) 0.
Let x : 'I_(1 + 1) -> 'I_(1 + 1) := fun i => i.
Let p : 'I_(1 + 1) -> 'I_1 -> R := fun i k => w_P R i k.
Let f : 'I_(1 + 0) -> 'I_(1 + 1) := fun i => lshift 1 i.

Example C113_case :
  [/\ injective f, forall l, f l != rshift 1 ord0, forall l, l != rshift 1 ord0 -> exists a, f a = l,
      solvable (KLinear p) c x f & solvable (KParam (Some (fun i => w_P R i ord0)) : mean_kind R 'I_(1 + 1) 1) c x f].
Proof.
have eK : cov_same c x = w_K R.
  rewrite /cov_same /= raddf0 addr0; apply/matrixP => i j; by rewrite [LHS]mxE.
have eP : design p x = w_P R by apply/matrixP => i j; rewrite [LHS]mxE.
split.
- exact: lshift_inj.
- by move=> l; rewrite eq_lrshift.
- move=> l; case: (splitP l) => [j e _|j e]; first by exists j; apply: val_inj; rewrite /= -e.
  by case/eqP; apply: val_inj; rewrite /= e ord1.
- split; first by rewrite eK eP; apply: pd_cpd; exact: w_pd.
  move=> b; rewrite (design_sub p x f) eP => /colP /(_ ord0).
  rewrite -mulmxA -rows_ofE /w_P mul_col_mx mxE col_mxEu mul1mx [RHS]mxE => h.
  by apply/colP => a; rewrite ord1 [RHS]mxE -[RHS]h; congr (b _ _); apply: val_inj.
- by rewrite /= eK; exact: w_pd.
Qed.
End Case.
Print Assumptions C113_case.
