(* ConstThms.v
   Property C131: an input that takes one value only in the data. *)
From Coq Require Import Reals.
From mathcomp Require Import all_ssreflect all_fingroup all_algebra ring.
From Verif Require Import ConfigModel LinAlg KrigModel LikModel RealAux Rinst CholProofs LinQR KrigProofs KrigProofs2 KrigProofs3
  LooProofs PathProofs LikProofs MaternModel MaternProofs MaternCov MaternCovProofs OrderModel OrderProofs LinkThms UpdProofs UpdThms InfoProofs
  InfoThms NormThms UnitsProofs UnitsThms UnitsMatThms FarProofs FarThms FishThms SmoothThms.
Set Implicit Arguments.
Unset Strict Implicit.
Unset Printing Implicit Defensive.
Import Order.TTheory GRing.Theory Num.Theory.
Local Open Scope ring_scope.
Local Arguments exp : clear scopes.
Local Arguments sqrt : clear scopes.
Local Notation RR := R_rcfType.

Section Const.
Variables (p d : nat) (k : 'I_d.+1) (v : R).

(* the point with the value v in coordinate k, and the parameters without the range of that coordinate *)
Definition insert (y : 'rV[R]_d) : 'rV[R]_d.+1 := \row_i (if unlift k i is Some j then y 0 j else v).
Definition without (th : R * 'rV[R]_d.+1) : R * 'rV[R]_d := (th.1, \row_j th.2 0 (lift k j)).
(* the mean as a function of the other coordinates *)
Definition restrict q (mk : mean_kind RR 'rV[R]_d.+1 q) : mean_kind RR 'rV[R]_d q :=
  match mk with
  | KZero => KZero
  | KLinear f => KLinear (fun y => f (insert y))
  | KParam None => KParam None
  | KParam (Some f) => KParam (Some (fun y => f (insert y)))
  end.

Lemma insert_lift y j : insert y 0 (lift k j) = y 0 j.
Proof. by rewrite mxE liftK. Qed.
Lemma insert_k y : insert y 0 k = v.
Proof. by rewrite mxE unlift_none. Qed.

Lemma kern_insert th y y' : kfun (matern_kernel p th) (insert y) (insert y') = kfun (matern_kernel p (without th)) y y'.
Proof.
rewrite /=; congr (_ * maternp_kernel p (sqrt _)).
rewrite (bigD1_ord k) //= !insert_k subrr expr0n add0r; apply: eq_bigr => j _.
by rewrite !insert_lift mxE.
Qed.

Lemma same_insert th n (x : 'I_n -> 'rV[R]_d) :
  cov_same (matern_kernel p th) (fun i => insert (x i)) = cov_same (matern_kernel p (without th)) x.
Proof. by apply/matrixP => i j; rewrite 2!mxE kern_insert !mxE. Qed.

(* Everything is as in the problem without that coordinate. *)
Theorem C131_removed b q r (qr : qr_fun RR q r) mk th (x : 'I_(q + r) -> 'rV[R]_d) z :
  [/\ forall m (xt : 'I_m -> 'rV[R]_d) ss neg,
        predict_at qr ss mk (matern_kernel p th) (fun i => insert (x i)) z (fun j => insert (xt j)) neg =
        predict_at qr ss (restrict mk) (matern_kernel p (without th)) x z xt neg,
      loo_at qr mk (matern_kernel p th) (fun i => insert (x i)) z = loo_at qr (restrict mk) (matern_kernel p (without th)) x z,
      crit_at b qr mk (matern_kernel p th) (fun i => insert (x i)) z = crit_at b qr (restrict mk) (matern_kernel p (without th)) x z
    & forall y : 'rV[R]_d.+1, y 0 k = v -> y = insert (\row_j y 0 (lift k j))].
Proof.
split.
- move=> m xt ss neg; rewrite /predict_at same_insert.
  have -> : cov_cross (matern_kernel p th) (fun i => insert (x i)) (fun j => insert (xt j)) =
      cov_cross (matern_kernel p (without th)) x xt.
    by apply/matrixP => i j; rewrite mxE kern_insert mxE.
  have -> : cov_tt (matern_kernel p th) (fun j => insert (xt j)) = cov_tt (matern_kernel p (without th)) xt.
    by rewrite /cov_tt same_insert; congr PriorTT; apply/rowP => j; rewrite mxE kern_insert mxE.
  by case: mk => [|f|[f|]].
- by rewrite /loo_at same_insert; case: mk => [|f|[f|]].
- by rewrite /crit_at same_insert; case: mk => [|f|[f|]].
- move=> y yk; apply/rowP => i; rewrite mxE; case: unliftP => [j ->|->] //; by rewrite mxE.
Qed.

(* parameters that differ in the range of that coordinate only *)
Definition same_but (th th' : R * 'rV[R]_d.+1) : Prop := th.1 = th'.1 /\ forall j, j != k -> th.2 0 j = th'.2 0 j.

Lemma same_without th th' : same_but th th' -> without th = without th'.
Proof.
case=> e1 e2; rewrite /without e1; congr (_, _); apply/rowP => j; rewrite !mxE e2 // eq_sym; exact: neq_lift.
Qed.
Lemma flat_cov th th' n (x : 'I_n -> 'rV[R]_d.+1) : same_but th th' -> (forall i, x i 0 k = v) ->
  cov_same (matern_kernel p th) x = cov_same (matern_kernel p th') x.
Proof.
move=> st xk; pose x' i : 'rV[R]_d := \row_j x i 0 (lift k j).
have xE i : x i = insert (x' i).
  by apply/rowP => l; rewrite mxE; case: unliftP => [j ->|->]; rewrite ?mxE.
have h th0 : cov_same (matern_kernel p th0) x = cov_same (matern_kernel p (without th0)) x'.
  by rewrite -same_insert; apply/matrixP => i j; rewrite !mxE xE [in LHS](xE j).
by rewrite !h (same_without st).
Qed.

(* The data say nothing on that range: criteria and leave-one-out results do not depend on it, and it can be replaced by
   any other one in a minimiser. *)
Theorem C131_flat b q r (qr : qr_fun RR q r) mk th th' (x : 'I_(q + r) -> 'rV[R]_d.+1) z :
  same_but th th' -> (forall i, x i 0 k = v) ->
  [/\ crit_at b qr mk (matern_kernel p th) x z = crit_at b qr mk (matern_kernel p th') x z,
      loo_at qr mk (matern_kernel p th) x z = loo_at qr mk (matern_kernel p th') x z
    & minimiser (fun th => crit_at b qr mk (matern_kernel p th) x z) th <->
      minimiser (fun th => crit_at b qr mk (matern_kernel p th) x z) th'].
Proof.
move=> st xk; have e : crit_at b qr mk (matern_kernel p th) x z = crit_at b qr mk (matern_kernel p th') x z.
  by rewrite /crit_at (flat_cov st xk).
split=> //; first by rewrite /loo_at (flat_cov st xk).
by rewrite /minimiser e.
Qed.

(* the covariance as a function of the vector of parameters *)
Definition of_vector (theta : 'rV[RR]_(1 + d.+1)) : kernel RR 'rV[R]_d.+1 :=
  matern_kernel p (theta 0 0, \row_j theta 0 (rshift 1 j)).

(* The Fisher information of that range is zero, as well as its row and its column: the matrix is singular. *)
Theorem C131_fisher q r (qr : qr_fun RR q r) mk theta eps (x : 'I_(q + r) -> 'rV[R]_d.+1) :
  (forall P, is_qr P (qr P)) -> identified mk x -> (forall i, x i 0 k = v) ->
  exists I, [/\ fisher_at qr mk of_vector theta eps x = Ok I,
    forall j, I (rshift 1 k) j = 0 /\ I j (rshift 1 k) = 0 & I \notin unitmx].
Proof.
move=> hqr idn xk.
have pK : pos_def (cov_same (of_vector theta) x) by have [-> _ _] := matern_kernelE p NumPy (theta 0 0, \row_j theta 0 (rshift 1 j)) x x; exact: cov_ii_pd.
have fK : fits mk (cov_same (of_vector theta) x) x by move: idn; case: (mk) => [|f|[f|]] //= fr; split=> //; exact: pd_cpd.
have [B [C [l [N [sB PB KB eB E]]]]] := fisher_rep eps hqr fK.
set D := fun i : 'I_(1 + d.+1) => derivative_finite_diff (fun v => cov_same (of_vector (set_coord theta i v)) x) (theta 0 i) eps.
have D0 : D (rshift 1 k) = 0.
  have e t t' : cov_same (of_vector (set_coord theta (rshift 1 k) t)) x = cov_same (of_vector (set_coord theta (rshift 1 k) t')) x.
    apply: flat_cov => //; split=> [|j jk] /=; rewrite !mxE //.
    by rewrite (inj_eq (@rshift_inj _ _)) (negbTE jk).
  rewrite /D /derivative_finite_diff !(e _ (theta 0 (rshift 1 k))); set K := cov_same _ x.
  by rewrite addrK addNr scaler0.
have rz j : (\matrix_(i, j) fisher_trace B (D i) (D j)) (rshift 1 k) j = 0.
  by rewrite mxE D0 /fisher_trace !(mulmx0, mul0mx) ?linear0 ?mxtrace0 ?mulr0.
eexists; split; first exact: E.
- move=> j; split; first exact: rz.
  by rewrite mxE -![derivative_finite_diff _ _ _]/(D _) D0 /fisher_trace !(mulmx0, mul0mx) ?linear0 ?mxtrace0 ?mulr0.
- apply/negP => u; set I := (X in X \in unitmx) in u.
  have := congr1 (fun M : 'M[RR]_(1 + d.+1) => M (rshift 1 k) (rshift 1 k)) (mulmxV u).
  rewrite [LHS]mxE big1 => [|j _]; last by rewrite [I _ _]rz mul0r.
  by rewrite mxE eqxx => /eqP; rewrite eq_sym oner_eq0.
Qed.

(* --- targets outside: the range that the data do not determine decides --- *)
(* the coordinate k of a point is seen from v with another unit *)
Definition stretch (f : R) (y : 'rV[R]_d.+1) : 'rV[R]_d.+1 := \row_i (if i == k then v + f * (y 0 k - v) else y 0 i).
(* the mean does not use that coordinate *)
Definition blind q (mk : mean_kind RR 'rV[R]_d.+1 q) : Prop :=
  match mk with
  | KZero => True
  | KLinear f => forall y y' : 'rV[R]_d.+1, (forall j, j != k -> y 0 j = y' 0 j) -> forall l, f y l = f y' l
  | KParam None => False
  | KParam (Some f) => forall y y' : 'rV[R]_d.+1, (forall j, j != k -> y 0 j = y' 0 j) -> f y = f y'
  end.

Lemma kern_stretch th th' y y' : same_but th th' ->
  kfun (matern_kernel p th) y y' =
  kfun (matern_kernel p th') (stretch (exp (th.2 0 k - th'.2 0 k)) y) (stretch (exp (th.2 0 k - th'.2 0 k)) y').
Proof.
case=> e1 e2; rewrite /= e1; congr (_ * maternp_kernel p (sqrt _)); apply: eq_bigr => j _; rewrite !mxE.
case: (j =P k) => [->|/eqP jk]; last by rewrite e2.
have -> : exp (th.2 0 k) = exp (th'.2 0 k) * exp (th.2 0 k - th'.2 0 k).
  by rewrite -[RHS]exp_plus; congr exp; rewrite -[Rplus _ _]/(th'.2 0 k + (th.2 0 k - th'.2 0 k)); ring.
move: (exp _) (exp _) => a f; clear; ring.
Qed.

(* Changing the range is the same as moving the targets away from, or closer to, the value v. *)
Theorem C131_moved q r (qr : qr_fun RR q r) mk th th' (x : 'I_(q + r) -> 'rV[R]_d.+1) z m (xt : 'I_m -> 'rV[R]_d.+1) ss neg :
  same_but th th' -> blind mk -> (forall i, x i 0 k = v) ->
  predict_at qr ss mk (matern_kernel p th) x z xt neg =
  predict_at qr ss mk (matern_kernel p th') x z (fun j => stretch (exp (th.2 0 k - th'.2 0 k)) (xt j)) neg.
Proof.
move=> st bl xk; set f := exp _.
have xs i : stretch f (x i) = x i.
  by apply/rowP => j; rewrite mxE; case: eqP => // ->; rewrite xk subrr mulr0 addr0.
rewrite /predict_at (flat_cov st xk).
have -> : cov_cross (matern_kernel p th) x xt = cov_cross (matern_kernel p th') x (fun j => stretch f (xt j)).
  by apply/matrixP => i j; rewrite [LHS]mxE [RHS]mxE (kern_stretch _ _ st) -/f xs.
have -> : cov_tt (matern_kernel p th) xt = cov_tt (matern_kernel p th') (fun j => stretch f (xt j)).
  congr PriorTT; first by apply/rowP => j; rewrite [LHS]mxE [RHS]mxE (kern_stretch _ _ st).
  apply/matrixP => i j; rewrite /cov_same !maddE; congr (_ + _); last by rewrite !mxE /= st.1.
  by rewrite [LHS]mxE [RHS]mxE (kern_stretch _ _ st).
have sj (y : 'rV[R]_d.+1) j : j != k -> y 0 j = stretch f y 0 j by move=> jk; rewrite mxE (negbTE jk).
case: mk bl => [|g|[g|]] //= bl.
- have -> // : design g xt = design g (fun j => stretch f (xt j)).
  by apply/matrixP => i j; rewrite !mxE; apply: bl => l; exact: sj.
- have -> // : mean_row g xt = mean_row g (fun j => stretch f (xt j)).
  by apply/rowP => i; rewrite !mxE; apply: bl => l; exact: sj.
Qed.

Definition set_range (th : R * 'rV[R]_d.+1) (l : R) : R * 'rV[R]_d.+1 := (th.1, \row_j (if j == k then l else th.2 0 j)).
Lemma set_range_same th l : same_but (set_range th l) th.
Proof. by split=> //= j jk; rewrite mxE (negbTE jk). Qed.
Lemma set_rangeE th l : (set_range th l).2 0 k = l.
Proof. by rewrite mxE eqxx. Qed.

(* With a short range every prediction outside is a mean function of the model, with the prior variance... *)
Theorem C131_short q r (qr : qr_fun RR q r) mk th (x : 'I_(q + r) -> 'rV[R]_d.+1) z :
  identified mk x -> blind mk -> (forall i, x i 0 k = v) ->
  exists h, admits mk h /\ forall eps dl : R, 0 < eps -> 0 < dl -> exists L, forall l, L <= l ->
    forall m (xt : 'I_m -> 'rV[R]_d.+1) ss neg, (forall j, dl <= `|xt j 0 k - v|) ->
      exists mu s2 lam, predict_at qr ss mk (matern_kernel p (set_range th l)) x z xt neg = Ok (mu, s2, lam) /\
        forall j, [/\ `|mu 0 j - h (xt j)| <= eps, exp th.1 - eps <= s2 0 j & known mk -> s2 0 j <= exp th.1].
Proof.
move=> idn bl xk; have [h [ha H]] := C126_matern p qr th z idn; exists h; split=> // eps dl e0 dl0.
have [D HD] := H eps e0; pose D1 := Num.max D 0 + 1.
have D10 : 0 < D1 by rewrite ltr_spaddr ?ltr01 // le_maxr lexx orbT.
exists (ln (D1 / dl) + th.2 0 k) => l Ll m xt ss neg far.
rewrite (C131_moved qr z xt ss neg (set_range_same th l) bl xk) set_rangeE; set f := exp _.
have fD : D1 <= f * dl.
  rewrite -ler_pdivr_mulr //; have -> : D1 / dl = exp (ln (D1 / dl)) by rewrite exp_ln //; apply/ltRP; exact: divr_gt0.
  rewrite /f; apply/leRP; case: (Rle_lt_or_eq_dec (ln (D1 / dl)) (l - th.2 0 k)) => [|lt|->]; last exact: Rle_refl.
    by apply/leRP; rewrite ler_subr_addr.
  by apply: Rlt_le; apply: exp_increasing.
have f0 : 0 < f by apply/ltRP; exact: exp_pos.
have fr i j : exists k0, D < `|x i 0 k0 - stretch f (xt j) 0 k0|.
  exists k; rewrite mxE eqxx xk opprD addrA subrr add0r normrN normrM (gtr0_norm f0).
  apply: lt_le_trans (_ : D1 <= _); first by apply: le_lt_trans (_ : D <= Num.max D 0) _; rewrite ?le_maxr ?lexx // ltr_addl ltr01.
  by apply: le_trans fD _; apply: ler_wpmul2l => //; exact: ltW.
have [mu [s2 [lam [E F]]]] := HD m (fun j => stretch f (xt j)) ss neg fr; exists mu, s2, lam; split=> // j.
have -> // : h (xt j) = h (stretch f (xt j)).
have sj i : i != k -> xt j 0 i = stretch f (xt j) 0 i by move=> ik; rewrite mxE (negbTE ik).
case: (mk) ha bl => [|g|[g|]] //=.
- by move=> h0 _; rewrite !h0.
- by case=> b hb bl; rewrite !hb; apply: eq_bigr => i _; rewrite (bl _ _ sj).
- by move=> h0 bl; rewrite !h0; apply: bl.
Qed.

(* ... with a long one it is the prediction at the nearest point that has the value of the data. *)
Theorem C131_long q r (qr : qr_fun RR q r) mk th (x : 'I_(q + r) -> 'rV[R]_d.+1) z :
  (forall P, is_qr P (qr P)) -> identified mk x -> blind mk -> (forall i, x i 0 k = v) ->
  forall eps B : R, 0 < eps -> exists L, forall l, l <= L ->
    forall m (xt : 'I_m -> 'rV[R]_d.+1) ss neg, (forall j, `|xt j 0 k - v| <= B) ->
      exists mu s2 lam, predict_at qr ss mk (matern_kernel p (set_range th l)) x z xt neg = Ok (mu, s2, lam) /\
        forall j j', xt j' 0 k = v -> (forall i, i != k -> xt j' 0 i = xt j 0 i) ->
          `|mu 0 j - mu 0 j'| <= eps /\ `|Num.sqrt (s2 0 j) - Num.sqrt (s2 0 j')| <= eps.
Proof.
move=> hqr idn bl xk eps B e0; have [h [ha H]] := C128_matern p th z hqr idn; have [dl dl0 Hd] := H eps e0.
pose B1 := `|B| + 1; have B10 : 0 < B1 by rewrite ltr_spaddr ?ltr01.
exists (ln (dl / B1) + th.2 0 k) => l Ll m xt ss neg near.
rewrite (C131_moved qr z xt ss neg (set_range_same th l) bl xk) set_rangeE; set f := exp _.
have f0 : 0 < f by apply/ltRP; exact: exp_pos.
have fB : f * B1 <= dl.
  rewrite -ler_pdivl_mulr //; have -> : dl / B1 = exp (ln (dl / B1)) by rewrite exp_ln //; apply/ltRP; exact: divr_gt0.
  rewrite /f; apply/leRP; case: (Rle_lt_or_eq_dec (l - th.2 0 k) (ln (dl / B1))) => [|lt|->]; last exact: Rle_refl.
    by apply/leRP; rewrite ler_subl_addr.
  by apply: Rlt_le; apply: exp_increasing.
have [mu [s2 [lam [E F]]]] := Hd m (fun j => stretch f (xt j)) ss neg; exists mu, s2, lam; split=> // j j' jk jj.
have sj (y : 'rV[R]_d.+1) i : i != k -> stretch f y 0 i = y 0 i by move=> ik; rewrite mxE (negbTE ik).
have tr i : i != k -> stretch f (xt j) 0 i = stretch f (xt j') 0 i by move=> ik; rewrite !sj // jj.
have cl i : `|stretch f (xt j) 0 i - stretch f (xt j') 0 i| < dl.
  have [->|/eqP ik] := i =P k; last by rewrite tr // subrr normr0.
  rewrite !mxE eqxx jk subrr mulr0 addr0 addrAC subrr add0r normrM (gtr0_norm f0).
  apply: lt_le_trans fB; rewrite ltr_pmul2l //; apply: le_lt_trans (near j) _.
  by apply: le_lt_trans (ler_norm B) _; rewrite ltr_addl ltr01.
have [F1 F2] := F j j' cl; split.
- have e : h (stretch f (xt j)) = h (stretch f (xt j')).
    case: (mk) ha bl => [|g|[g|]] //=.
    + by move=> h0 _; rewrite !h0.
    + by case=> b hb bl; rewrite !hb; apply: eq_bigr => i _; rewrite (bl _ _ tr).
    + by move=> h0 bl; rewrite !h0; apply: bl.
  by move: F1; rewrite e opprB addrA subrK.
- by apply: F2; case: (mk) bl => //= g bl i; apply: bl.
Qed.
End Const.
Print Assumptions C131_removed.
Print Assumptions C131_flat.
Print Assumptions C131_fisher.
Print Assumptions C131_moved.
Print Assumptions C131_short.
Print Assumptions C131_long.

(* two observations at (0, 5) and (1, 5), constant mean: parameters with different second ranges have the same criterion, and a
   target at (0, 6) has its own prediction *)
Example C131_case : let k : 'I_2 := ord_max in let x (i : 'I_(1 + 1)) : 'rV[R]_2 := insert k (5%:R : RR) (\row_j (i : nat)%:R) in
  let mk : mean_kind RR 'rV[R]_2 1 := KLinear (fun _ _ => 1) in
  [/\ forall i, x i 0 k = 5%:R, x 0 <> x ord_max, identified mk x, blind k mk
    & same_but k (0, \row_j 0) (0, \row_j (j : nat)%:R) /\ 1 <= `|(\row_j (if j == k then 6%:R else 0) : 'rV[RR]_2) 0 k - 5%:R|].
Proof.
move=> k x mk; split=> //.
- by move=> i; rewrite insert_k.
- move/rowP/(_ (lift k 0)); rewrite /x !insert_lift !mxE /= => /eqP; by rewrite eq_sym oner_eq0.
- move=> w h; apply/colP => i; rewrite ord1 [RHS]mxE; have := congr1 (fun M : 'cV[RR]_2 => M 0 0) h.
  by rewrite [LHS]mxE big_ord1 !mxE mul1r.
- split; first by split=> //= j; case: j => [[|[|j]]] // hj _; rewrite !mxE.
  by rewrite mxE eqxx -natrB // normr1.
Qed.
