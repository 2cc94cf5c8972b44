(* SymThms.v
   Property C132: symmetric data give symmetric predictions. *)
From Coq Require Import Reals.
From mathcomp Require Import all_ssreflect all_fingroup all_algebra ring.
From Verif Require Import ConfigModel LinAlg KrigModel LikModel RealAux Rinst CholProofs LinQR KrigProofs KrigProofs2 KrigProofs3
  LooProofs PathProofs LikProofs MaternModel MaternProofs MaternCov MaternCovProofs OrderModel OrderProofs OrderThms LinkThms UpdProofs UpdThms InfoProofs
  InfoThms NormThms UnitsProofs UnitsThms UnitsMatThms.
Set Implicit Arguments.
Unset Strict Implicit.
Unset Printing Implicit Defensive.
Import Order.TTheory GRing.Theory Num.Theory.
Local Open Scope ring_scope.
Local Arguments exp : clear scopes.
Local Arguments sqrt : clear scopes.
Local Notation RR := R_rcfType.

Section Sym.
Variables (R : rcfType) (X : Type) (q : nat).

Lemma cov_same_ext (c : kernel R X) n (x x' : 'I_n -> X) : x =1 x' -> cov_same c x = cov_same c x'.
Proof. by move=> e; apply/matrixP => i j; rewrite !mxE !e. Qed.
Lemma predict_ext r m (qr : qr_fun R q r) ss mk c (x x' : 'I_(q + r) -> X) z (xt : 'I_m -> X) neg : x =1 x' ->
  predict_at qr ss mk c x z xt neg = predict_at qr ss mk c x' z xt neg.
Proof.
move=> e; rewrite /predict_at (cov_same_ext c e).
have -> : cov_cross c x xt = cov_cross c x' xt by apply/matrixP => i j; rewrite !mxE e.
case: mk => [|p|[f|]] //=.
- by have -> : design p x = design p x' by apply/matrixP => i j; rewrite !mxE e.
- by have -> : mean_col f x = mean_col f x' by apply/matrixP => i j; rewrite !mxE e.
Qed.
Lemma predict_text r m (qr : qr_fun R q r) ss mk c (x : 'I_(q + r) -> X) z (xt xt' : 'I_m -> X) neg : xt =1 xt' ->
  predict_at qr ss mk c x z xt neg = predict_at qr ss mk c x z xt' neg.
Proof.
move=> e; rewrite /predict_at.
have -> : cov_cross c x xt = cov_cross c x xt' by apply/matrixP => i j; rewrite !mxE e.
have -> : cov_tt c xt = cov_tt c xt'.
  by rewrite /cov_tt (cov_same_ext c e); congr PriorTT; apply/rowP => j; rewrite !mxE e.
case: mk => [|p|[f|]] //=.
- by have -> : design p xt = design p xt' by apply/matrixP => i j; rewrite !mxE e.
- by have -> : mean_row f xt = mean_row f xt' by apply/matrixP => i j; rewrite !mxE e.
Qed.
Lemma loo_ext r (qr : qr_fun R q r) mk c (x x' : 'I_(q + r) -> X) z : x =1 x' -> loo_at qr mk c x z = loo_at qr mk c x' z.
Proof.
move=> e; rewrite /loo_at (cov_same_ext c e).
case: mk => [|p|[f|]] //=.
- by have -> : design p x = design p x' by apply/matrixP => i j; rewrite !mxE e.
- by have -> : mean_col f x = mean_col f x' by apply/matrixP => i j; rewrite !mxE e.
Qed.

(* The map phi of the points keeps the covariances, a = 1 or -1; the data are symmetric: phi maps the points to themselves and
   the value at the image is a times the value at the point plus g. *)
Variables (phi : X -> X) (a : R) (g : X -> R).
Definition symmetric_data n (x : 'I_n -> X) (z : 'cV[R]_n) (s : 'S_n) : Prop :=
  forall i, x (s i) = phi (x i) /\ z (s i) 0 = a * z i 0 + g (x i).

Theorem C132_predict r m (qr : qr_fun R q r) ss ss' mk c (x : 'I_(q + r) -> X) z s (xt : 'I_m -> X) neg :
  a ^+ 2 = 1 -> (forall y y', kfun c (phi y) (phi y') = kfun c y y') -> (forall y y', kfun c y y' = kfun c y' y) ->
  same_mean phi a g mk mk -> solvable mk c x id -> symmetric_data x z s ->
  exists mu v lam mu' lam', [/\ predict_at qr ss mk c x z xt neg = Ok (mu, v, lam),
    predict_at qr ss' mk c x z (fun j => phi (xt j)) neg = Ok (mu', v, lam')
    & forall j, mu' 0 j = a * mu 0 j + g (xt j) /\ forall i, lam' (s i) j = lam i j].
Proof.
move=> a1 inv sk rel sol sy.
have a0 : a != 0 by apply/eqP => e; move: a1; rewrite e expr0n /= => /eqP; rewrite eq_sym oner_eq0.
have cc : same_cov phi a c c by split=> [y y'|]; rewrite a1 mul1r.
pose s0 := fun p (_ : 'M[R]_q) (_ : 'M[R]_(q, p)) => Err ValueErr : res 'M[R]_(q, p).
have [mu [v [lam [E1 E2]]]] := C116_predict a0 qr ss (@s0 m) z xt neg cc rel sol.
have u : is_true (match mk with KLinear p => uk_lhs (cov_same c x) (design p x) \in unitmx | _ => true end).
  case: (mk) sol => [|p|[f|]] //= [cK fP]; exact: uk_lhs_unit.
have E3 := C112_predict qr s0 (fun j => phi (xt j)) z neg s id sk u.
have eo : obs a g x z = \col_i z (s i) 0 by apply/colP => i; rewrite !mxE (sy i).2.
have ee : (fun i => phi (x i)) =1 (fun i => x (s i)) by move=> i; rewrite (sy i).1.
rewrite eo (predict_ext _ _ _ _ _ _ _ ee) in E2.
rewrite E2 in E3.
have e0 : predict_at qr ss' mk c x z (fun j => phi (xt j)) neg = predict_at qr (@s0 m) mk c x z (fun j => phi (xt j)) neg.
  have [cK fP nN] := solvable_rep (@inj_id _) sol; have {}fP := sub_rank fP.
  by rewrite !predict_rep.
case E4: (predict_at _ (@s0 m) _ _ x _ _ _) E3 => [[[mu' v'] lam']|] //= [e1 e2 e3].
exists mu, v, lam, mu', lam'; split=> //.
  rewrite e0 E4; congr (Ok (_, _, _)); apply/rowP => j; by move/rowP: e2 => /(_ j); rewrite !mxE a1 mul1r.
move=> j; split; first by move/rowP: e1 => /(_ j); rewrite !mxE.
by move=> i; move/matrixP: e3 => /(_ i j); rewrite mxE.
Qed.

Theorem C132_loo r (qr : qr_fun R q r) mk c (x : 'I_(q + r) -> X) z s :
  (forall P, is_qr P (qr P)) ->
  a ^+ 2 = 1 -> (forall y y', kfun c (phi y) (phi y') = kfun c y y') -> (forall y y', kfun c y y' = kfun c y' y) ->
  same_mean phi a g mk mk -> solvable mk c x id -> symmetric_data x z s ->
  exists zloo s2loo eloo, loo_at qr mk c x z = Ok (zloo, s2loo, eloo) /\
    forall i, [/\ zloo (s i) 0 = a * zloo i 0 + g (x i), s2loo (s i) 0 = s2loo i 0 & eloo (s i) 0 = a * eloo i 0].
Proof.
move=> hqr a1 inv sk rel sol sy.
have a0 : a != 0 by apply/eqP => e; move: a1; rewrite e expr0n /= => /eqP; rewrite eq_sym oner_eq0.
have cc : same_cov phi a c c by split=> [y y'|]; rewrite a1 mul1r.
have [zl [s2 [el [E1 E2]]]] := C116_loo a0 z hqr cc rel sol.
have eo : obs a g x z = \col_i z (s i) 0 by apply/colP => i; rewrite !mxE (sy i).2.
have ee : (fun i => phi (x i)) =1 (fun i => x (s i)) by move=> i; rewrite (sy i).1.
rewrite eo (loo_ext _ _ _ _ ee) in E2.
have E3 : loo_at qr mk c (fun i => x (s i)) (\col_i z (s i) 0) = read_loo s (loo_at qr mk c x z).
  case: (mk) sol => [|p|[f|]] //= sol; [exact: C112_loo_zero | | exact: C112_loo_param].
  by case: sol => cK fP; exact: C112_loo_linear.
rewrite E2 E1 /= in E3; case: E3 => /colP e1 /colP e2 /colP e3; exists zl, s2, el; split=> // i.
by move: (e1 i) (e2 i) (e3 i); rewrite !mxE a1 mul1r.
Qed.
End Sym.
Print Assumptions C132_predict.
Print Assumptions C132_loo.

Section Matern.
Variables (p d : nat).

Lemma crit_ext b q r (qr : qr_fun RR q r) mk c (x x' : 'I_(q + r) -> 'rV[R]_d) z : x =1 x' -> crit_at b qr mk c x z = crit_at b qr mk c x' z.
Proof.
move=> e; rewrite /crit_at (cov_same_ext c e); case: mk => [|f|[f|]] //=.
- by have -> : design f x = design f x' by apply/matrixP => i j; rewrite !mxE e.
- by have -> : mean_col f x = mean_col f x' by apply/matrixP => i j; rewrite !mxE e.
Qed.

(* reflections of some coordinates: x_k becomes w_k x_k + t_k with w_k = 1 or -1 *)
Theorem C132_reflection (w t : 'rV[R]_d) (a : RR) (th : R * 'rV[R]_d) q r m (qr : qr_fun RR q r) ss ss'
  (mk : mean_kind RR 'rV[R]_d q) g (x : 'I_(q + r) -> 'rV[R]_d) z s (xt : 'I_m -> 'rV[R]_d) neg :
  (forall k, (w 0 k : RR) ^+ 2 = 1) -> a ^+ 2 = 1 -> same_mean (new_point w t) a g mk mk -> identified mk x ->
  symmetric_data (new_point w t) a g x z s ->
  exists mu v lam mu' lam', [/\ predict_at qr ss mk (matern_kernel p th) x z xt neg = Ok (mu, v, lam),
    predict_at qr ss' mk (matern_kernel p th) x z (fun j => new_point w t (xt j)) neg = Ok (mu', v, lam')
    & forall j, mu' 0 j = a * mu 0 j + g (xt j)].
Proof.
move=> w1 a1 rel idn sy.
have inv y y' : kfun (matern_kernel p th) (new_point w t y) (new_point w t y') = kfun (matern_kernel p th) y y'.
  rewrite /=; congr (_ * maternp_kernel p (sqrt _)); apply: eq_bigr => k _; rewrite !mxE.
  have h (e W T u u' : RR) : (e * (W * u + T) - e * (W * u' + T)) ^+ 2 = W ^+ 2 * (e * u - e * u') ^+ 2 by ring.
  by rewrite h w1 mul1r.
have sk y y' : kfun (matern_kernel p th) y y' = kfun (matern_kernel p th) y' y.
  rewrite /=; congr (_ * maternp_kernel p (sqrt _)); apply: eq_bigr => k _; clear; ring.
have [mu [v [lam [mu' [lam' [E1 E2 F]]]]]] := C132_predict qr ss ss' xt neg a1 inv sk rel (matern_solvable p th idn) sy.
by exists mu, v, lam, mu', lam'; split=> // j; exact: (F j).1.
Qed.

(* On the axis of an odd symmetry the prediction is half the shift: zero without shift. *)
Theorem C132_axis (w t : 'rV[R]_d) (th : R * 'rV[R]_d) q r m (qr : qr_fun RR q r) ss
  (mk : mean_kind RR 'rV[R]_d q) g (x : 'I_(q + r) -> 'rV[R]_d) z s (xt : 'I_m -> 'rV[R]_d) neg :
  (forall k, (w 0 k : RR) ^+ 2 = 1) -> same_mean (new_point w t) (-1) g mk mk -> identified mk x ->
  symmetric_data (new_point w t) (-1) g x z s -> (forall j, new_point w t (xt j) = xt j) ->
  exists mu v lam, predict_at qr ss mk (matern_kernel p th) x z xt neg = Ok (mu, v, lam) /\
    forall j, mu 0 j = g (xt j) / 2%:R.
Proof.
move=> w1 rel idn sy fx; have a1 : (-1 : RR) ^+ 2 = 1 by rewrite sqrrN expr1n.
have [mu [v [lam [mu' [lam' [E1 E2 F]]]]]] := C132_reflection th qr ss ss xt neg w1 a1 rel idn sy.
rewrite (predict_text _ _ _ _ _ _ _ (fx : (fun j => new_point w t (xt j)) =1 xt)) in E2; rewrite E1 in E2; case: E2 => e _.
exists mu, v, lam; split=> // j; have := F j; rewrite -e => h.
have h2 : mu 0 j *+ 2 = g (xt j) by rewrite mulr2n {2}h mulN1r addrA subrr add0r.
by rewrite -h2 -[mu 0 j *+ 2]mulr_natr mulfK // pnatr_eq0.
Qed.

(* Exchanging coordinates under which the data are symmetric: the criterion is a symmetric function of the ranges, so
   that a unique minimiser has equal ranges. *)
Theorem C132_exchange b (tau : {perm 'I_d}) q r (qr : qr_fun RR q r) (mk : mean_kind RR 'rV[R]_d q) (x : 'I_(q + r) -> 'rV[R]_d) z s :
  (forall P, is_qr P (qr P)) -> same_mean (col_perm tau) 1 (fun _ => 0) mk mk -> identified mk x ->
  symmetric_data (col_perm tau) 1 (fun _ => 0) x z s ->
  (forall u l, crit_at b qr mk (matern_kernel p (u, l)) x z = crit_at b qr mk (matern_kernel p (u, col_perm tau l)) x z) /\
  forall u l, minimiser (fun th => crit_at b qr mk (matern_kernel p th) x z) (u, l) ->
    (forall th, minimiser (fun th => crit_at b qr mk (matern_kernel p th) x z) th -> th = (u, l)) ->
    forall k, l 0 (tau k) = l 0 k.
Proof.
move=> hqr rel idn sy.
have cc u l : same_cov (col_perm tau) (1 : RR) (matern_kernel p (u, l)) (matern_kernel p (u, col_perm tau l)).
  split=> [y y'|]; rewrite expr1n mul1r //=; congr (_ * maternp_kernel p (sqrt _)).
  rewrite [RHS](reindex_inj (@perm_inj _ tau)) /=; apply: eq_bigr => k _; by rewrite !mxE.
have e u l : crit_at b qr mk (matern_kernel p (u, l)) x z = crit_at b qr mk (matern_kernel p (u, col_perm tau l)) x z.
  have o : (1 : RR) != 0 by rewrite oner_eq0.
  have [v [E1 E2]] := C116_criterion o b z hqr (cc u l) rel (matern_solvable p (u, l) idn).
  rewrite normr1 ln_1 mulr0 addr0 in E2; rewrite E1 -E2; set c := matern_kernel p _.
  have sk y y' : kfun c y y' = kfun c y' y.
    rewrite /=; congr (_ * maternp_kernel p (sqrt _)); apply: eq_bigr => k _; clear; ring.
  have eo : obs (1 : RR) (fun _ => 0) x z = \col_i z (s i) 0 by apply/colP => i; rewrite !mxE (sy i).2.
  have ee : (fun i => col_perm tau (x i)) =1 (fun i => x (s i)) by move=> i; rewrite (sy i).1.
  rewrite eo (crit_ext _ _ _ _ _ ee).
  have sol := matern_solvable p (u, col_perm tau l) idn; rewrite -/c in sol.
  case: (mk) sol => [|f|[f|]] //= sol.
  - have := C112_nll b (fun _ => 0) x z s sk; rewrite /nll.
    have m0 n (x' : 'I_n -> 'rV[R]_d) : mean_col (fun _ => 0) x' = 0 :> 'cV[RR]_n by apply/colP => i; rewrite !mxE.
    by rewrite !m0 !subr0.
  - by case: sol => cK fP; exact: C112_reml.
  - exact: C112_nll.
split=> // u l mn un k.
have mn' : minimiser (fun th => crit_at b qr mk (matern_kernel p th) x z) (u, col_perm tau l) by move: mn; rewrite /minimiser e.
by have [/rowP/(_ k)] := un _ mn'; rewrite mxE.
Qed.
End Matern.
Print Assumptions C132_reflection.
Print Assumptions C132_axis.
Print Assumptions C132_exchange.

(* observations -3 at -1 and 3 at 1, zero mean: an odd symmetry, the prediction at 0 is 0; observations 3 and 3 at (0, 1) and
   (1, 0), constant mean: the coordinates can be exchanged *)
Example C132_case :
  (let x (i : 'I_(0 + 2)) : 'rV[R]_1 := const_mx (if i == 0 then -1 else 1 : RR) in
   let z : 'cV[RR]_(0 + 2) := \col_i (if i == 0 then -3%:R else 3%:R) in
   [/\ forall k, ((const_mx (-1) : 'rV[RR]_1) 0 k) ^+ 2 = 1, same_mean (new_point (const_mx (-1 : RR)) 0) (-1) (fun _ => 0) (@KZero RR 'rV[R]_1 0) KZero,
     identified (@KZero RR 'rV[R]_1 0) x, symmetric_data (new_point (const_mx (-1 : RR)) 0) (-1 : RR) (fun _ => 0) x z (tperm 0 ord_max)
     & new_point (const_mx (-1 : RR)) 0 (const_mx (0 : RR) : 'rV[R]_1) = const_mx (0 : RR)]) /\
  let x (i : 'I_(1 + 1)) : 'rV[R]_2 := \row_j ((i != j :> nat)%:R : RR) in
  let mk : mean_kind RR 'rV[R]_2 1 := KLinear (fun _ _ => 1) in
  [/\ same_mean (col_perm (tperm 0 ord_max)) 1 (fun _ => 0) mk mk, identified mk x
    & symmetric_data (col_perm (tperm 0 ord_max)) (1 : RR) (fun _ => 0) x (const_mx 3%:R) (tperm 0 ord_max)].
Proof.
have two (i : 'I_2) : i = 0 \/ i = ord_max by case: i => [[|[|i]]] hi //; [left | right]; exact: val_inj.
split; split=> //.
- by move=> k; rewrite mxE sqrrN expr1n.
- exact: SameZero.
- move=> i; split; case: (two i) => ->; rewrite ?tpermL ?tpermR; try (apply/rowP => k); by rewrite !mxE addr0 /= ?mulN1r ?opprK.
- by apply/rowP => k; rewrite !mxE mulr0 addr0.
- apply: (@SameLinear _ _ _ _ _ _ _ _ _ 1%:M 0); rewrite ?unitmx1 //.
  + by move=> y k; rewrite big_ord1 mul1r !mxE !ord1 eqxx.
  + by move=> y; rewrite big_ord1 mxE mulr0.
- move=> w h; apply/colP => i; rewrite ord1 [RHS]mxE; have := congr1 (fun M : 'cV[RR]_2 => M 0 0) h.
  by rewrite [LHS]mxE big_ord1 !mxE mul1r.
- move=> i; split; last by rewrite !mxE mul1r addr0.
  by apply/rowP => j; case: (two i) => ->; case: (two j) => ->; rewrite ?tpermL ?tpermR !mxE ?tpermL ?tpermR.
Qed.
