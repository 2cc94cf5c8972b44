(* UnitsMatThms.v
   Property C116 for the Matern covariances: covariance parameters, their selection, the initial guesses and the REMAP
   objective in other units. *)
From Coq Require Import Reals.
From mathcomp Require Import all_ssreflect all_algebra ring.
From Verif Require Import ConfigModel FlModel PriorModel PriorProofs UnitsPrior LinAlg KrigModel RealAux Rinst LikModel CholProofs LinQR
  KrigProofs KrigProofs2 KrigProofs3 LooProofs PathProofs LikProofs MaternModel MaternProofs MaternCov MaternCovProofs
  InitModel InitProofs InitThms PriorCritModel RemapModel OrderModel OrderProofs UpdProofs UpdThms LinkProofs LinkThms UnitsProofs UnitsThms.
Set Implicit Arguments.
Unset Strict Implicit.
Unset Printing Implicit Defensive.
Import Order.TTheory GRing.Theory Num.Theory.
Local Open Scope ring_scope.
Local Arguments ln : clear scopes.
Local Arguments exp : clear scopes.
Local Arguments sqrt : clear scopes.
Bind Scope ring_scope with R.
Local Notation RR := R_rcfType.

Section Matern.
Variables (p d : nat) (w t : 'rV[R]_d) (a : R).
Hypothesis w0 : forall k, w 0 k != 0.
Hypothesis a0 : a != 0.

(* a point in the new units, the rows of an array in the new units, and the covariance parameters: log sigma2 moves by
   log a^2 and the log inverse length scales by - log |w| *)
Definition new_point (x : 'rV[R]_d) : 'rV[R]_d := \row_k (w 0 k * x 0 k + t 0 k).
Definition new_rows n (x : 'M[R]_(n, d)) : 'M[R]_(n, d) := \matrix_(i, k) (w 0 k * x i k + t 0 k).
Definition new_param (th : R * 'rV[R]_d) : R * 'rV[R]_d := (th.1 + ln (a ^+ 2), \row_k (th.2 0 k - ln `|w 0 k|)).
Definition covparam (th : R * 'rV[R]_d) : 'rV[R]_(1 + d) := row_mx (th.1)%:M th.2.

Let a2 : 0 < a ^+ 2. Proof. by rewrite lt_def sqr_ge0 andbT sqrf_eq0. Qed.

Lemma exp_div (u v : R) : 0 < v -> exp (u - ln v) = exp u / v.
Proof. by move=> v0; rewrite [exp _]exp_plus exp_Ropp exp_ln ?Rinv_ring // ?gt_eqF //; exact/ltRP. Qed.

Lemma sq_new (e W t0 u v : R) : W != 0 -> (e / `|W| * (W * u + t0) - e / `|W| * (W * v + t0)) ^+ 2 = (e * u - e * v) ^+ 2.
Proof.
move=> W0; have -> : e / `|W| * (W * u + t0) - e / `|W| * (W * v + t0) = (W / `|W|) * (e * u - e * v).
  have h (i : R) : e * i * (W * u + t0) - e * i * (W * v + t0) = (W * i) * (e * u - e * v) by ring.
  exact: h.
have s1 : (W / `|W|) ^+ 2 = 1 by rewrite expr_div_n real_normK ?num_real // mulfV // sqrf_eq0.
by rewrite exprMn s1 mul1r.
Qed.

Lemma sqdist_new n m (l : 'rV[R]_d) (x : 'M[R]_(n, d)) (y : 'M[R]_(m, d)) i j :
  sqdist (scale_rows (\row_k (l 0 k - ln `|w 0 k|)) (new_rows x)) (scale_rows (\row_k (l 0 k - ln `|w 0 k|)) (new_rows y)) i j =
  sqdist (scale_rows l x) (scale_rows l y) i j.
Proof.
apply: eq_bigr => k _; rewrite !mxE exp_div ?normr_gt0 //; exact: sq_new.
Qed.
Lemma kern_new n m (l : 'rV[R]_d) (x : 'M[R]_(n, d)) (y : 'M[R]_(m, d)) :
  kern_mx p (scale_rows (\row_k (l 0 k - ln `|w 0 k|)) (new_rows x)) (scale_rows (\row_k (l 0 k - ln `|w 0 k|)) (new_rows y)) =
  kern_mx p (scale_rows l x) (scale_rows l y).
Proof. by apply/matrixP => i j; rewrite [LHS]mxE [RHS]mxE sqdist_new. Qed.

(* the covariances of the library *)
Theorem C116_matern_covariance b th n m (x : 'M[R]_(n, d)) (y : 'M[R]_(m, d)) :
  [/\ maternp_covariance_ii b p (covparam (new_param th)) (new_rows x) = a ^+ 2 *: maternp_covariance_ii b p (covparam th) x,
      maternp_covariance_it b p (covparam (new_param th)) (new_rows x) (new_rows y) = a ^+ 2 *: maternp_covariance_it b p (covparam th) x y
    & maternp_covariance_ii_pw (covparam (new_param th)) (new_rows x) = a ^+ 2 *: maternp_covariance_ii_pw (covparam th) x].
Proof.
case: th => u l; rewrite /new_param /=.
have [e1 e2 _] := cov_sigma2 b p u (\row_k (l 0 k - ln `|w 0 k|)) (new_rows x) (new_rows y) a2.
have [_ _ e3] := cov_sigma2 b p u (\row_k (l 0 k - ln `|w 0 k|)) (new_rows x) (new_rows x) a2.
rewrite /covparam /= -!/(mkparam _ _) e1 e2 e3; split; congr (_ *: _).
- by rewrite !KiiE /mat_nugget !mkparam_s2 !mkparam_l kern_new.
- by rewrite !KitE !mkparam_s2 !mkparam_l kern_new.
- by apply/rowP => i; rewrite !mxE !mkparam_s2.
Qed.

(* the same covariances, point by point *)
Definition matern_kernel (th : R * 'rV[R]_d) : kernel RR 'rV[R]_d :=
  Kernel (fun x y : 'rV[R]_d => exp th.1 * maternp_kernel p (sqrt (\sum_k (exp (th.2 0 k) * x 0 k - exp (th.2 0 k) * y 0 k) ^+ 2)) : RR)
    (10%:R * exp th.1 * float_eps).
Lemma matern_kernelE b th n m (x : 'I_n -> 'rV[R]_d) (y : 'I_m -> 'rV[R]_d) :
  [/\ cov_same (matern_kernel th) x = maternp_covariance_ii b p (covparam th) (\matrix_(i, k) x i 0 k),
      cov_cross (matern_kernel th) x y = maternp_covariance_it b p (covparam th) (\matrix_(i, k) x i 0 k) (\matrix_(i, k) y i 0 k)
    & cov_same_pairwise (matern_kernel th) x = maternp_covariance_ii_pw (covparam th) (\matrix_(i, k) x i 0 k)].
Proof.
case: th => u l; rewrite /covparam /= -!/(mkparam _ _); split.
- rewrite KiiE /mat_nugget !mkparam_s2 mkparam_l; apply/matrixP => i j; rewrite !mxE /=; congr (_ * maternp_kernel p (sqrt _) + _).
  by apply: eq_bigr => k _; rewrite !mxE.
- rewrite KitE !mkparam_s2 mkparam_l; apply/matrixP => i j; rewrite !mxE /=; congr (_ * maternp_kernel p (sqrt _)).
  by apply: eq_bigr => k _; rewrite !mxE.
- apply/rowP => j; rewrite !mxE /= mkparam_s2; congr (_ * _).
  by rewrite big1 => [|k _]; rewrite ?sqrt_0 ?kernel_at_0 // subrr expr0n.
Qed.

Theorem C116_matern th : same_cov new_point (a : RR) (matern_kernel th) (matern_kernel (new_param th)).
Proof.
case: th => u l; split=> /=.
- move=> x y; rewrite [exp _]exp_plus exp_ln; last exact/ltRP.
  have -> : \sum_k (exp ((\row_k0 (l 0 k0 - ln `|w 0 k0|)) 0 k) * new_point x 0 k -
              exp ((\row_k0 (l 0 k0 - ln `|w 0 k0|)) 0 k) * new_point y 0 k) ^+ 2 = \sum_k (exp (l 0 k) * x 0 k - exp (l 0 k) * y 0 k) ^+ 2.
    by apply: eq_bigr => k _; rewrite !mxE exp_div ?normr_gt0 //; exact: sq_new.
  have h (q1 q2 q3 : R) : q1 * q2 * q3 = q2 * (q1 * q3) by ring.
  exact: h.
- rewrite [exp _]exp_plus exp_ln; last exact/ltRP.
  have h (q1 q2 q3 q4 : R) : q1 * (q2 * q3) * q4 = q3 * (q1 * q2 * q4) by ring.
  exact: h.
Qed.

(* --- parameter selection --- *)
(* the points determine the trend *)
Definition identified (X : Type) q n (mk : mean_kind RR X q) (x : 'I_n -> X) : Prop :=
  match mk with KLinear f => full_col_rank (design f x) | KParam None => False | _ => True end.
(* th minimises a criterion that is finite everywhere *)
Definition minimiser (F : R * 'rV[R]_d -> res ereal) (th : R * 'rV[R]_d) : Prop :=
  exists v, F th = Ok (LikModel.Fin v) /\ forall th', exists v', F th' = Ok (LikModel.Fin v') /\ v <= v'.

Lemma matern_solvable q n (mk : mean_kind RR 'rV[R]_d q) (x : 'I_n -> 'rV[R]_d) th : identified mk x -> solvable mk (matern_kernel th) x id.
Proof.
have [e _ _] := matern_kernelE NumPy th x x.
have pd : pos_def (cov_same (matern_kernel th) x) by rewrite e; exact: cov_ii_pd.
by case: mk => [|f|[f|]] //= fr; split=> //; exact: pd_cpd.
Qed.

Lemma new_param_onto th : exists th0, th = new_param th0.
Proof.
case: th => u l; exists (u - ln (a ^+ 2), \row_k (l 0 k + ln `|w 0 k|)); rewrite /new_param /=; congr (_, _); first by rewrite subrK.
by apply/rowP => k; rewrite !mxE addrK.
Qed.

(* maximum likelihood and REML estimates correspond *)
Theorem C116_minimisers b q r (qr : qr_fun RR q r) (g : 'rV[R]_d -> RR) mk mk' (x : 'I_(q + r) -> 'rV[R]_d) z th :
  (forall P, is_qr P (qr P)) -> same_mean new_point (a : RR) g mk mk' -> identified mk x ->
  (minimiser (fun th => crit_at b qr mk (matern_kernel th) x z) th <->
   minimiser (fun th => crit_at b qr mk' (matern_kernel th) (fun i => new_point (x i)) (obs (a : RR) g x z)) (new_param th)).
Proof.
move=> hqr rel id.
have V th0 := C116_criterion (a0 : (a : RR) != 0) b z hqr (C116_matern th0) rel (matern_solvable th0 id).
split=> -[v [e0 mn]].
- have [v0 [e1 e2]] := V th; exists (v0 + (match mk with KLinear _ => r | _ => (q + r)%N end)%:R * ln `|a|); split=> // th'.
  have [th1 ->] := new_param_onto th'; have [v1 [e3 e4]] := V th1; eexists; split; first exact: e4.
  have [v2 [e5 le]] := mn th1; move: e5 le; rewrite e3 => -[<-]; move: e0; rewrite e1 => -[<-].
  by rewrite ler_add2r.
- have [v0 [e1 e2]] := V th; exists v0; split=> // th'.
  have [v1 [e3 e4]] := V th'; eexists; split; first exact: e3.
  have [v2 [e5 le]] := mn (new_param th'); move: e5 le; rewrite e4 => -[<-]; move: e0; rewrite e2 => -[<-].
  by rewrite ler_add2r.
Qed.
End Matern.
Print Assumptions C116_matern_covariance.
Print Assumptions C116_matern.
Print Assumptions C116_minimisers.

(* the restricted likelihood of arrays: P the trend matrix at the observations, recombined by T *)
Lemma nrl_units b q r (qr : qr_fun RR q r) (K : 'M[RR]_(q + r)) (P : 'M[RR]_(q + r, q)) (T : 'M[RR]_q) c0 z (a : RR) :
  (forall P, is_qr P (qr P)) -> a != 0 -> T \in unitmx -> cond_pos_def K P -> full_col_rank P ->
  exists v, nrl b qr K P z = Ok (LikModel.Fin v) /\
    nrl b qr (a ^+ 2 *: K) (P *m T) (a *: z + P *m c0) = Ok (LikModel.Fin (v + r%:R * ln `|a|)).
Proof.
move=> hqr a0 uT cK fP.
pose c : kernel RR 'I_(q + r) := Kernel (fun i j => K i j) 0.
pose c' : kernel RR 'I_(q + r) := Kernel (fun i j => a ^+ 2 * K i j) 0.
have cE : cov_same c id = K by apply/matrixP => i j; rewrite !mxE /= mul0rn addr0.
have cE' : cov_same c' id = a ^+ 2 *: K by apply/matrixP => i j; rewrite !mxE /= mul0rn addr0.
have dE (A : 'M[RR]_(q + r, q)) : design (fun i k => A i k) id = A by apply/matrixP => i k; rewrite mxE.
have cc : same_cov id a c c' by split=> //=; rewrite mulr0.
have rel : same_mean id a (fun i => (P *m c0) i 0) (KLinear (fun i k => P i k)) (KLinear (fun i k => (P *m T) i k)).
  by apply: (SameLinear (a : RR) (c0 := c0) uT) => *; rewrite mxE.
have sol : solvable (KLinear (fun i k => P i k)) c id id by rewrite /= cE dE.
have [v [e1 e2]] := C116_criterion a0 b z hqr cc rel sol.
exists v; move: e1 e2; rewrite /= cE cE' !dE => -> <-; split=> //; congr (nrl _ _ _ _ _).
by apply/colP => i; rewrite !mxE.
Qed.

Section Guess.
Variables (b : backend) (p d : nat) (w t : 'rV[R]_d) (a glog : R).
Hypothesis w0 : forall k, w 0 k != 0.
Hypothesis a0 : a != 0.
Let a2 : 0 < a ^+ 2. Proof. by rewrite lt_def sqr_ge0 andbT sqrf_eq0. Qed.

Lemma side_new n (x : 'M[R]_(n, d)) k D : side x k D -> side (new_rows w t x) k (`|w 0 k| * D).
Proof.
move=> [h1 [i [j h2]]].
have E i' j' : new_rows w t x i' k - new_rows w t x j' k = w 0 k * (x i' k - x j' k).
  rewrite !mxE; have h (q1 q2 q3 q4 : R) : q1 * q2 + q3 - (q1 * q4 + q3) = q1 * (q2 - q4) by ring.
  exact: h.
split.
  move=> i' j'; rewrite E; apply: le_trans (ler_norm _) _; rewrite normrM ler_wpmul2l //.
  by rewrite ler_norml h1 andbT ler_oppl opprB h1.
case: (ltP 0 (w 0 k)) => hw.
  by exists i, j; rewrite E h2 gtr0_norm.
by exists j, i; rewrite E -opprB h2 ler0_norm // mulrN mulNr.
Qed.
(* no coordinate is constant over the design *)
Definition spread n (x : 'M[R]_(n, d)) : Prop := forall k, exists2 D, side x k D & 0 < D.

Lemma rho_new n (i0 : 'I_n) (x : 'M[R]_(n, d)) : spread x ->
  \row_k - ln (init_rho glog i0 (new_rows w t x) k) = (\row_k ((\row_k' - ln (init_rho glog i0 x k')) 0 k - ln `|w 0 k|)) :> 'rV[R]_d.
Proof.
move=> sp; apply/rowP => k; rewrite !mxE; have [D sD D0] := sp k.
have e : init_rho glog i0 (new_rows w t x) k = init_rho glog i0 x k * `|w 0 k|.
  rewrite /init_rho (delta_side i0 sD) (delta_side i0 (side_new sD)) [`|w 0 k| * D]mulrC; exact: mulrA.
have r0 : 0 < init_rho glog i0 x k by exact: (rho_gt0 _ _ sD).
have n0 : 0 < `|w 0 k| by rewrite normr_gt0.
by rewrite e (lnM r0 n0) opprD.
Qed.
Lemma K1_new n (l : 'rV[R]_d) (x : 'M[R]_(n, d)) :
  maternp_covariance_ii b p (mkparam (ln 1) (\row_k (l 0 k - ln `|w 0 k|))) (new_rows w t x) = maternp_covariance_ii b p (mkparam (ln 1) l) x.
Proof. by rewrite !KiiE /mat_nugget !mkparam_s2 !mkparam_l kern_new. Qed.

Theorem C116_guess_zero n (i0 : 'I_n) (x : 'M[R]_(n, d)) z : spread x -> z != 0 ->
  exists th, init_zero_mean b p glog i0 x z = Ok (covparam th) /\
    init_zero_mean b p glog i0 (new_rows w t x) (a *: z) = Ok (covparam (new_param w a th)).
Proof.
move=> sp zn; rewrite /init_zero_mean /norm_k_sqrd_with_zero_mean !covparamE (rho_new i0 sp) K1_new.
set l := \row_k - ln (init_rho _ _ _ _); set K := maternp_covariance_ii _ _ _ _.
have pd : pos_def K by exact: cov_ii_pd.
have [L _ ->] := cholesky_solve_ok z pd; have [L' _ ->] := cholesky_solve_ok (a *: z) pd => /=.
rewrite !einsum_qform qformZ.
have n0 : 0 < n%:R^-1 :> R by rewrite invr_gt0 ltr0n; exact: leq_ltn_trans (ltn_ord i0).
have q0 : 0 < n%:R^-1 * qform (invmx K) z by apply: mulr_gt0 => //; exact: (pd_inv pd).2.
exists (ln (n%:R^-1 * qform (invmx K) z), l); split; first by [].
rewrite InitProofs.covparamE (rho_new i0 sp) -/l; congr (Ok (row_mx _%:M _)).
by rewrite mulrCA (lnM a2 q0) addrC.
Qed.

Theorem C116_guess_linear q r (qr : qr_fun RR q r) (i0 : 'I_(q + r)) (x : 'M[R]_(q + r, d)) (P : 'M[R]_(q + r, q)) (T : 'M[R]_q) c0 z :
  (forall P, is_qr P (qr P)) -> full_col_rank P -> T \in unitmx -> spread x -> (forall beta, z != P *m beta) ->
  exists th, init_linear_mean b p glog qr i0 x P z = Ok (covparam th) /\
    init_linear_mean b p glog qr i0 (new_rows w t x) (P *m T) (a *: z + P *m c0) = Ok (covparam (new_param w a th)).
Proof.
move=> hqr fP uT sp zn.
have fP' : full_col_rank (P *m T) by exact: core_rank.
have zn' beta : a *: z + P *m c0 != (P *m T) *m beta.
  apply/eqP => e; have := zn (a^-1 *: (T *m beta - c0)); case/eqP.
  by rewrite -scalemxAr mulmxBr mulmxA -e addrK scalerA mulVf // scale1r.
have r0 : (0 < r)%N.
  rewrite lt0n; apply/eqP => r0; subst r.
  have W0 : (rsubmx (qr P).1)^T *m z = 0 by apply/matrixP => -[].
  have [beta e] := contrast_zero (hqr P) fP W0.
  by have := zn beta; rewrite -e eqxx.
have f0 : 0 < r%:R / (q + r)%:R :> R by rewrite divr_gt0 // ltr0n // addn_gt0 r0 orbT.
have [s2 [s0 e1 m1]] := init_linear_mean_reml b b p glog i0 x (hqr P) fP zn.
have [s2' [s0' e2 m2]] := init_linear_mean_reml b b p glog i0 (new_rows w t x) (hqr (P *m T)) fP' zn'.
set l := \row_k - ln (init_rho glog i0 x k) in e1 m1.
exists (ln (r%:R / (q + r)%:R * s2), l); split; first by [].
rewrite e2 (rho_new i0 sp); congr (Ok (row_mx _%:M _)); rewrite /= -(lnM (mulr_gt0 f0 s0) a2); congr (ln _).
rewrite -[RHS]mulrA; congr (_ * _); rewrite [RHS]mulrC.
case: (eqVneq s2' (a ^+ 2 * s2)) => // ne; exfalso.
have ne' : a ^+ 2 * s2 != s2' by rewrite eq_sym.
have [L1 [L2 [h1 h2 lt12]]] := m2 (a ^+ 2 * s2) (mulr_gt0 a2 s0) ne'.
have c0' : 0 < s2' / a ^+ 2 by rewrite divr_gt0.
have ne2 : s2' / a ^+ 2 != s2 by apply/eqP => e; case/eqP: ne; rewrite -e mulrC divfK // gt_eqF.
have [L3 [L4 [h3 h4 lt34]]] := m1 (s2' / a ^+ 2) c0' ne2.
move: h1 h2 h3 h4; rewrite (rho_new i0 sp) -/l (cov_at b p _ _ s0') (cov_at b p _ _ (mulr_gt0 a2 s0)) (cov_at b p _ _ s0) (cov_at b p _ _ c0') K1_new.
set K := maternp_covariance_ii _ _ _ _ => h1 h2 h3 h4.
have cpd (c : R) : 0 < c -> cond_pos_def (c *: K) P by move=> cp; apply: pd_cpd; apply: InitProofs.pd_scale => //; exact: cov_ii_pd.
have [v [g1 g2]] := nrl_units b c0 z hqr (a0 : (a : RR) != 0) uT (cpd _ s0) fP.
have [v' [g3 g4]] := nrl_units b c0 z hqr (a0 : (a : RR) != 0) uT (cpd _ c0') fP.
move: g2 g4; rewrite !scalerA [a ^+ 2 * (_ / _)]mulrC divfK ?gt_eqF // => g2 g4.
move: h1 h2 h3 h4; rewrite g1 g2 g3 g4 => -[e5] -[e6] -[e7] -[e8].
move: lt12 lt34; rewrite -e5 -e6 -e7 -e8 ltr_add2r => lt12.
by rewrite ltNge (ltW lt12).
Qed.

Lemma guess_constant n (i0 : 'I_n) (x : 'M[R]_(n, d)) z :
  let l := \row_k - ln (init_rho glog i0 x k) in
  let K := maternp_covariance_ii b p (mkparam (ln 1) l) x in
  init_constant_mean b p glog i0 x z =
  Ok (bilin (invmx K) (const_mx 1) z / qform (invmx K) (const_mx 1), covparam (ln (n%:R^-1 * qform (invmx K) z), l)).
Proof.
move=> l K; have pd : pos_def K by exact: cov_ii_pd.
have E v : \sum_i (invmx K *m v) i 0 = bilin (invmx K) (const_mx 1) v.
  by rewrite /bilin -mulmxA mxE; apply: eq_bigr => i _; rewrite [_^T 0 i]mxE [const_mx _ i 0]mxE mul1r.
by rewrite /init_constant_mean /k_inverses /inv InitProofs.covparamE -/l -/K pd_unit //= !E einsum_qform InitProofs.covparamE.
Qed.

Theorem C116_guess_constant n (i0 : 'I_n) (x : 'M[R]_(n, d)) (z : 'cV[R]_n) (c : R) : spread x -> (exists i j, z i 0 != z j 0) ->
  exists m th u', [/\ init_constant_mean b p glog i0 x z = Ok (m, covparam th),
    init_constant_mean b p glog i0 (new_rows w t x) (a *: z) = Ok (a * m, covparam (new_param w a th)),
    init_constant_mean b p glog i0 x (z + const_mx c) = Ok (m + c, covparam (u', th.2))
    & u' = th.1 <-> c = 0 \/ c = - (2%:R * m)].
Proof.
move=> sp [i [j zij]]; rewrite !guess_constant (rho_new i0 sp) K1_new.
set l := \row_k - ln (init_rho glog i0 x k); set K := maternp_covariance_ii _ _ _ _.
have pd : pos_def K by exact: cov_ii_pd.
have pi := pd_inv pd; have si := pd_sym pi.
set one : 'cV[R]_n := const_mx 1.
have cE (e : R) : const_mx e = e *: one by apply/matrixP => ? ?; rewrite !mxE mulr1.
have one0 : one != 0 by apply/eqP => /matrixP /(_ i0 0); rewrite !mxE => /eqP; rewrite oner_eq0.
have q1 := pi.2 one one0; have q1n : qform (invmx K) one != 0 by rewrite gt_eqF.
have zc (e : R) : z + e *: one != 0.
  apply/eqP => h; case/eqP: zij; have hk k : z k 0 = - e.
    by move/matrixP: h => /(_ k 0); rewrite !mxE mulr1 => /eqP; rewrite addr_eq0 => /eqP.
  by rewrite !hk.
have n0 : 0 < n%:R^-1 :> R by rewrite invr_gt0 ltr0n; exact: leq_ltn_trans (ltn_ord i0).
have qz (e : R) : 0 < n%:R^-1 * qform (invmx K) (z + e *: one) by apply: mulr_gt0 => //; exact: pi.2.
have qz0 : 0 < n%:R^-1 * qform (invmx K) z by have := qz 0; rewrite scale0r addr0.
set B := bilin (invmx K) one z; set m := B / _.
have bm : B = m * qform (invmx K) one by rewrite /m divfK.
exists m, (ln (n%:R^-1 * qform (invmx K) z), l), (ln (n%:R^-1 * qform (invmx K) (z + c *: one))); split=> //.
- rewrite bilinZr qformZ -mulrA; congr (Ok (_, _)); congr (row_mx _%:M _).
  by rewrite mulrCA (lnM a2 qz0) addrC.
- by rewrite cE bilinDr bilinZr mulrDl mulfK.
have Q : qform (invmx K) (z + c *: one) - qform (invmx K) z = c * (c + 2%:R * m) * qform (invmx K) one.
  rewrite qformD // qformZ bilinZr [bilin _ z one]bilin_tr si -/B bm.
  have h (q1' q2 q3 q4 : R) : q1' + 2%:R * (q2 * (q3 * q4)) + q2 ^+ 2 * q4 - q1' = q2 * (q2 + 2%:R * q3) * q4 by ring.
  exact: h.
split=> /=.
  move=> e; have e' : n%:R^-1 * qform (invmx K) (z + c *: one) = n%:R^-1 * qform (invmx K) z.
    by apply: ln_inv => //; exact/ltRP.
  move: Q; rewrite (mulfI _ e') ?gt_eqF // subrr => /esym/eqP; rewrite !mulf_eq0 (negPf q1n) orbF => /orP[/eqP|]; first by left.
  by rewrite addr_eq0 => /eqP; right.
move=> e; congr (ln (_ * _)); apply/eqP; rewrite -subr_eq0 Q.
by case: e => ->; rewrite ?mul0r // addNr mulr0 mul0r.
Qed.
End Guess.
Print Assumptions C116_guess_zero.
Print Assumptions C116_guess_linear.
Print Assumptions C116_guess_constant.

Section Remap.
Variables (b b' : backend) (p d q r : nat) (qr : qr_fun RR q r) (w t : 'rV[R]_d) (a : R).
Variables (x : 'M[R]_(q + r, d)) (P : 'M[R]_(q + r, q)) (T : 'M[R]_q) (c0 : 'cV[R]_q) (z : 'cV[R]_(q + r)).
Hypothesis w0 : forall k, w 0 k != 0.
Hypothesis a0 : a != 0.
Hypothesis hqr : forall P, is_qr P (qr P).
Hypothesis fP : full_col_rank P.
Hypothesis uT : T \in unitmx.
Variables (inv_cdf : R -> R) (guess : param d) (gamma coverage : R).
Let x' := new_rows w t x.
Let P' := P *m T.
Let z' : 'cV[R]_(q + r) := a *: z + P *m c0.
Let new : param d -> param d := new_param w a.
Let N : R := r%:R * ln `|a|.
Let es : seq R := [seq ln `|w 0 k| | k <- enum 'I_d].
(* the value of a criterion, moved by N; an exception stays the same exception *)
Definition moved (c : R) (v : res fl) : res fl := rbind v (fun f => Ok (fl_add f (ConfigModel.Fin c))).
(* prior_log_sigma2_0, prior_logrho_0 and prior_logrho_min in the new units *)
Definition new_logs2 (s : R) : R := s + ln (a ^+ 2).
Definition new_logrho (l : seq fl) : seq fl := [seq fl_add le.1 (ConfigModel.Fin (ln `|w 0 le.2|)) | le <- zip l (enum 'I_d)].

Lemma reml_new th : matern_reml b b' p qr x' P' z' (new th).1 (new th).2 = moved N (matern_reml b b' p qr x P z th.1 th.2).
Proof.
rewrite /matern_reml.
have [e _ _] := C116_matern_covariance p t w0 a0 b th x x.
have pd : pos_def (maternp_covariance_ii b p (row_mx (th.1)%:M th.2) x) by exact: cov_ii_pd.
have [v [e1 e2]] := nrl_units b' c0 z hqr (a0 : (a : RR) != 0) uT (pd_cpd P pd) fP.
by rewrite [maternp_covariance_ii b p (row_mx (new th).1%:M (new th).2) x']e e1 e2.
Qed.

Lemma new_logrhoE l : new_logrho l = add_each l es.
Proof. by rewrite /new_logrho /es; elim: l (enum 'I_d) => [|e l IH] [|k ks] //=; rewrite -IH. Qed.
Lemma len_es : length es = d. Proof. by rewrite -[length _]/(size _) size_map size_enum_ord. Qed.
Lemma len_lst (l : 'rV[R]_d) : length (loginvrho_list l) = d.
Proof. by rewrite -[length _]/(size _) size_map size_enum_ord. Qed.
Lemma lst_new th : loginvrho_list (new th).2 = add_each (loginvrho_list th.2) (List.map Ropp es).
Proof. by rewrite /loginvrho_list /es; elim: (enum 'I_d) => //= k ks ->; rewrite mxE. Qed.
Lemma opp_new th : List.map fl_opp (loginvrho_list (new th).2) = add_each (List.map fl_opp (loginvrho_list th.2)) es.
Proof.
have h (u v : R) : - (u - v) = - u + v by rewrite opprB addrC.
by rewrite /loginvrho_list /es; elim: (enum 'I_d) => //= k ks ->; rewrite mxE; congr (ConfigModel.Fin _ :: _); exact: h.
Qed.
Lemma min_new factor : Rlt (IZR 0) factor ->
  compute_logrho_min (columns x') factor = option_map (fun l => add_each l es) (compute_logrho_min (columns x) factor).
Proof.
move=> f0; rewrite !compute_logrho_min_spec; case: (rleb _ _) => //=; congr Some.
rewrite /columns /es; elim: (enum 'I_d) => //= k ks ->; congr cons.
have -> : [seq x' i k | i <- enum 'I_(q + r)] = List.map (fun v => Rplus (Rmult (w 0 k) v) (t 0 k)) [seq x i k | i <- enum 'I_(q + r)].
  by elim: (enum 'I_(q + r)) => //= i s ->; rewrite mxE.
by rewrite cutoff_affine //; apply/eqP.
Qed.
Lemma len_min factor l : compute_logrho_min (columns x) factor = Some l -> length l = d.
Proof.
rewrite compute_logrho_min_spec; case: (rleb _ _) => //= -[<-].
by rewrite List.map_length -[length _]/(size _) size_map size_enum_ord.
Qed.

Lemma resolve_new c0' cp ci : resolve_prior_and_init (new guess) (omap new c0') (omap new cp) (omap new ci) =
  let '(pr, i, k) := resolve_prior_and_init guess c0' cp ci in (new pr, new i, k).
Proof. by case: c0' cp ci => [?|] [?|] [?|]. Qed.
Lemma roles_new mc c0' cp ci : resolve_roles_for_update (new guess) (omap new mc) (omap new c0') (omap new cp) (omap new ci) true =
  let '(pr, i, k, ws) := resolve_roles_for_update guess mc c0' cp ci true in (new pr, new i, k, ws).
Proof. by case: mc c0' cp ci => [?|] [?|] [?|] [?|]. Qed.

Theorem C116_remap_logsigma2 mc c0' cp ci :
  let old := update_remap_logsigma2 b b' p qr x P z inv_cdf guess gamma coverage mc c0' cp ci in
  let upd := update_remap_logsigma2 b b' p qr x' P' z' inv_cdf (new guess) gamma coverage (omap new mc) (omap new c0') (omap new cp) (omap new ci) in
  upd.2 = new old.2 /\ forall th, upd.1 (new th) = moved N (old.1 th).
Proof.
rewrite /update_remap_logsigma2 roles_new.
case: (resolve_roles_for_update _ _ _ _ _ _) => [[[pr i] k] ws]; split; first by case: c0'.
move=> th; have -> : (select_remap_logsigma2 b b' p qr x' P' z' inv_cdf (new guess) gamma coverage (omap new c0') (Some (new pr)) (Some (new i))).1 =
  (fun t => logsigma2_criterion b b' p qr x' P' z' inv_cdf (new pr).1 gamma coverage t.1 t.2) by case: c0'.
have -> : (select_remap_logsigma2 b b' p qr x P z inv_cdf guess gamma coverage c0' (Some pr) (Some i)).1 =
  (fun t => logsigma2_criterion b b' p qr x P z inv_cdf pr.1 gamma coverage t.1 t.2) by case: c0'.
rewrite /logsigma2_criterion reml_new; case: (matern_reml _ _ _ _ _ _ _ _ _) => [L|e] //=.
rewrite gauss_shift; case: (log_prior_gaussian_logsigma2 _ _ _ _ _) => //= v.
by congr Ok; case: L => //= u; congr ConfigModel.Fin; exact: (addrAC u N (- v)).
Qed.

Theorem C116_remap factor alpha mc c0' cp ci ps pr pm : Rlt (IZR 0) factor ->
  (forall l, pr = Some l -> size l = d) -> (forall l, pm = Some l -> size l = d) ->
  let old := update_remap b b' p qr x P z inv_cdf guess gamma coverage alpha factor mc c0' cp ci ps pr pm in
  let upd := update_remap b b' p qr x' P' z' inv_cdf (new guess) gamma coverage alpha factor (omap new mc) (omap new c0') (omap new cp) (omap new ci)
     (omap new_logs2 ps) (omap new_logrho pr) (omap new_logrho pm) in
  match old, upd with
  | Some o, Some u => u.2 = new o.2 /\ forall th, u.1 (new th) = moved N (o.1 th)
  | _, _ => False
  end.
Proof.
move=> f0 lr lm; rewrite /update_remap roles_new.
case: (resolve_roles_for_update _ _ _ _ _ _) => [[[pri i] k] ws]; rewrite /select_remap.
have -> : resolve_prior_and_init guess c0' (Some pri) (Some i) = (pri, i, 0%N) by case: c0'.
have -> : resolve_prior_and_init (new guess) (omap new c0') (Some (new pri)) (Some (new i)) = (new pri, new i, 0%N) by case: c0'.
rewrite /resolve_prior_args opp_new min_new //.
have [rm [lrm E1 E2]] : exists rm, [/\ length rm = d,
    match pm with Some v => Some v | None => compute_logrho_min (columns x) factor end = Some rm &
    match omap new_logrho pm with Some v => Some v | None => option_map (fun l => add_each l es) (compute_logrho_min (columns x) factor) end
      = Some (add_each rm es)].
  case: pm lm => [v|] lm; first by exists v; split=> //=; [exact: lm | rewrite new_logrhoE].
  case E: (compute_logrho_min _ _) => [rm|]; first by exists rm; split=> //; exact: len_min E.
  by move: E; rewrite compute_logrho_min_spec; rewrite (proj2 (rleb_f factor (IZR 0)) f0).
rewrite E1 E2.
have [r0 [lr0 E3 E4]] : exists r0, [/\ length r0 = d,
    match pr with Some v => v | None => List.map fl_opp (loginvrho_list pri.2) end = r0 &
    match omap new_logrho pr with Some v => v | None => add_each (List.map fl_opp (loginvrho_list pri.2)) es end = add_each r0 es].
  case: pr lr => [v|] lr; first by exists v; split=> //=; [exact: lr | rewrite new_logrhoE].
  by eexists; split; [ | reflexivity | reflexivity]; rewrite List.map_length len_lst.
rewrite E3 E4.
have -> : match omap new_logs2 ps with Some v => v | None => (new pri).1 end = new_logs2 (match ps with Some v => v | None => pri.1 end) by case: ps.
split; first by [].
move=> th; rewrite [LHS]/= [X in moved N X]/= /map_criterion reml_new; case: (matern_reml _ _ _ _ _ _ _ _ _) => [L|e] //=.
rewrite lst_new posterior_shift ?len_es ?len_lst //.
by case: (neg_log_restricted_posterior _ _ _ _ _ _ _ _ _ _).
Qed.
End Remap.
Print Assumptions C116_remap_logsigma2.
Print Assumptions C116_remap.

(* two temperatures, at positions 0 and 1, with an unknown constant mean: positions multiplied by 1000 and moved by 5,
   temperatures in degrees Fahrenheit *)
Section Case.
Let w : 'rV[R]_1 := const_mx 1000%:R.
Let t : 'rV[R]_1 := const_mx 5%:R.
Let a : R := 9%:R / 5%:R.
Let x : 'M[R]_(1 + 1, 1) := col_mx 0 1.
Let z : 'cV[R]_(1 + 1) := col_mx 0 1.
Let pts : 'I_(1 + 1) -> 'rV[R]_1 := fun i => row i x.
Let P : 'M[R]_(1 + 1, 1) := const_mx 1.
Let mk : mean_kind RR 'rV[R]_1 1 := KLinear (fun _ _ => 1).
Let i0 : 'I_(1 + 1) := lshift 1 ord0.
Let i1 : 'I_(1 + 1) := rshift 1 ord0.
Lemma case_x i : x i 0 = 0 \/ x i 0 = 1.
Proof. by rewrite /x mxE; case: splitP => j _; rewrite mxE; [left | right; rewrite ord1 eqxx]. Qed.
Example C116_case :
  [/\ (forall k, w 0 k != 0) /\ a != 0, spread x,
      same_mean (new_point w t) (a : RR) (fun=> 32%:R) mk mk /\ identified mk pts,
      full_col_rank P /\ (forall beta, z != P *m beta)
    & (exists i j, z i 0 != z j 0) /\ exists qr : qr_fun RR 1 1, forall P, is_qr P (qr P)].
Proof.
have z1 : z i1 0 = 1 by rewrite /z col_mxEd mxE eqxx.
have z0 : z i0 0 = 0 by rewrite /z col_mxEu mxE.
have rk (A : 'M[R]_(1 + 1, 1)) : (forall i, A i 0 = 1) -> full_col_rank A.
  move=> h b0 /colP /(_ i0); rewrite !mxE big_ord1 h mul1r => e; apply/colP => k.
  by rewrite ord1 e mxE.
split.
- split; first by move=> k; rewrite mxE pnatr_eq0.
  by rewrite mulf_neq0 ?invr_neq0 // pnatr_eq0.
- move=> k; exists 1; last exact: ltr01.
  rewrite ord1; split; last by exists i1, i0; rewrite [x i1 0]z1 [x i0 0]z0 subr0.
  move=> i j; case: (case_x i) => ->; case: (case_x j) => ->; rewrite ?subrr ?subr0 ?ler01 // sub0r.
  by apply: le_trans (_ : 0 <= 1); rewrite ?oppr_le0 ler01.
- split; last by apply: rk => i; rewrite mxE.
  apply: (SameLinear (a : RR) (c0 := const_mx 32%:R) (unitmx1 _ 1)) => [? k|?].
    by rewrite big_ord1 mul1r ord1 mxE eqxx.
  by rewrite big_ord1 mul1r mxE.
- split; first by apply: rk => i; rewrite mxE.
  move=> beta; apply/eqP => /matrixP e; have := e i0 0; have := e i1 0.
  by rewrite z0 z1 !mxE !big_ord1 !mxE !mul1r => <- /eqP; rewrite eq_sym oner_eq0.
- split; last exact: qr_exists.
  by exists i1, i0; rewrite z0 z1 oner_eq0.
Qed.
End Case.
