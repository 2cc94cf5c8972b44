(* PriorMat.v: the restricted-likelihood criterion penalised by the power-law
   prior, for a Matern model (C42). *)
From Coq Require Import Reals Lra.
From Verif Require Import ConfigModel FlModel PriorModel PriorProofs.
Section Aux.
Local Open Scope R_scope.
(* the criterion as a function of u = log sigma2: a + (k/2) u + (Q/2) exp(-u) minus the prior *)
Definition pow_obj (a Q : R) (k : nat) (u : R) (p : list R) : R :=
  (a + INR k * u + Q * exp (- u)) / 2 - log_prior_power_law power_law_default u p.
Lemma pow_split u p : log_prior_power_law power_law_default u p =
  - u + 100 * Rmax (u - 921 / 100) 0 + (log_prior_power_law power_law_default 0 p).
Proof.
unfold log_prior_power_law, power_law_default; simpl.
rewrite (Rmax_right (0 - 921 / 100) 0) by lra. ring.
Qed.
Lemma pow_obj_unbounded a Q k p B : 0 <= Q -> (k <= 197)%nat -> exists u, pow_obj a Q k u p < B.
Proof.
intros HQ Hk. unfold pow_obj. set (l0 := log_prior_power_law power_law_default 0 p).
set (C := (a + Q) / 2 + 921 - l0 - B).
exists (921 / 100 + 2 * Rabs C + 1). rewrite pow_split. fold l0.
assert (HC := Rle_abs C). assert (HA := Rabs_pos C).
rewrite Rmax_left by lra.
set (u := 921 / 100 + 2 * Rabs C + 1) in *.
assert (E : exp (- u) <= 1).
{ rewrite <- exp_0. left. apply exp_increasing. unfold u. lra. }
assert (K : INR k <= 197). { apply le_INR in Hk. simpl in Hk. lra. }
assert (Q * exp (- u) <= Q). { rewrite <- (Rmult_1_r Q) at 2. apply Rmult_le_compat_l; lra. }
assert (INR k * u <= 197 * u). { apply Rmult_le_compat_r; [unfold u; lra|lra]. }
unfold C in *. unfold u in *. lra.
Qed.
Lemma ln_le_sub1 t : 0 < t -> ln t <= t - 1.
Proof. intros H. destruct (Req_dec t 1) as [->|N]; [rewrite ln_1; lra|left; apply ln_lt_sub1; auto]. Qed.
Lemma pow_obj_bounded a Q k p : 0 < Q -> (198 <= k)%nat -> exists B, forall u, B <= pow_obj a Q k u p.
Proof.
intros HQ Hk. unfold pow_obj. set (l0 := log_prior_power_law power_law_default 0 p).
assert (K : 198 <= INR k). { apply le_INR in Hk. simpl in Hk. lra. }
set (c := INR k + 2). set (m := c - c * ln (c / Q)).
exists (Rmin ((a + m) / 2 - l0) (a / 2 + 0 - l0)).
intros u. rewrite pow_split. fold l0.
destruct (Rle_dec u (921 / 100)) as [H|H].
- rewrite Rmax_right by lra. eapply Rle_trans; [apply Rmin_l|].
  assert (m <= Q * exp (- u) + c * u); [|unfold c in *; lra].
  set (t := exp (- u)). assert (Ht : 0 < t) by apply exp_pos.
  assert (Hu : u = - ln t) by (unfold t; rewrite ln_exp; ring).
  assert (G := ln_le_sub1 (Q * t / c)).
  assert (0 < Q * t / c) by (apply Rdiv_lt_0_compat; [nra|unfold c; lra]). specialize (G H0).
  rewrite ln_quot in G by (unfold c; nra). rewrite ln_mult in G by auto.
  assert (G' : c * (ln Q + ln t - ln c) <= c * (Q * t / c - 1)) by (apply Rmult_le_compat_l; [unfold c; lra|auto]).
  replace (c * (Q * t / c - 1)) with (Q * t - c) in G' by (field; unfold c; lra).
  unfold m. rewrite ln_quot by (unfold c; lra). rewrite Hu. nra.
- rewrite Rmax_left by lra. eapply Rle_trans; [apply Rmin_r|].
  assert (0 < exp (- u)) by apply exp_pos. assert (0 < Q * exp (- u)) by nra.
  assert (198 * u <= INR k * u). { apply Rmult_le_compat_r; lra. } lra.
Qed.
End Aux.

From mathcomp Require Import all_ssreflect all_algebra.
From Verif Require Import LinAlg KrigModel RealAux2 Rinst LikModel MaternModel MaternProofs MaternPsd
  MaternPsd2 MaternCov CholProofs LinQR LooProofs KrigProofs KrigProofs2 KrigProofs3 LikProofs MaternCovProofs InitModel InitProofs.
Set Implicit Arguments.
Unset Strict Implicit.
Unset Printing Implicit Defensive.
Import Order.TTheory GRing.Theory Num.Theory.
Local Open Scope ring_scope.
Local Arguments exp : clear scopes.
Local Arguments ln : clear scopes.
Local Arguments sqrt : clear scopes.
Bind Scope ring_scope with R.

(* gpmp/kernel/priors.py:345-369 neg_log_restricted_posterior_power_laws_prior
   for a Matern model; loginvrho = l *)
Definition power_laws_criterion (b b' : backend) p d q r (qr : qr_fun R_rcfType q r) (x : 'M[R]_(q + r, d))
  (P : 'M[R]_(q + r, q)) (z : 'cV[R]_(q + r)) (log_sigma2 : R) (l : 'rV[R]_d) : res ereal :=
  rbind (nrl b' qr (maternp_covariance_ii b p (row_mx log_sigma2%:M l) x) P z) (fun L =>
    match L with
    | LikModel.Fin v =>
        Ok (LikModel.Fin (v - log_prior_power_law power_law_default log_sigma2 [seq l 0 k | k <- enum 'I_d]))
    | LikModel.PInf => Ok LikModel.PInf
    end).

Section C42.
Variables (b b' : backend) (p d q r : nat) (qr : qr_fun R_rcfType q r).
Variables (x : 'M[R]_(q + r, d)) (P : 'M[R]_(q + r, q)) (z : 'cV[R]_(q + r)) (l : 'rV[R]_d).
Hypothesis qrP : is_qr P (qr P).
Hypothesis fP : full_col_rank P.

Lemma power_value : exists a Q : R, [/\ 0 <= Q, (forall beta, z != P *m beta) -> 0 < Q
  & forall u, power_laws_criterion b b' p qr x P z u l =
      Ok (LikModel.Fin (pow_obj a Q r u [seq l 0 k | k <- enum 'I_d]))].
Proof.
pose K := maternp_covariance_ii b p (mkparam (ln 1) l) x.
have pd : pos_def K by exact: cov_ii_pd.
have cpd (c : R) : 0 < c -> cond_pos_def (c *: K) P by move=> c0; apply: pd_cpd; exact: pd_scale.
pose W := rsubmx (qr P).1; pose G := W^T *m (K *m W).
have pG : pos_def G by apply: G_pd => //; exact: pd_cpd.
exists (r%:R * ln (2%:R * PI) + ln (\det G)), (qform (invmx G) (W^T *m z)); split.
- have [->|zn] := eqVneq (W^T *m z) 0; first by rewrite /qform bilinE big1 // => i _; rewrite big1 // => j _; rewrite !mxE mulr0 ?mul0r.
  exact/ltW/(pd_inv pG).2.
- move=> zP; apply: (pd_inv pG).2; apply/eqP => e; have [beta eb] := contrast_zero qrP fP e.
  by have := zP beta; rewrite -eb eqxx.
move=> u; have e0 := exp_gt0 u; rewrite /power_laws_criterion.
have -> : row_mx u%:M l = mkparam (ln (exp u)) l by rewrite /mkparam ln_exp.
rewrite cov_at // -/K (nrl_ok _ _ qrP (cpd _ e0)) /= /nrl_of -/W.
have -> : W^T *m ((exp u *: K) *m W) = exp u *: G by rewrite -scalemxAl -scalemxAr.
rewrite gauss_nll_scale // ln_exp /pow_obj; congr (Ok (LikModel.Fin (_ - _))).
rewrite exp_Ropp Rinv_ring ?gt_eqF // -natR.
have -> : IZR 2 = 2%:R :> R by [].
rewrite -[RHS]/((r%:R * ln (2%:R * PI) + ln (\det G) + r%:R * u + qform (invmx G) (W^T *m z) * (exp u)^-1) * Rinv 2%:R).
rewrite Rinv_ring ?pnatr_eq0 //; congr (_ * _).
by congr (_ + _); rewrite addrAC.
Qed.
Lemma power_unbounded (B : R) : (r <= 197)%N -> exists u v,
  power_laws_criterion b b' p qr x P z u l = Ok (LikModel.Fin v) /\ v < B.
Proof.
move=> rk; have [a [Q [Q0 _ h]]] := power_value.
have [|u hu] := @pow_obj_unbounded a Q r [seq l 0 k | k <- enum 'I_d] B _ (elimT ssrnat.leP rk); first exact/leRP.
by exists u; eexists; split; [exact: h | exact/ltRP].
Qed.
Lemma power_bounded : (198 <= r)%N -> (forall beta, z != P *m beta) -> exists B, forall u,
  exists v, power_laws_criterion b b' p qr x P z u l = Ok (LikModel.Fin v) /\ B <= v.
Proof.
move=> rk zP; have [a [Q [_ /(_ zP) Q0 h]]] := power_value.
have [|B hB] := @pow_obj_bounded a Q r [seq l 0 k | k <- enum 'I_d] _ (elimT ssrnat.leP rk); first exact/ltRP.
by exists B => u; eexists; split; [exact: h | exact/leRP].
Qed.
End C42.
