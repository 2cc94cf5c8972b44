(** Criteria penalised by a prior (C97): where their minimum in the variance is, compared with the restricted likelihood. *)
From Coq Require Import List Reals Bool Lra Lia.
From Verif Require Import ConfigModel FlModel PriorModel PriorProofs.
Import ListNotations.
Section Aux.
Local Open Scope R_scope.
Definition pen (A B w s C u : R) : R := C + A * u + B * exp (- u) + w * ((u - s) * (u - s)) / 2.
Lemma pen_min A B w s C u0 u : 0 < B -> 0 <= w -> A - B * exp (- u0) + w * (u0 - s) = 0 -> u <> u0 -> pen A B w s C u0 < pen A B w s C u.
Proof.
  intros hB hw e ne. unfold pen. assert (h : 1 + (u0 - u) < exp (u0 - u)) by (apply exp_ineq1; lra).
  assert (ee : exp (- u) = exp (- u0) * exp (u0 - u)) by (rewrite <- exp_plus; f_equal; ring). rewrite ee.
  assert (p := exp_pos (- u0)). set (E := exp (- u0)) in *. set (F := exp (u0 - u)) in *.
  assert (g : B * E * (1 + (u0 - u)) < B * E * F) by (apply Rmult_lt_compat_l; [apply Rmult_lt_0_compat; lra | lra]).
  assert (sq : 0 <= w * ((u - u0) * (u - u0))) by (apply Rmult_le_pos; [lra | apply Rle_0_sqr]).
  replace A with (B * E - w * (u0 - s)) by lra. nra.
Qed.
Lemma pen_root A B w s : 0 < A -> 0 < B -> 0 < w ->
  exists u, A - B * exp (- u) + w * (u - s) = 0 /\ Rmin s (ln (B / A)) <= u <= Rmax s (ln (B / A)) /\
    (s <> ln (B / A) -> Rmin s (ln (B / A)) < u < Rmax s (ln (B / A))).
Proof.
  intros hA hB hw. set (v := ln (B / A)). set (g := fun u => A - B * exp (- u) + w * (u - s)).
  assert (ev : A - B * exp (- v) = 0).
  { rewrite exp_Ropp. unfold v. rewrite exp_ln by (apply Rdiv_lt_0_compat; lra). field. lra. }
  assert (inc : forall a c, a < c -> g a < g c).
  { intros a c h. unfold g. assert (exp (- c) < exp (- a)) by (apply exp_increasing; lra). assert (w * a < w * c) by (apply Rmult_lt_compat_l; lra). nra. }
  assert (gv : g v = w * (v - s)) by (unfold g; lra).
  destruct (Req_dec s v) as [-> | ne].
  - exists v. split; [replace (v - v) with 0 by ring; lra |]. rewrite Rmin_left, Rmax_left by lra. split; [lra | intro; lra].
  - set (a := Rmin s v). set (c := Rmax s v).
    assert (ac : a < c) by (unfold a, c, Rmin, Rmax; destruct (Rle_dec s v); lra).
    assert (gs : g s = A - B * exp (- s)) by (unfold g; ring).
    assert (ga : g a < 0).
    { unfold a, Rmin. destruct (Rle_dec s v).
      - rewrite gs. assert (exp (- v) < exp (- s)) by (apply exp_increasing; lra). nra.
      - rewrite gv. nra. }
    assert (gc : 0 < g c).
    { unfold c, Rmax. destruct (Rle_dec s v).
      - rewrite gv. apply Rmult_lt_0_compat; lra.
      - rewrite gs. assert (exp (- s) < exp (- v)) by (apply exp_increasing; lra). nra. }
    destruct (IVT g a c) as [u [hu eu]]; [| exact ac | exact ga | exact gc |].
    { unfold g. intro t. reg. }
    exists u. split; [exact eu |].
    assert (u <> a) by (intro; subst u; lra). assert (u <> c) by (intro; subst u; lra). split; [lra | intros _; lra].
Qed.
(** sum of the components of the log-range prior in the support *)
Fixpoint rho_pen (alpha : R) (li rm r0 : list R) : R :=
  match li, rm, r0 with
  | x :: li', m :: rm', r :: r0' => alpha * ((- x - m) - (r - m) * ln (- x - m)) + rho_pen alpha li' rm' r0'
  | _, _, _ => 0
  end.
Lemma nlf_sum a li rm r0 acc : length li = length rm -> length rm = length r0 -> Forall2 (fun x m => m < - x) li rm ->
  fold_left fl_add (nlf_list a li rm r0) (Fin acc) = Fin (acc + rho_pen a li rm r0).
Proof.
  intros h1 h2 H. revert r0 acc h1 h2. induction H as [| x m li rm hx H IH]; intros [| r r0] acc h1 h2; try discriminate.
  - cbn. f_equal. ring.
  - rewrite nlf_list_cons, nlf_fin. replace (rltb m (- x)) with true by (symmetry; apply rltb_t; lra).
    cbn [fold_left fl_add rho_pen]. rewrite IH; [| cbn in *; lia | cbn in *; lia]. f_equal. ring.
Qed.
End Aux.

(** value of the combined criterion at a parameter in the support: restricted likelihood, plus squared distance of the
    log variance to its centre in units of the standard deviation, plus barrier-linear terms *)
Theorem C97_value inv_cdf (L s s0 gamma coverage alpha : R) (li rm r0 : list R) : inv_cdf_contract inv_cdf -> (1 < gamma)%R -> (0 < coverage < 1)%R ->
  (0 < alpha)%R -> Forall2 Rlt rm r0 -> Forall2 (fun x m => (m < - x)%R) li rm ->
  exists std, logsigma2_prior_std inv_cdf gamma coverage = Some std /\ (0 < std)%R /\
  neg_log_restricted_posterior inv_cdf (Fin L) s (map Fin li) s0 gamma coverage (map Fin rm) (map Fin r0) (Fin alpha) =
    Some (Fin (L + (s - s0) * (s - s0) / (2 * std * std) + rho_pen alpha li rm r0)%R).
Proof.
  intros hc hg hcov ha hr hx. destruct (coverage_holds inv_cdf gamma coverage s0 hc hg hcov) as (std & E & Hs & _).
  exists std. split; [exact E | split; [exact Hs |]]. unfold neg_log_restricted_posterior, log_prior_gaussian_logsigma2. rewrite E.
  change (map Fin li) with (fins li). change (map Fin rm) with (fins rm). change (map Fin r0) with (fins r0). rewrite logprior_value by assumption.
  assert (l1 : length li = length rm) by (clear - hx; induction hx; cbn; congruence). assert (l2 : length rm = length r0) by (clear - hr; induction hr; cbn; congruence).
  unfold fl_sum. rewrite nlf_sum by assumption. cbn. do 2 f_equal. field. lra.
Qed.
Print Assumptions C97_value.
(** a length scale at or below its cut-off makes the criterion infinite, whatever the rest *)
Theorem C97_outside inv_cdf (L s s0 gamma coverage alpha : R) (li rm r0 : list R) k x m : inv_cdf_contract inv_cdf -> (1 < gamma)%R -> (0 < coverage < 1)%R ->
  (0 < alpha)%R -> Forall2 Rlt rm r0 -> length li = length rm -> nth_error li k = Some x -> nth_error rm k = Some m -> (- x <= m)%R ->
  neg_log_restricted_posterior inv_cdf (Fin L) s (map Fin li) s0 gamma coverage (map Fin rm) (map Fin r0) (Fin alpha) = Some PInf.
Proof.
  intros hc hg hcov ha hr hl e1 e2 hx. destruct (coverage_holds inv_cdf gamma coverage s0 hc hg hcov) as (std & E & Hs & _).
  unfold neg_log_restricted_posterior, log_prior_gaussian_logsigma2. rewrite E.
  change (map Fin li) with (fins li). change (map Fin rm) with (fins rm). change (map Fin r0) with (fins r0).
  destruct (logprior_support alpha li rm r0 ha hr hl) as (u & -> & _ & [_ h]). rewrite h; [reflexivity |]. exists k, x, m. repeat split; auto. lra.
Qed.
Print Assumptions C97_outside.

From mathcomp Require Import all_ssreflect all_algebra.
From Verif Require Import LinAlg KrigModel RealAux2 Rinst LikModel MaternModel MaternProofs MaternPsd
  MaternPsd2 MaternCov CholProofs LinQR LooProofs KrigProofs KrigProofs2 KrigProofs3 LikProofs MaternCovProofs InitModel InitProofs PriorMat PriorCritModel.
Import ConfigModel.
Set Implicit Arguments.
Unset Strict Implicit.
Unset Printing Implicit Defensive.
Import Order.TTheory GRing.Theory Num.Theory.
Local Open Scope ring_scope.
Local Arguments exp : clear scopes.
Local Arguments ln : clear scopes.
Local Arguments sqrt : clear scopes.
Bind Scope ring_scope with R.

(** f has a unique minimum, at u, and is finite everywhere *)
Definition unique_min (f : R -> res fl) (u : R) : Prop :=
  exists v, f u = Ok (Fin v) /\ forall u', u' <> u -> exists v', f u' = Ok (Fin v') /\ Rlt v v'.

Section C97.
Variables (b b' : backend) (p d q r : nat) (qr : qr_fun R_rcfType q r).
Variables (x : 'M[R]_(q + r, d)) (P : 'M[R]_(q + r, q)) (z : 'cV[R]_(q + r)).
Hypothesis qrP : is_qr P (qr P).
Hypothesis fP : full_col_rank P.
Hypothesis zP : forall beta, z != P *m beta.

Lemma r_pos : (0 < r)%N.
Proof using qrP fP zP.
rewrite ltnNge leqn0; apply/negP => /eqP r0.
have e : (rsubmx (qr P).1)^T *m z = 0.
  by apply/matrixP => i j; exfalso; have := leq_ltn_trans (leq0n i) (ltn_ord i); rewrite {1}r0.
by have [beta eb] := contrast_zero qrP fP e; have := zP beta; rewrite -eb eqxx.
Qed.
Lemma reml_value l : exists a Q : R, Rlt (IZR 0) Q /\
  forall u, matern_reml b b' p qr x P z u l = Ok (Fin (pen (Rdiv (INR r) (IZR 2)) (Rdiv Q (IZR 2)) (IZR 0) (IZR 0) a u)).
Proof using qrP fP zP.
have [a [Q [_ /(_ zP) Q0 h]]] := @power_value b b' p d q r qr x P z l qrP fP.
exists (Rdiv a (IZR 2)), Q; split; [exact/ltRP | move=> u]; move: (h u); rewrite /power_laws_criterion /matern_reml.
case: (nrl _ _ _ _ _) => [[v|]|e] //= [e]; congr (Ok (Fin _)).
have -> : v = pow_obj a Q r u [seq l 0 k | k <- enum 'I_d] + log_prior_power_law power_law_default u [seq l 0 k | k <- enum 'I_d] by rewrite -e subrK.
rewrite /pow_obj /pen.
set lp := log_prior_power_law _ _ _.
change (Rplus (Rminus (Rdiv (Rplus (Rplus a (Rmult (INR r) u)) (Rmult Q (exp (Ropp u)))) (IZR 2)) lp) lp = Rplus (Rplus (Rplus (Rdiv a (IZR 2)) (Rmult (Rdiv (INR r) (IZR 2)) u)) (Rmult (Rdiv Q (IZR 2)) (exp (Ropp u)))) (Rdiv (Rmult (IZR 0) (Rmult (Rminus u (IZR 0)) (Rminus u (IZR 0)))) (IZR 2))).
field.
Qed.
Lemma min_of_pen (f : R -> res fl) (A B w s C u : R) : (forall u, f u = Ok (Fin (pen A B w s C u))) ->
  Rlt (IZR 0) B -> Rle (IZR 0) w -> Rplus (Rminus A (Rmult B (exp (Ropp u)))) (Rmult w (Rminus u s)) = IZR 0 -> unique_min f u.
Proof.
move=> h B0 w0 e; eexists; split; first exact: h.
by move=> u' ne; eexists; split; [exact: h | exact: pen_min].
Qed.
Lemma reml_min (B : R) : Rlt (IZR 0) B -> Rplus (Rminus (Rdiv (INR r) (IZR 2)) (Rmult B (exp (Ropp (ln (Rdiv B (Rdiv (INR r) (IZR 2)))))))) (Rmult (IZR 0) (Rminus (ln (Rdiv B (Rdiv (INR r) (IZR 2)))) (IZR 0))) = IZR 0.
Proof using qrP fP zP.
move=> B0; have r0 : Rlt (IZR 0) (INR r) by apply: lt_0_INR; apply/ssrnat.ltP; exact: r_pos.
rewrite exp_Ropp exp_ln; last by apply: Rdiv_lt_0_compat => //; lra.
by field; lra.
Qed.

(** Jeffreys prior on the variance: the estimate of the variance is multiplied by r / (r + 2 lambda), r = n - q *)
Theorem C97_jeffreys lambda_var l : Rlt (IZR 0) (INR r + 2%:R * lambda_var) ->
  exists uR uJ, unique_min (fun u => matern_reml b b' p qr x P z u l) uR /\
    unique_min (fun u => jeffreys_criterion b b' p qr x P z lambda_var u l) uJ /\
    (INR r + 2%:R * lambda_var) * exp uJ = INR r * exp uR.
Proof using qrP fP zP.
move=> hl; have [a [Q [Q0 h]]] := reml_value l; have r0 : Rlt (IZR 0) (INR r) by apply: lt_0_INR; apply/ssrnat.ltP; exact: r_pos.
have e2 : 2%:R = IZR 2 :> R by [].
rewrite e2 in hl *; set c := Rplus (INR r) (Rmult (IZR 2) lambda_var); change (Rlt (IZR 0) c) in hl.
have hB : Rlt (IZR 0) (Rdiv Q (IZR 2)) by lra.
exists (ln (Rdiv (Rdiv Q (IZR 2)) (Rdiv (INR r) (IZR 2)))), (ln (Rdiv (Rdiv Q (IZR 2)) (Rdiv c (IZR 2)))); split.
  by apply: (min_of_pen h) => //; [exact: Rle_refl | exact: reml_min].
split.
  apply: (@min_of_pen _ (Rdiv c (IZR 2)) (Rdiv Q (IZR 2)) (IZR 0) (IZR 0) a) => [u|//||].
  - rewrite /jeffreys_criterion h /=; congr (Ok (Fin _)); rewrite /pen /log_prior_jeffreys_variance /c; field.
  - exact: Rle_refl.
  - by rewrite exp_Ropp exp_ln; [field; lra | apply: Rdiv_lt_0_compat => //; lra].
change (Rmult c (exp (ln (Rdiv (Rdiv Q (IZR 2)) (Rdiv c (IZR 2))))) = Rmult (INR r) (exp (ln (Rdiv (Rdiv Q (IZR 2)) (Rdiv (INR r) (IZR 2)))))).
by rewrite !exp_ln; try (apply: Rdiv_lt_0_compat => //; lra); field; lra.
Qed.
(** with 2 lambda <= - r there is no minimum: the criterion decreases with the variance *)
Theorem C97_jeffreys_no_minimum lambda_var l u u' : Rle (INR r + 2%:R * lambda_var) (IZR 0) -> Rlt u u' ->
  exists v v', jeffreys_criterion b b' p qr x P z lambda_var u l = Ok (Fin v) /\
    jeffreys_criterion b b' p qr x P z lambda_var u' l = Ok (Fin v') /\ Rlt v' v.
Proof using qrP fP zP.
move=> hl uu; have [a [Q [Q0 h]]] := reml_value l.
have e2 : 2%:R = IZR 2 :> R by [].
rewrite e2 in hl; change (Rle (Rplus (INR r) (Rmult (IZR 2) lambda_var)) (IZR 0)) in hl.
rewrite /jeffreys_criterion !h /=; do 2 eexists; split; first by []; split; first by [].
rewrite /pen /log_prior_jeffreys_variance.
have e : Rlt (exp (Ropp u')) (exp (Ropp u)) by apply: exp_increasing; lra.
have := Rmult_lt_compat_l _ _ _ Q0 e; nra.
Qed.
(** Gaussian prior on the log variance: one minimum, between the restricted likelihood estimate and the centre of the prior *)
Theorem C97_logsigma2 inv_cdf (s0 gamma coverage : R) l : inv_cdf_contract inv_cdf -> Rlt (IZR 1) gamma -> Rlt (IZR 0) coverage -> Rlt coverage (IZR 1) ->
  exists uR um, unique_min (fun u => matern_reml b b' p qr x P z u l) uR /\
    unique_min (fun u => logsigma2_criterion b b' p qr x P z inv_cdf s0 gamma coverage u l) um /\
    (Rle (Rmin s0 uR) um /\ Rle um (Rmax s0 uR)) /\ (s0 <> uR -> Rlt (Rmin s0 uR) um /\ Rlt um (Rmax s0 uR)).
Proof using qrP fP zP.
move=> hc hg h0 h1; have [a [Q [Q0 h]]] := reml_value l; have r0 : Rlt (IZR 0) (INR r) by apply: lt_0_INR; apply/ssrnat.ltP; exact: r_pos.
have [std [E [Hs _]]] := coverage_holds inv_cdf gamma coverage s0 hc hg (conj h0 h1).
have hB : Rlt (IZR 0) (Rdiv Q (IZR 2)) by lra.
have w0 : Rlt (IZR 0) (Rinv (Rmult std std)) by apply: Rinv_0_lt_compat; nra.
have [|um [e [bd st]]] := @pen_root (Rdiv (INR r) (IZR 2)) (Rdiv Q (IZR 2)) (Rinv (Rmult std std)) s0 _ hB w0; first by lra.
exists (ln (Rdiv (Rdiv Q (IZR 2)) (Rdiv (INR r) (IZR 2)))), um; split.
  by apply: (min_of_pen h) => //; [exact: Rle_refl | exact: reml_min].
split; last by split.
apply: (@min_of_pen _ (Rdiv (INR r) (IZR 2)) (Rdiv Q (IZR 2)) (Rinv (Rmult std std)) s0 a) => // [u|]; last exact: Rlt_le.
rewrite /logsigma2_criterion h /= /log_prior_gaussian_logsigma2 E /=; congr (Ok (Fin _)); rewrite /pen; field; lra.
Qed.
(** the log-range prior does not move that minimum *)
Theorem C97_map inv_cdf (s0 gamma coverage alpha : R) (rm r0 : seq R) (l : 'rV[R]_d) (um : R) : inv_cdf_contract inv_cdf -> Rlt (IZR 1) gamma -> Rlt (IZR 0) coverage -> Rlt coverage (IZR 1) ->
  Rlt (IZR 0) alpha -> Forall2 Rlt rm r0 -> Forall2 (fun x m => Rlt m (Ropp x)) [seq l 0 k | k <- enum 'I_d] rm ->
  unique_min (fun u => logsigma2_criterion b b' p qr x P z inv_cdf s0 gamma coverage u l) um ->
  unique_min (fun u => map_criterion b b' p qr x P z inv_cdf s0 gamma coverage (Fin alpha) (map Fin rm) (map Fin r0) u l) um.
Proof using qrP fP zP.
move=> hc hg h0 h1 ha hr hx [v [ev hv]]; have [a [Q [Q0 h]]] := reml_value l.
have V u v0 : logsigma2_criterion b b' p qr x P z inv_cdf s0 gamma coverage u l = Ok (Fin v0) ->
  map_criterion b b' p qr x P z inv_cdf s0 gamma coverage (Fin alpha) (map Fin rm) (map Fin r0) u l =
    Ok (Fin (Rplus v0 (rho_pen alpha [seq l 0 k | k <- enum 'I_d] rm r0))).
  rewrite /logsigma2_criterion /map_criterion h /=.
  have [std [E [Hs]]]   := C97_value inv_cdf (pen (Rdiv (INR r) (IZR 2)) (Rdiv Q (IZR 2)) (IZR 0) (IZR 0) a u) u s0 gamma coverage alpha [seq l 0 k | k <- enum 'I_d] rm r0 hc hg (conj h0 h1) ha hr hx.
  have -> : List.map Fin [seq l 0 k | k <- enum 'I_d] = loginvrho_list l.
    by rewrite /loginvrho_list [RHS]map_comp.
  change (List.map Fin rm) with (map Fin rm); change (List.map Fin r0) with (map Fin r0).
  move=> ->; rewrite /= /log_prior_gaussian_logsigma2 E /= => -[<-]; congr (Ok (Fin _)); field; lra.
eexists; split; first exact: (V _ _ ev).
move=> u' ne; have [v' [e' lt]] := hv u' ne; eexists; split; first exact: (V _ _ e').
exact: Rplus_lt_compat_r.
Qed.
(** the log-range prior alone: the restricted likelihood plus the barrier-linear terms inside the support, and +inf at or below a cut-off *)
Theorem C97_logrho (alpha : R) (rm r0 : seq R) (l : 'rV[R]_d) (u : R) : Rlt (IZR 0) alpha -> Forall2 Rlt rm r0 ->
  length [seq l 0 k | k <- enum 'I_d] = length rm ->
  exists L, matern_reml b b' p qr x P z u l = Ok (Fin L) /\
  (Forall2 (fun x m => Rlt m (Ropp x)) [seq l 0 k | k <- enum 'I_d] rm ->
     logrho_criterion b b' p qr x P z (Fin alpha) (map Fin rm) (map Fin r0) u l =
     Ok (Fin (Rplus L (rho_pen alpha [seq l 0 k | k <- enum 'I_d] rm r0)))) /\
  (forall k y m, nth_error [seq l 0 k | k <- enum 'I_d] k = Some y -> nth_error rm k = Some m -> Rle (Ropp y) m ->
     logrho_criterion b b' p qr x P z (Fin alpha) (map Fin rm) (map Fin r0) u l = Ok PInf).
Proof using qrP fP zP.
move=> ha hr hl; have [a [Q [Q0 h]]] := reml_value l.
have -> : map Fin rm = fins rm by []; have -> : map Fin r0 = fins r0 by [].
have el : loginvrho_list l = fins [seq l 0 k | k <- enum 'I_d] by rewrite /loginvrho_list [LHS]map_comp.
eexists; split; first exact: h.
rewrite /logrho_criterion h /= el; split.
- move=> hx; rewrite logprior_value //.
  have l2 : length rm = length r0 by elim: hr => //= ? ? ? ? _ _ ->.
  rewrite /fl_sum nlf_sum //=; congr (Ok (Fin _)); rewrite /pen; ring.
- move=> k y m e1 e2 hx.
  have [v [-> [_ [_ e]]]] := logprior_support alpha _ rm r0 ha hr hl.
  by rewrite e //; exists k, y, m; split=> //; split=> //; lra.
Qed.
End C97.
(** a failed restricted likelihood makes every one of these criteria +inf, wherever the priors are defined *)
Theorem C97_failure (b b' : backend) (p d q r : nat) (qr : qr_fun R_rcfType q r) (x : 'M[R]_(q + r, d)) (P : 'M[R]_(q + r, q)) (z : 'cV[R]_(q + r))
  inv_cdf (lambda_var s0 gamma coverage alpha : R) (rm r0 : seq R) (l : 'rV[R]_d) (u : R) :
  nrl b' qr (maternp_covariance_ii b p (row_mx u%:M l) x) P z = Ok LikModel.PInf ->
  inv_cdf_contract inv_cdf -> Rlt (IZR 1) gamma -> Rlt (IZR 0) coverage -> Rlt coverage (IZR 1) -> Rlt (IZR 0) alpha -> Forall2 Rlt rm r0 ->
  length [seq l 0 k | k <- enum 'I_d] = length rm ->
  [/\ matern_reml b b' p qr x P z u l = Ok PInf, jeffreys_criterion b b' p qr x P z lambda_var u l = Ok PInf,
      logsigma2_criterion b b' p qr x P z inv_cdf s0 gamma coverage u l = Ok PInf,
      logrho_criterion b b' p qr x P z (Fin alpha) (map Fin rm) (map Fin r0) u l = Ok PInf
    & map_criterion b b' p qr x P z inv_cdf s0 gamma coverage (Fin alpha) (map Fin rm) (map Fin r0) u l = Ok PInf].
Proof.
move=> e hc hg h0 h1 ha hr hl; have [std [E [Hs _]]] := coverage_holds inv_cdf gamma coverage s0 hc hg (conj h0 h1).
have -> : map Fin rm = fins rm by []; have -> : map Fin r0 = fins r0 by [].
have el : loginvrho_list l = fins [seq l 0 k | k <- enum 'I_d] by rewrite /loginvrho_list [LHS]map_comp.
rewrite /jeffreys_criterion /logsigma2_criterion /logrho_criterion /map_criterion /matern_reml e /= el.
rewrite /log_prior_gaussian_logsigma2 /neg_log_restricted_posterior /log_prior_gaussian_logsigma2 E.
have [v [-> [[[c ->]|->] _]]] := logprior_support alpha _ rm r0 ha hr hl; by [].
Qed.
Print Assumptions C97_logrho.
Print Assumptions C97_failure.
Print Assumptions C97_jeffreys.
Print Assumptions C97_jeffreys_no_minimum.
Print Assumptions C97_logsigma2.
Print Assumptions C97_map.

Example C97_case : exists (qr : qr_fun R_rcfType 1 1) (z : 'cV[R]_(1 + 1)),
  [/\ is_qr (w_P R_rcfType) (qr (w_P R_rcfType)), full_col_rank (w_P R_rcfType), forall beta, z != w_P R_rcfType *m beta
    & Rlt (IZR 0) (INR 1 + 2%:R * IZR 1)].
Proof.
have [qr h] := qr_exists R_rcfType 1 1; exists qr, (delta_mx (lshift 1 0) 0); split=> //; first exact: w_full.
- move=> beta; apply/eqP => e.
  have /matrixP /(_ (lshift 1 0) 0) := e; have /matrixP /(_ (rshift 1 0) 0) := e.
  rewrite !mxE !big_ord1 /w_P col_mxEu col_mxEd !mxE !eqxx /= !mul1r => <- /eqP; by rewrite oner_eq0.
- change (Rlt (IZR 0) (Rplus (INR 1) (Rmult (IZR 2) (IZR 1)))); rewrite /=; lra.
Qed.
Example C97_value_case : Forall2 Rlt [:: IZR 0] [:: IZR 1] /\ Forall2 (fun x m => Rlt m (Ropp x)) [:: IZR (-1)] [:: IZR 0].
Proof. by split; constructor => //; lra. Qed.
