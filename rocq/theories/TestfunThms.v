(** Property theorems C93-C96: the test functions of gpmp/misc/testfunctions.py. *)
From Coq Require Import List ZArith Reals Lra Lia Psatz.
From Coquelicot Require Import Coquelicot.
From Verif Require Import TestfunModel.
Import ListNotations.
Local Open Scope R_scope.

Lemma PI_lower : 3 < PI.
Proof. pose proof PI2_3_2. lra. Qed.
Lemma PI_upper : PI < 10 / 3.
Proof.
  destruct (PI_ineq 3) as [_ h]. unfold sum_f_R0, tg_alt, PI_tg in h. cbn [Nat.mul Nat.add pow] in h.
  repeat rewrite S_INR in h. cbn [INR] in h. lra.
Qed.

(** * C93: the minima of the Branin-Hoo function *)
Lemma cos_m1 x : cos x = -1 <-> exists k : Z, x = (2 * IZR k + 1) * PI.
Proof.
  split.
  - intro h. assert (s : sin x = 0) by (pose proof (sin2_cos2 x) as e; unfold Rsqr in e; rewrite h in e; nra).
    apply sin_eq_0_0 in s as [k ->]. destruct (Z.Even_or_Odd k) as [[m ->] | [m ->]].
    + exfalso. rewrite mult_IZR in h. assert (e : cos (2 * IZR m * PI) = 1); [| lra].
      replace (2 * IZR m * PI) with (0 + 2 * IZR m * PI) by ring. destruct (Z_le_gt_dec 0 m) as [hm | hm].
      * rewrite <- (Z2Nat.id m) by exact hm. rewrite <- INR_IZR_INZ, cos_period. apply cos_0.
      * rewrite <- (Z.opp_involutive m), opp_IZR, <- (Z2Nat.id (- m)) by lia. rewrite <- INR_IZR_INZ.
        rewrite <- (cos_period _ (Z.to_nat (- m))). replace (0 + 2 * - INR (Z.to_nat (- m)) * PI + 2 * INR (Z.to_nat (- m)) * PI) with 0 by ring. apply cos_0.
    + exists m. rewrite plus_IZR, mult_IZR. reflexivity.
  - intros [k ->]. replace ((2 * IZR k + 1) * PI) with (PI + 2 * IZR k * PI) by ring. destruct (Z_le_gt_dec 0 k) as [hk | hk].
    + rewrite <- (Z2Nat.id k) by exact hk. rewrite <- INR_IZR_INZ, cos_period. apply cos_PI.
    + rewrite <- (Z.opp_involutive k), opp_IZR, <- (Z2Nat.id (- k)) by lia. rewrite <- INR_IZR_INZ.
      rewrite <- (cos_period _ (Z.to_nat (- k))). replace (PI + 2 * - INR (Z.to_nat (- k)) * PI + 2 * INR (Z.to_nat (- k)) * PI) with PI by ring. apply cos_PI.
Qed.

(** the value 10/(8 pi) = 0.3978... is a lower bound, reached exactly on the parabola at odd multiples of pi *)
Theorem C93_global_minimum x1 x2 : 10 / (8 * PI) <= braninhoo [x1; x2] /\
  (braninhoo [x1; x2] = 10 / (8 * PI) <->
   (exists k : Z, x1 = (2 * IZR k + 1) * PI) /\ x2 = 51 / 10 / (4 * PI^2) * x1^2 - 5 / PI * x1 + 6).
Proof.
  pose proof PI_lower as pl. unfold braninhoo, coord. cbn [nth].
  set (q := x2 - 51 / 10 / (4 * PI ^ 2) * x1 ^ 2 + 5 / PI * x1 - 6). assert (q2 := pow2_ge_0 q).
  set (c := 10 * (1 - 1 / (8 * PI))).
  assert (hc : 0 < c).
  { unfold c. assert (1 / (8 * PI) < 1) by (apply Rmult_lt_reg_r with (8 * PI); [lra |]; unfold Rdiv; rewrite Rmult_assoc, Rinv_l; lra). lra. }
  assert (ec : 10 / (8 * PI) = 10 - c) by (unfold c; field; lra). rewrite ec. destruct (COS_bound x1) as [cb _].
  assert (hm : c * -1 <= c * cos x1) by (apply Rmult_le_compat_l; lra).
  split; [lra |]. split.
  - intro e. assert (e1 : q ^ 2 = 0) by lra. assert (e2 : cos x1 = -1) by (apply Rmult_eq_reg_l with c; lra).
    split; [now apply cos_m1 |]. assert (q = 0) by nra. unfold q in *. lra.
  - intros [k e]. apply cos_m1 in k. assert (q = 0) by (unfold q; lra). rewrite k, H. ring.
Qed.
Print Assumptions C93_global_minimum.

(** on the usual domain [-5, 10] x [0, 15] there are exactly three minimisers, those of the literature *)
Theorem C93_three_minimisers x1 x2 : -5 <= x1 <= 10 -> 0 <= x2 <= 15 ->
  (braninhoo [x1; x2] = 10 / (8 * PI) <->
   (x1 = - PI /\ x2 = 12275 / 1000) \/ (x1 = PI /\ x2 = 2275 / 1000) \/ (x1 = 3 * PI /\ x2 = 2475 / 1000)).
Proof.
  intros h1 h2. pose proof PI_lower as pl. pose proof PI_upper as pu. rewrite (proj2 (C93_global_minimum x1 x2)). split.
  - intros [[k e] e2].
    assert (k1 : (-2 < k)%Z) by (apply lt_IZR; nra). assert (k2 : (k < 2)%Z) by (apply lt_IZR; nra).
    assert (K : k = (-1)%Z \/ k = 0%Z \/ k = 1%Z) by lia. destruct K as [-> | [-> | ->]].
    + left. assert (x1 = - PI) by (rewrite e; ring). split; [assumption |]. rewrite e2, H. field. lra.
    + right; left. assert (x1 = PI) by (rewrite e; ring). split; [assumption |]. rewrite e2, H. field. lra.
    + right; right. assert (x1 = 3 * PI) by (rewrite e; ring). split; [assumption |]. rewrite e2, H. field. lra.
  - intros [[-> ->] | [[-> ->] | [-> ->]]]; (split; [| field; lra]).
    + exists (-1)%Z. ring.
    + exists 0%Z. ring.
    + exists 1%Z. ring.
Qed.
Print Assumptions C93_three_minimisers.
(** the three points lie in the domain *)
Example C93_minimisers_ex : -5 <= - PI <= 10 /\ -5 <= PI <= 10 /\ -5 <= 3 * PI <= 10 /\ braninhoo [PI; 2275 / 1000] = 10 / (8 * PI).
Proof.
  pose proof PI_lower as pl. pose proof PI_upper as pu. repeat split; try lra. apply C93_three_minimisers; [lra | lra |]. right; left. split; reflexivity.
Qed.

(** * C94: deviations from the documented formulas, and ranges *)
(** the function of Dette and Pepelyshev (2010): the last sum runs over i = 4..8 *)
Definition dette_pepelyshev (x : list R) : R :=
  4 * (coord x 0 - 2 + 8 * coord x 1 - 8 * (coord x 1)^2)^2 + (3 - 4 * coord x 1)^2 +
  16 * sqrt (coord x 2 + 1) * (2 * coord x 2 - 1)^2 +
  sum_f 4 8 (fun i => INR i * ln (1 + sum_f 2 (i - 1) (fun j => coord x j))).
Lemma dp_last x : snd (fold_left (fun (_ : nat * R) ii =>
      (ii, fold_left (fun inner jj => inner + coord x (jj - 1)) (seq 3 (ii + 1 - 3)) 0)) (seq 4 5) (0%nat, 0)) = sum_f 2 7 (coord x).
Proof. unfold sum_f. cbn. ring. Qed.

(** only the term i = 8 is added: the code returns the published function minus the terms i = 4..7; on the unit cube the two agree
    exactly when x3 = ... = x7 = 0 *)
Theorem C94_detpep8d_misses_terms x : (forall j, 0 <= coord x j) ->
  dette_pepelyshev x - detpep8d x = sum_f 4 7 (fun i => INR i * ln (1 + sum_f 2 (i - 1) (fun j => coord x j))) /\
  0 <= dette_pepelyshev x - detpep8d x /\
  (detpep8d x = dette_pepelyshev x <-> forall j, (2 <= j <= 6)%nat -> coord x j = 0).
Proof.
  intro pos.
  assert (E : dette_pepelyshev x - detpep8d x = sum_f 4 7 (fun i => INR i * ln (1 + sum_f 2 (i - 1) (fun j => coord x j)))).
  { unfold dette_pepelyshev, detpep8d. cbv zeta. rewrite dp_last. unfold sum_f. cbn -[INR coord]. cbn [INR]. ring. }
  assert (L : forall t, 0 <= t -> 0 <= ln (1 + t)).
  { intros t ht. rewrite <- ln_1. destruct (Req_dec t 0) as [-> | n]; [rewrite Rplus_0_r; lra |]. left. apply ln_increasing; lra. }
  assert (L0 : forall t, 0 <= t -> ln (1 + t) = 0 -> t = 0).
  { intros t ht e. destruct (Req_dec t 0) as [h | n]; [exact h |]. assert (ln 1 < ln (1 + t)) by (apply ln_increasing; lra). rewrite ln_1 in *. lra. }
  assert (S : sum_f 4 7 (fun i => INR i * ln (1 + sum_f 2 (i - 1) (fun j => coord x j))) =
    4 * ln (1 + (coord x 2 + coord x 3)) + 5 * ln (1 + (coord x 2 + coord x 3 + coord x 4)) +
    6 * ln (1 + (coord x 2 + coord x 3 + coord x 4 + coord x 5)) + 7 * ln (1 + (coord x 2 + coord x 3 + coord x 4 + coord x 5 + coord x 6))).
  { unfold sum_f. cbn -[INR coord]. cbn [INR]. ring. }
  assert (p2 := pos 2%nat). assert (p3 := pos 3%nat). assert (p4 := pos 4%nat). assert (p5 := pos 5%nat). assert (p6 := pos 6%nat).
  assert (l1 := L (coord x 2 + coord x 3) ltac:(lra)). assert (l2 := L (coord x 2 + coord x 3 + coord x 4) ltac:(lra)).
  assert (l3 := L (coord x 2 + coord x 3 + coord x 4 + coord x 5) ltac:(lra)). assert (l4 := L (coord x 2 + coord x 3 + coord x 4 + coord x 5 + coord x 6) ltac:(lra)).
  split; [exact E |]. split; [rewrite E, S; lra |]. split.
  - intro e. rewrite S in E. assert (z : ln (1 + (coord x 2 + coord x 3 + coord x 4 + coord x 5 + coord x 6)) = 0) by lra.
    apply L0 in z; [| lra]. intros j hj. assert (J : j = 2%nat \/ j = 3%nat \/ j = 4%nat \/ j = 5%nat \/ j = 6%nat) by lia.
    destruct J as [-> | [-> | [-> | [-> | ->]]]]; lra.
  - intro z. rewrite S, !z in E by lia. rewrite !Rplus_0_r, ln_1 in E. lra.
Qed.
Print Assumptions C94_detpep8d_misses_terms.
Example C94_detpep8d_ex : dette_pepelyshev [0; 0; 0; 1; 0; 0; 0; 0] - detpep8d [0; 0; 0; 1; 0; 0; 0; 0] = 22 * ln 2.
Proof.
  assert (pos : forall j, 0 <= coord [0; 0; 0; 1; 0; 0; 0; 0] j) by (intro j; unfold coord; do 9 (destruct j as [| j]; [cbn; lra |]); destruct j; cbn; lra).
  rewrite (proj1 (C94_detpep8d_misses_terms _ pos)). unfold sum_f, coord. cbn -[INR]. cbn [INR].
  replace (1 + (0 + 0 + 1)) with 2 by ring. ring_simplify. repeat match goal with |- context[ln ?t] => lazymatch t with 2 => fail | _ => replace t with 2 by ring end end. ring.
Qed.

(** wave: documented with 3 x1, implemented with 3 x2; they agree exactly on the diagonal *)
Definition wave_doc (x : list R) : R :=
  exp (18 / 10 * (coord x 0 + coord x 1)) + 3 * coord x 0 + 6 * (coord x 1)^2 + 3 * sin (4 * PI * coord x 0).
Theorem C94_wave x1 x2 : wave [x1; x2] - wave_doc [x1; x2] = 3 * (x2 - x1) /\ (wave [x1; x2] = wave_doc [x1; x2] <-> x1 = x2).
Proof. unfold wave, wave_doc, coord. cbn [nth]. split; [ring | split; intro; [lra | subst; ring]]. Qed.
Print Assumptions C94_wave.

(** Hartmann: the weighted sum of bumps is positive and below the sum of the weights 8.4 *)
Lemma h_inner_nonneg d x ii : List.Forall (fun v => 0 <= v) (nth ii h_A []) ->
  0 <= fold_left (fun inner jj => inner + nth jj (nth ii h_A []) 0 * (coord x jj - nth jj (nth ii h_P []) 0)^2) (seq 0 d) 0.
Proof.
  intro h. assert (G : forall l acc, 0 <= acc -> 0 <= fold_left (fun inner jj => inner + nth jj (nth ii h_A []) 0 * (coord x jj - nth jj (nth ii h_P []) 0)^2) l acc).
  { induction l as [| j l IH]; intros acc ha; [exact ha |]. cbn [fold_left]. apply IH. apply Rplus_le_le_0_compat; [exact ha |]. apply Rmult_le_pos; [| apply pow2_ge_0].
    destruct (Nat.lt_ge_cases j (length (nth ii h_A []))) as [hj | hj]; [| rewrite nth_overflow by exact hj; lra]. rewrite Forall_forall in h. apply h. now apply nth_In. }
  apply G. lra.
Qed.
Definition h_inner (d : nat) (x : list R) (ii : nat) : R :=
  fold_left (fun inner jj => inner + nth jj (nth ii h_A []) 0 * (coord x jj - nth jj (nth ii h_P []) 0)^2) (seq 0 d) 0.
Lemma h_outer_sum d x : h_outer d x = exp (- h_inner d x 0) + 12 / 10 * exp (- h_inner d x 1) + 3 * exp (- h_inner d x 2) + 32 / 10 * exp (- h_inner d x 3).
Proof. unfold h_outer. cbn [seq fold_left]. fold (h_inner d x 0) (h_inner d x 1) (h_inner d x 2) (h_inner d x 3). cbn [h_alpha nth]. ring. Qed.
Lemma h_outer_range d x : 0 < h_outer d x <= 84 / 10.
Proof.
  assert (F : forall ii, List.Forall (fun v => 0 <= v) (nth ii h_A [])).
  { intro ii. do 4 (destruct ii as [| ii]; [cbn; repeat (constructor; [lra |]); constructor |]). destruct ii; constructor. }
  assert (B : forall ii, 0 < exp (- h_inner d x ii) <= 1).
  { intro ii. split; [apply exp_pos |]. assert (h := h_inner_nonneg d x ii (F ii)). fold (h_inner d x ii) in h. rewrite <- exp_0. destruct h as [h | <-]; [left; apply exp_increasing; lra | rewrite Ropp_0; lra]. }
  rewrite h_outer_sum. assert (b0 := B 0%nat). assert (b1 := B 1%nat). assert (b2 := B 2%nat). assert (b3 := B 3%nat). lra.
Qed.
Theorem C94_hartmann_range x : -84 / 10 <= hartmann6 x < 0 /\ (11 / 10 - 84 / 10) / (839 / 1000) <= hartmann4 x < 11 / 10 / (839 / 1000).
Proof.
  unfold hartmann6, hartmann4. assert (h6 := h_outer_range 6 x). assert (h4 := h_outer_range 4 x). repeat split; lra.
Qed.
Print Assumptions C94_hartmann_range.

Lemma exp_lower (u : R) : 0 <= u -> 1 + u + u^2 / 2 <= exp u.
Proof.
  intro h. assert (D : forall t, 0 <= t -> 1 + t <= exp t) by (intros t [ht | <-]; [left; apply exp_ineq1; lra | rewrite exp_0; lra]).
  set (f := fun t => exp t - (1 + t + t^2 / 2)). assert (f0 : f 0 = 0) by (unfold f; rewrite exp_0; field).
  destruct h as [h | <-]; [| rewrite exp_0; lra].
  destruct (MVT_gen f 0 u (fun t => exp t - (1 + t))) as [c [hc e]].
  - intros t _. unfold f. auto_derive; [exact I | field].
  - intros t _. apply continuity_pt_filterlim, (ex_derive_continuous f). unfold f. auto_derive. exact I.
  - rewrite Rmin_left, Rmax_right in hc by lra. specialize (D c ltac:(lra)). rewrite f0 in e. assert (0 <= (exp c - (1 + c)) * (u - 0)) by (apply Rmult_le_pos; lra). unfold f in e. lra.
Qed.
Lemma exp_pow_n (t : R) n : exp t ^ n = exp (t * INR n).
Proof. induction n as [| n IH]; [cbn; now rewrite Rmult_0_r, exp_0 |]. rewrite S_INR. cbn [pow]. rewrite IH, <- exp_plus. f_equal. ring. Qed.
Lemma exp_neg_upper (u b : R) (n : nat) : 0 <= u -> (0 < n)%nat -> 1 <= b * (1 + u / INR n + (u / INR n)^2 / 2)^n -> 0 <= b -> exp (- u) <= b.
Proof.
  intros hu hn h hb. assert (n0 : 0 < INR n) by now apply lt_0_INR. assert (q : 0 <= u / INR n) by (apply Rmult_le_pos; [exact hu | left; now apply Rinv_0_lt_compat]).
  assert (L : (1 + u / INR n + (u / INR n)^2 / 2)^n <= exp u).
  { replace (exp u) with (exp (u / INR n) ^ n) by (rewrite exp_pow_n; f_equal; field; lra). apply pow_incr. split; [pose proof (pow2_ge_0 (u / INR n)); lra | now apply exp_lower]. }
  rewrite exp_Ropp. apply Rmult_le_reg_r with (exp u); [apply exp_pos |]. rewrite Rinv_l by (apply Rgt_not_eq, exp_pos).
  eapply Rle_trans; [exact h |]. apply Rmult_le_compat_l; [exact hb | exact L].
Qed.
(** the docstring of hartmann4 announces the minimum -3.86278 at this point; the value there is above -3.25 *)
Theorem C94_hartmann4_documented_minimum_refuted :
  let xs := [20169 / 100000; 15001 / 100000; 47687 / 100000; 27533 / 100000] in
  -325 / 100 < hartmann4 xs /\ hartmann4 xs <> -386278 / 100000.
Proof.
  intro xs. assert (M : -325 / 100 < hartmann4 xs); [| split; [exact M | lra]].
  unfold hartmann4. rewrite h_outer_sum.
  assert (I0 : 2401 / 10000 <= h_inner 4 xs 0) by (unfold h_inner, xs, coord; cbn; lra).
  assert (I1 : 2822 / 1000 <= h_inner 4 xs 1) by (unfold h_inner, xs, coord; cbn; lra).
  assert (I2 : 314 / 10000 <= h_inner 4 xs 2) by (unfold h_inner, xs, coord; cbn; lra).
  assert (I3 : 5 <= h_inner 4 xs 3) by (unfold h_inner, xs, coord; cbn; lra).
  assert (mono : forall u v, u <= v -> exp (- v) <= exp (- u)) by (intros u v [h | ->]; [left; apply exp_increasing; lra | lra]).
  assert (E0 := mono _ _ I0). assert (E1 := mono _ _ I1). assert (E2 := mono _ _ I2). assert (E3 := mono _ _ I3).
  assert (B0 : exp (- (2401 / 10000)) <= 789 / 1000) by (apply (exp_neg_upper _ _ 1); [lra | lia | change (INR 1) with 1; cbn [pow]; lra | lra]).
  assert (B1 : exp (- (2822 / 1000)) <= 63 / 1000) by (apply (exp_neg_upper _ _ 8); [lra | lia | replace (INR 8) with 8 by (cbn; ring); cbn [pow]; lra | lra]).
  assert (B2 : exp (- (314 / 10000)) <= 9692 / 10000) by (apply (exp_neg_upper _ _ 1); [lra | lia | change (INR 1) with 1; cbn [pow]; lra | lra]).
  assert (B3 : exp (- (5)) <= 9 / 1000) by (apply (exp_neg_upper _ _ 8); [lra | lia | replace (INR 8) with 8 by (cbn; ring); cbn [pow]; lra | lra]).
  lra.
Qed.
Print Assumptions C94_hartmann4_documented_minimum_refuted.

(** alternating Taylor bounds of exp (- t) *)
Definition tay6 (t : R) := 1 - t + t^2 / 2 - t^3 / 6 + t^4 / 24 - t^5 / 120 + t^6 / 720.
Definition tay7 (t : R) := tay6 t - t^7 / 5040.
Lemma mono_step (f f' : R -> R) : f 0 = 0 -> (forall t, is_derive f t (f' t)) -> (forall t, 0 <= t -> 0 <= f' t) -> forall t, 0 <= t -> 0 <= f t.
Proof.
  intros f0 d h t ht. destruct ht as [ht | <-]; [| lra]. destruct (MVT_gen f 0 t f') as [c [hc e]].
  - intros u _. apply d.
  - intros u _. apply continuity_pt_filterlim, (ex_derive_continuous f). eexists. apply d.
  - rewrite Rmin_left, Rmax_right in hc by lra. specialize (h c ltac:(lra)). rewrite f0 in e. nra.
Qed.
Lemma exp_neg_taylor (t : R) : 0 <= t -> tay7 t <= exp (- t) <= tay6 t.
Proof.
  intro ht.
  assert (D0 : forall t, 0 <= t -> 0 <= 1 - exp (- t)) by (intros u hu; assert (exp (- u) <= 1); [rewrite <- exp_0; destruct hu as [hu | <-]; [left; apply exp_increasing; lra | rewrite Ropp_0; lra] | lra]).
  assert (D1 : forall t, 0 <= t -> 0 <= exp (- t) - (1 - t)) by (apply (mono_step _ (fun t => 1 - exp (- t))); [rewrite Ropp_0, exp_0; field | intro u; auto_derive; [exact I | field] | exact D0]).
  assert (D2 : forall t, 0 <= t -> 0 <= (1 - t + t^2 / 2) - exp (- t)) by (apply (mono_step _ (fun t => exp (- t) - (1 - t))); [rewrite Ropp_0, exp_0; field | intro u; auto_derive; [exact I | field] | exact D1]).
  assert (D3 : forall t, 0 <= t -> 0 <= exp (- t) - (1 - t + t^2 / 2 - t^3 / 6)) by (apply (mono_step _ (fun t => (1 - t + t^2 / 2) - exp (- t))); [rewrite Ropp_0, exp_0; field | intro u; auto_derive; [exact I | field] | exact D2]).
  assert (D4 : forall t, 0 <= t -> 0 <= (1 - t + t^2 / 2 - t^3 / 6 + t^4 / 24) - exp (- t)) by (apply (mono_step _ (fun t => exp (- t) - (1 - t + t^2 / 2 - t^3 / 6))); [rewrite Ropp_0, exp_0; field | intro u; auto_derive; [exact I | field] | exact D3]).
  assert (D5 : forall t, 0 <= t -> 0 <= exp (- t) - (1 - t + t^2 / 2 - t^3 / 6 + t^4 / 24 - t^5 / 120)) by (apply (mono_step _ (fun t => (1 - t + t^2 / 2 - t^3 / 6 + t^4 / 24) - exp (- t))); [rewrite Ropp_0, exp_0; field | intro u; auto_derive; [exact I | field] | exact D4]).
  assert (D6 : forall t, 0 <= t -> 0 <= tay6 t - exp (- t)) by (unfold tay6; apply (mono_step _ (fun t => exp (- t) - (1 - t + t^2 / 2 - t^3 / 6 + t^4 / 24 - t^5 / 120))); [rewrite Ropp_0, exp_0; field | intro u; auto_derive; [exact I | field] | exact D5]).
  assert (D7 : forall t, 0 <= t -> 0 <= exp (- t) - tay7 t) by (unfold tay7; apply (mono_step _ (fun t => tay6 t - exp (- t))); [unfold tay6; rewrite Ropp_0, exp_0; field | intro u; unfold tay6; auto_derive; [exact I | field] | exact D6]).
  specialize (D6 t ht). specialize (D7 t ht). lra.
Qed.
Lemma exp_neg_8 (u l h : R) : 0 <= u -> 0 <= l -> l <= tay7 (u / 8) -> tay6 (u / 8) <= h -> l^8 <= exp (- u) <= h^8.
Proof.
  intros hu hl h1 h2. replace (exp (- u)) with (exp (- (u / 8)) ^ 8) by (rewrite exp_pow_n; f_equal; cbn; field).
  assert (T := exp_neg_taylor (u / 8) ltac:(lra)). assert (e := exp_pos (- (u / 8))). split; apply pow_incr; lra.
Qed.
(** the documented minimum of hartmann6 is attained, up to 0.0002, at the minimiser of the literature *)
Theorem C94_hartmann6_documented_minimum :
  let xs := [20169 / 100000; 150011 / 1000000; 476874 / 1000000; 275332 / 1000000; 311652 / 1000000; 6573 / 10000] in
  Rabs (hartmann6 xs - -332237 / 100000) <= 2 / 10000.
Proof.
  intro xs. unfold hartmann6. rewrite h_outer_sum.
  assert (I0 : 89320 / 100000 <= h_inner 6 xs 0 <= 89321 / 100000) by (unfold h_inner, xs, coord; cbn; lra).
  assert (I1 : 48161 / 10000 <= h_inner 6 xs 1 <= 48162 / 10000) by (unfold h_inner, xs, coord; cbn; lra).
  assert (I2 : 32774 / 1000000 <= h_inner 6 xs 2 <= 32776 / 1000000) by (unfold h_inner, xs, coord; cbn; lra).
  assert (I3 : 112 / 10 <= h_inner 6 xs 3) by (unfold h_inner, xs, coord; cbn; lra).
  assert (mono : forall u v, u <= v -> exp (- v) <= exp (- u)) by (intros u v [h | ->]; [left; apply exp_increasing; lra | lra]).
  assert (E0 := mono _ _ (proj1 I0)). assert (E1 := mono _ _ (proj1 I1)). assert (E2 := mono _ _ (proj1 I2)). assert (E3 := mono _ _ I3).
  assert (F0 := mono _ _ (proj2 I0)). assert (F1 := mono _ _ (proj2 I1)). assert (F2 := mono _ _ (proj2 I2)). assert (F3 := exp_pos (- h_inner 6 xs 3)).
  assert (B0 := exp_neg_8 (89320 / 100000) 0 (8943574 / 10000000) ltac:(lra) ltac:(lra) ltac:(unfold tay7, tay6; lra) ltac:(unfold tay6; lra)).
  assert (B1 := exp_neg_8 (48161 / 10000) 0 (5477137 / 10000000) ltac:(lra) ltac:(lra) ltac:(unfold tay7, tay6; lra) ltac:(unfold tay6; lra)).
  assert (B2 := exp_neg_8 (32774 / 1000000) 0 (9959118 / 10000000) ltac:(lra) ltac:(lra) ltac:(unfold tay7, tay6; lra) ltac:(unfold tay6; lra)).
  assert (B3 := exp_neg_8 (112 / 10) 0 (2483725 / 10000000) ltac:(lra) ltac:(lra) ltac:(unfold tay7, tay6; lra) ltac:(unfold tay6; lra)).
  assert (C0 := exp_neg_8 (89321 / 100000) (8943560 / 10000000) 1 ltac:(lra) ltac:(lra) ltac:(unfold tay7, tay6; lra) ltac:(unfold tay6; lra)).
  assert (C1 := exp_neg_8 (48162 / 10000) (5477009 / 10000000) 1 ltac:(lra) ltac:(lra) ltac:(unfold tay7, tay6; lra) ltac:(unfold tay6; lra)).
  assert (C2 := exp_neg_8 (32776 / 1000000) (9959112 / 10000000) 1 ltac:(lra) ltac:(lra) ltac:(unfold tay7, tay6; lra) ltac:(unfold tay6; lra)).
  apply Rabs_le. cbn [pow] in *. lra.
Qed.
Print Assumptions C94_hartmann6_documented_minimum.

(** two bumps: a periodic function minus a line *)
Theorem C94_twobumps_quasi_periodic x : twobumps (x + 2 * PI / 5) = twobumps x - 7 / 10 * (2 * PI / 5).
Proof.
  unfold twobumps. replace (5 * (x + 2 * PI / 5) + 1) with (5 * x + 1 + 2 * INR 1 * PI) by (cbn; field).
  replace (10 * (x + 2 * PI / 5)) with (10 * x + 2 * INR 2 * PI) by (cbn; field). rewrite !sin_period. ring.
Qed.
Print Assumptions C94_twobumps_quasi_periodic.

(** * C95: the variance decomposition of the Ishigami function under the uniform law on [-pi, pi]^3 *)
Definition avg (g : R -> R) : R := RInt g (- PI) PI / (2 * PI).
Lemma avg_by (g G : R -> R) (v : R) : (forall t, is_derive G t (g t)) -> (forall t, continuous g t) -> G PI - G (- PI) = v * (2 * PI) -> avg g = v.
Proof.
  intros hd hc e. pose proof PI_RGT_0. unfold avg. rewrite (is_RInt_unique g (- PI) PI (v * (2 * PI))); [field; lra |].
  rewrite <- e. apply (is_RInt_derive G g (- PI) PI); intros t _; [apply hd | apply hc].
Qed.
Lemma avg_ext (f g : R -> R) : (forall t, f t = g t) -> avg f = avg g.
Proof. intro h. unfold avg. f_equal. apply RInt_ext. intros; apply h. Qed.
Lemma avg_poly4 (A B : R) : avg (fun t => A + B * t^4) = A + B * PI^4 / 5.
Proof.
  apply (avg_by _ (fun t => A * t + B * t^5 / 5)).
  - intro t. auto_derive; [exact I | field].
  - intro t. apply (ex_derive_continuous (fun t => A + B * t^4)). auto_derive. exact I.
  - field.
Qed.
Lemma avg_poly8 (A B : R) : avg (fun t => (A + B * t^4)^2) = A^2 + 2 * A * B * PI^4 / 5 + B^2 * PI^8 / 9.
Proof.
  apply (avg_by _ (fun t => A^2 * t + 2 * A * B * t^5 / 5 + B^2 * t^9 / 9)).
  - intro t. auto_derive; [exact I | field].
  - intro t. apply (ex_derive_continuous (fun t => (A + B * t^4)^2)). auto_derive. exact I.
  - field.
Qed.
Lemma sin_mPI : sin (- PI) = 0. Proof. rewrite sin_neg, sin_PI. ring. Qed.
Lemma cos_mPI : cos (- PI) = -1. Proof. rewrite cos_neg. apply cos_PI. Qed.
(** A + B sin^2 *)
Lemma avg_sin2 (A B C : R) : avg (fun t => A + B * sin t + C * (sin t)^2) = A + C / 2.
Proof.
  apply (avg_by _ (fun t => A * t - B * cos t + C * (t - sin t * cos t) / 2)).
  - intro t. auto_derive; [exact I |]. pose proof (sin2_cos2 t) as e. unfold Rsqr in e. set (s := sin t) in *. set (c := cos t) in *. assert (e2 : c * c = 1 - s * s) by lra.
    transitivity (A + B * s + C * (1 + s * s - c * c) / 2); [field | rewrite e2; field].
  - intro t. apply (ex_derive_continuous (fun t => A + B * sin t + C * (sin t)^2)). auto_derive. exact I.
  - rewrite sin_mPI, cos_mPI, sin_PI, cos_PI. field.
Qed.
(** square of A + B (sin^2 - 1/2) *)
Lemma avg_sin4 (A B : R) : avg (fun t => A + B * ((sin t)^2 - 1 / 2)^2) = A + B / 8.
Proof.
  apply (avg_by _ (fun t => A * t + B * (t / 8 + (2 * sin t * cos t) * (1 - 2 * (sin t)^2) / 16))).
  - intro t. auto_derive; [exact I |]. pose proof (sin2_cos2 t) as e. unfold Rsqr in e.
    set (s := sin t) in *. set (c := cos t) in *. assert (e2 : c * c = 1 - s * s) by lra.
    transitivity (A + B * (1 / 8 + (2 * (c * c - s * s) * (1 - 2 * s^2) - 8 * s^2 * (c * c)) / 16)); [field | rewrite e2; field].
  - intro t. apply (ex_derive_continuous (fun t => A + B * ((sin t)^2 - 1 / 2)^2)). auto_derive. exact I.
  - rewrite sin_mPI, cos_mPI, sin_PI, cos_PI. field.
Qed.

(** conditional means given one variable; the third variable alone explains nothing *)
Theorem C95_main_effects :
  avg (fun x1 => avg (fun x2 => avg (fun x3 => ishigami [x1; x2; x3]))) = 5 / 2 /\
  (forall x1, avg (fun x2 => avg (fun x3 => ishigami [x1; x2; x3])) = 5 / 2 + (1 + 1 / 10 * PI^4 / 5) * sin x1) /\
  (forall x2, avg (fun x1 => avg (fun x3 => ishigami [x1; x2; x3])) = 5 * (sin x2)^2) /\
  (forall x3, avg (fun x1 => avg (fun x2 => ishigami [x1; x2; x3])) = 5 / 2).
Proof.
  assert (E3 : forall x1 x2, avg (fun x3 => ishigami [x1; x2; x3]) = sin x1 + 5 * (sin x2)^2 + 1 / 10 * sin x1 * PI^4 / 5).
  { intros x1 x2. rewrite (avg_ext _ (fun t => (sin x1 + 5 * (sin x2)^2) + (1 / 10 * sin x1) * t^4)) by (intro t; unfold ishigami, coord; cbn [nth]; ring). now rewrite avg_poly4. }
  assert (E1 : forall x1, avg (fun x2 => avg (fun x3 => ishigami [x1; x2; x3])) = 5 / 2 + (1 + 1 / 10 * PI^4 / 5) * sin x1).
  { intro x1. rewrite (avg_ext _ (fun t => (1 + 1 / 10 * PI^4 / 5) * sin x1 + 0 * sin t + 5 * (sin t)^2)) by (intro t; rewrite E3; field). rewrite avg_sin2. field. }
  split; [| split; [exact E1 | split]].
  - rewrite (avg_ext _ (fun t => 5 / 2 + (1 + 1 / 10 * PI^4 / 5) * sin t + 0 * (sin t)^2)) by (intro t; rewrite E1; field). rewrite avg_sin2. field.
  - intro x2. rewrite (avg_ext _ (fun t => 5 * (sin x2)^2 + (1 + 1 / 10 * PI^4 / 5) * sin t + 0 * (sin t)^2)) by (intro t; rewrite E3; field). rewrite avg_sin2. field.
  - intro x3. rewrite (avg_ext _ (fun t => 5 / 2 + (1 + 1 / 10 * x3^4) * sin t + 0 * (sin t)^2)).
    + rewrite avg_sin2. field.
    + intro t. rewrite (avg_ext _ (fun u => (1 + 1 / 10 * x3^4) * sin t + 0 * sin u + 5 * (sin u)^2)) by (intro u; unfold ishigami, coord; cbn [nth]; ring). rewrite avg_sin2. field.
Qed.
Print Assumptions C95_main_effects.
(** total variance, with a = 5 and b = 1/10: a^2/8 + b pi^4/5 + b^2 pi^8/18 + 1/2 *)
Theorem C95_variance :
  avg (fun x1 => avg (fun x2 => avg (fun x3 => (ishigami [x1; x2; x3] - 5 / 2)^2))) =
  5^2 / 8 + 1 / 10 * PI^4 / 5 + (1 / 10)^2 * PI^8 / 18 + 1 / 2.
Proof.
  set (b := 1 / 10). set (k := 1 + 2 * b * PI^4 / 5 + b^2 * PI^8 / 9). set (m := 1 + b * PI^4 / 5).
  assert (E3 : forall x1 x2, avg (fun x3 => (ishigami [x1; x2; x3] - 5 / 2)^2) =
     (sin x1)^2 * k + 2 * m * sin x1 * (5 * ((sin x2)^2 - 1 / 2)) + 25 * ((sin x2)^2 - 1 / 2)^2).
  { intros x1 x2. rewrite (avg_ext _ (fun t => ((sin x1 + 5 * (sin x2)^2 - 5 / 2) + (b * sin x1) * t^4)^2)) by (intro t; unfold ishigami, coord, b; cbn [nth]; ring).
    rewrite avg_poly8. unfold k, m. field. }
  assert (E1 : forall x1, avg (fun x2 => avg (fun x3 => (ishigami [x1; x2; x3] - 5 / 2)^2)) = (sin x1)^2 * k + 25 / 8).
  { intro x1. rewrite (avg_ext _ (fun t => (((sin x1)^2 * k - 5 * m * sin x1) + 0 * sin t + (10 * m * sin x1) * (sin t)^2) + (0 + 25 * ((sin t)^2 - 1 / 2)^2))) by (intro t; rewrite E3; field).
    set (f := fun t : R => ((sin x1)^2 * k - 5 * m * sin x1) + 0 * sin t + (10 * m * sin x1) * (sin t)^2). set (g := fun t : R => 0 + 25 * ((sin t)^2 - 1 / 2)^2).
    transitivity (avg f + avg g).
    - unfold avg. rewrite <- Rmult_plus_distr_r || idtac. unfold Rdiv. rewrite <- Rmult_plus_distr_r. f_equal.
      assert (cf : ex_RInt f (- PI) PI) by (apply (ex_RInt_continuous (V := R_CompleteNormedModule)); intros t _; apply (ex_derive_continuous f); unfold f; auto_derive; exact I).
      assert (cg : ex_RInt g (- PI) PI) by (apply (ex_RInt_continuous (V := R_CompleteNormedModule)); intros t _; apply (ex_derive_continuous g); unfold g; auto_derive; exact I).
      exact (RInt_plus (V := R_CompleteNormedModule) f g (- PI) PI cf cg).
    - unfold f, g. rewrite avg_sin2, avg_sin4. field. }
  rewrite (avg_ext _ (fun t => 25 / 8 + 0 * sin t + k * (sin t)^2)) by (intro t; rewrite E1; field). rewrite avg_sin2. unfold k, b. field.
Qed.
Print Assumptions C95_variance.
Example C95_ex : ishigami [PI / 2; PI / 2; 0] = 6.
Proof. unfold ishigami, coord. cbn [nth]. rewrite sin_PI2. field. Qed.

(** * C96: the borehole function *)
Definition bore (rw r Tu Hu Tl Hl L Kw : R) : R := borehole [rw; r; Tu; Hu; Tl; Hl; L; Kw].
Definition resistance (rw r Tu Tl L Kw : R) : R := ln (r / rw) * (/ Tu + / Tl) + 2 * L / (rw^2 * Kw).
Lemma ln_ratio rw r : 0 < rw < r -> 0 < ln (r / rw).
Proof.
  intro h. rewrite <- ln_1. apply ln_increasing; [lra |]. apply Rmult_lt_reg_r with rw; [lra |]. unfold Rdiv. rewrite Rmult_assoc, Rinv_l; lra.
Qed.
(** flow = 2 pi times the difference of heads over a resistance *)
Theorem C96_flow_over_resistance rw r Tu Hu Tl Hl L Kw : 0 < rw < r -> 0 < Tu -> 0 < Tl -> 0 < L -> 0 < Kw ->
  bore rw r Tu Hu Tl Hl L Kw = 2 * PI * (Hu - Hl) / resistance rw r Tu Tl L Kw /\ 0 < resistance rw r Tu Tl L Kw.
Proof.
  intros h1 h2 h3 h4 h5. assert (l := ln_ratio rw r h1).
  assert (p : 0 < resistance rw r Tu Tl L Kw).
  { unfold resistance. assert (0 < / Tu) by now apply Rinv_0_lt_compat. assert (0 < / Tl) by now apply Rinv_0_lt_compat.
    assert (0 < ln (r / rw) * (/ Tu + / Tl)) by (apply Rmult_lt_0_compat; lra). assert (0 < rw^2 * Kw) by (apply Rmult_lt_0_compat; [apply pow_lt; lra | lra]).
    assert (0 < 2 * L / (rw^2 * Kw)) by (apply Rdiv_lt_0_compat; lra). lra. }
  split; [| exact p]. unfold bore, borehole, coord. cbn [nth]. unfold resistance in *. set (q := ln (r / rw)) in *.
  field. repeat split; try lra.
  - assert (0 < q * (Tl + Tu) * (rw^2 * Kw) + 2 * L * Tu * Tl); [| nra].
    assert (0 < rw^2) by (apply pow_lt; lra). assert (0 < q * (Tl + Tu) * (rw ^ 2 * Kw)) by (repeat apply Rmult_lt_0_compat; lra). assert (0 < 2 * L * Tu * Tl) by (repeat apply Rmult_lt_0_compat; lra). lra.
Qed.
Print Assumptions C96_flow_over_resistance.

Lemma resistance_mono rw r Tu Tl L Kw rw' r' Tu' Tl' L' Kw' : 0 < rw <= rw' -> rw' < r' -> r' <= r -> 0 < Tu <= Tu' -> 0 < Tl <= Tl' -> 0 < L' <= L -> 0 < Kw <= Kw' ->
  resistance rw' r' Tu' Tl' L' Kw' <= resistance rw r Tu Tl L Kw.
Proof.
  intros h1 h2 h3 h4 h5 h6 h7. unfold resistance. apply Rplus_le_compat.
  - apply Rmult_le_compat.
    + left. apply ln_ratio. lra.
    + assert (0 < / Tu') by (apply Rinv_0_lt_compat; lra). assert (0 < / Tl') by (apply Rinv_0_lt_compat; lra). lra.
    + assert (e : r' / rw' <= r / rw).
      { unfold Rdiv. apply Rmult_le_compat; [lra | left; apply Rinv_0_lt_compat; lra | lra | apply Rinv_le_contravar; lra]. }
      destruct e as [e | ->]; [left; apply ln_increasing; [apply Rdiv_lt_0_compat; lra | exact e] | lra].
    + apply Rplus_le_compat; apply Rinv_le_contravar; lra.
  - unfold Rdiv. assert (0 < rw^2) by (apply pow_lt; lra). assert (0 < rw^2 * Kw) by (apply Rmult_lt_0_compat; lra).
    assert (rw^2 <= rw'^2) by (apply pow_incr; lra). assert (rw^2 * Kw <= rw'^2 * Kw') by (apply Rmult_le_compat; lra).
    apply Rmult_le_compat; [lra | left; apply Rinv_0_lt_compat; lra | lra | apply Rinv_le_contravar; lra].
Qed.
(** the flow increases with the radius of the hole, the transmissivities, the upper head and the conductivity; it decreases with the
    radius of influence, the lower head and the length *)
Theorem C96_monotone rw r Tu Hu Tl Hl L Kw rw' r' Tu' Hu' Tl' Hl' L' Kw' :
  0 < rw <= rw' -> rw' < r' -> r' <= r -> 0 < Tu <= Tu' -> 0 < Tl <= Tl' -> 0 < L' <= L -> 0 < Kw <= Kw' -> Hl <= Hu <= Hu' -> Hl' <= Hl ->
  bore rw r Tu Hu Tl Hl L Kw <= bore rw' r' Tu' Hu' Tl' Hl' L' Kw' /\
  (Hl < Hu -> (Hu < Hu' \/ Hl' < Hl \/ resistance rw' r' Tu' Tl' L' Kw' < resistance rw r Tu Tl L Kw) ->
   bore rw r Tu Hu Tl Hl L Kw < bore rw' r' Tu' Hu' Tl' Hl' L' Kw').
Proof.
  intros h1 h2 h3 h4 h5 h6 h7 h8 h9. assert (M := resistance_mono _ _ _ _ _ _ _ _ _ _ _ _ h1 h2 h3 h4 h5 h6 h7).
  destruct (C96_flow_over_resistance rw r Tu Hu Tl Hl L Kw) as [e p]; [lra | lra | lra | lra | lra |].
  destruct (C96_flow_over_resistance rw' r' Tu' Hu' Tl' Hl' L' Kw') as [e' p']; [lra | lra | lra | lra | lra |].
  rewrite e, e'. pose proof PI_RGT_0 as pi. set (Q := resistance rw r Tu Tl L Kw) in *. set (Q' := resistance rw' r' Tu' Tl' L' Kw') in *.
  assert (i : / Q <= / Q') by (apply Rinv_le_contravar; lra). assert (i0 : 0 < / Q) by (apply Rinv_0_lt_compat; lra). unfold Rdiv. split.
  - apply Rmult_le_compat; [apply Rmult_le_pos; lra | lra | apply Rmult_le_compat_l; lra | exact i].
  - intros hl [s | [s | s]].
    + apply Rlt_le_trans with (2 * PI * (Hu' - Hl') * / Q); [apply Rmult_lt_compat_r; [exact i0 |]; apply Rmult_lt_compat_l; lra | apply Rmult_le_compat_l; [apply Rmult_le_pos; lra | exact i]].
    + apply Rlt_le_trans with (2 * PI * (Hu' - Hl') * / Q); [apply Rmult_lt_compat_r; [exact i0 |]; apply Rmult_lt_compat_l; lra | apply Rmult_le_compat_l; [apply Rmult_le_pos; lra | exact i]].
    + assert (/ Q < / Q') by (apply Rinv_lt_contravar; [apply Rmult_lt_0_compat; lra | lra]).
      apply Rlt_le_trans with (2 * PI * (Hu - Hl) * / Q'); [apply Rmult_lt_compat_l; [apply Rmult_lt_0_compat; lra | lra] | apply Rmult_le_compat_r; [lra | apply Rmult_le_compat_l; lra]].
Qed.
Print Assumptions C96_monotone.
(** so over the documented ranges the extreme flows are at two opposite corners *)
Theorem C96_extremes rw r Tu Hu Tl Hl L Kw : 5 / 100 <= rw <= 15 / 100 -> 100 <= r <= 50000 -> 63070 <= Tu <= 115600 -> 990 <= Hu <= 1110 ->
  631 / 10 <= Tl <= 116 -> 700 <= Hl <= 820 -> 1120 <= L <= 1680 -> 9855 <= Kw <= 12045 ->
  bore (5 / 100) 50000 63070 990 (631 / 10) 820 1680 9855 <= bore rw r Tu Hu Tl Hl L Kw <= bore (15 / 100) 100 115600 1110 116 700 1120 12045.
Proof. intros h1 h2 h3 h4 h5 h6 h7 h8. split; apply C96_monotone; lra. Qed.
Print Assumptions C96_extremes.
Example C96_ex : 0 < bore 1 (exp 1) 1 3 1 1 1 1 /\ bore 1 (exp 1) 1 3 1 1 1 1 = PI.
Proof.
  assert (e1 : 1 < exp 1) by (pose proof (exp_ineq1 1); lra). destruct (C96_flow_over_resistance 1 (exp 1) 1 3 1 1 1 1) as [e _]; [lra | lra | lra | lra | lra |].
  assert (bore 1 (exp 1) 1 3 1 1 1 1 = PI); [| split; [rewrite H; apply PI_RGT_0 | exact H]].
  rewrite e. unfold resistance. replace (exp 1 / 1) with (exp 1) by field. rewrite ln_exp. field.
Qed.
