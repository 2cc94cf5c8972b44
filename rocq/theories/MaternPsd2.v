(* MaternPsd2.v: the half-integer Matern kernel as a limit of Gaussian mixtures
   (continued from MaternPsd.v). *)
From Coq Require Import Reals List Lia Lra Psatz.
From Coquelicot Require Import Coquelicot.
From Verif Require Import MaternModel MaternProofs MaternPsd.
Local Open Scope R_scope.

(* unnormalised error function *)
Definition gs (t : R) : R := exp (- t ^ 2).
Definition erfR (w : R) : R := RInt gs 0 w.

Lemma gs_cont t : continuous gs t.
Proof. apply (ex_derive_continuous gs). unfold gs. auto_derive. trivial. Qed.
Lemma gs_ex a b : ex_RInt gs a b.
Proof. apply (ex_RInt_continuous (V := R_CompleteNormedModule)). intros; apply gs_cont. Qed.
Lemma gs_pos t : 0 < gs t. Proof. apply exp_pos. Qed.
Lemma erf_derive w : is_derive erfR w (gs w).
Proof.
  apply (is_derive_RInt (V := R_NormedModule) gs erfR 0 w).
  - exists (mkposreal 1 Rlt_0_1). intros y _. apply (RInt_correct (V := R_CompleteNormedModule)), gs_ex.
  - apply gs_cont.
Qed.
Lemma erf_incr a b : a <= b -> erfR a <= erfR b.
Proof.
  intros H. destruct (Req_dec a b) as [->|N]; [lra|].
  destruct (MVT_cor2 erfR gs a b) as [c [E Hc]]; [lra|intros; apply is_derive_Reals, erf_derive|].
  assert (P := gs_pos c). nra.
Qed.
Lemma erf_0 : erfR 0 = 0.
Proof. unfold erfR. apply (RInt_point (V := R_CompleteNormedModule)). Qed.
Lemma erf_pos w : 0 < w -> 0 < erfR w.
Proof.
  intros H. destruct (MVT_cor2 erfR gs 0 w) as [c [E Hc]]; [lra|intros; apply is_derive_Reals, erf_derive|].
  rewrite erf_0 in E. assert (P := gs_pos c). nra.
Qed.
Lemma erf_odd w : erfR (- w) = - erfR w.
Proof.
  assert (D : forall x, is_derive (fun x => erfR x + erfR (- x)) x 0).
  { intros x. evar_last.
    - apply (is_derive_plus (V := R_NormedModule)); [apply erf_derive|].
      apply (is_derive_comp (V := R_NormedModule) erfR Ropp); [apply erf_derive|].
      auto_derive; [trivial|reflexivity].
    - unfold plus, scal, mult; simpl. unfold mult; simpl. unfold gs.
      replace ((- x) ^ 2) with (x ^ 2) by ring. ring. }
  assert (C : erfR w + erfR (- w) = erfR 0 + erfR (- 0)).
  { destruct (Rtotal_order w 0) as [H|[->|H]]; [|reflexivity|].
    - destruct (MVT_cor2 (fun x => erfR x + erfR (- x)) (fun _ => 0) w 0) as [c [E Hc]]; auto.
      + intros; apply is_derive_Reals, D.
      + lra.
    - destruct (MVT_cor2 (fun x => erfR x + erfR (- x)) (fun _ => 0) 0 w) as [c [E Hc]]; auto.
      + intros; apply is_derive_Reals, D.
      + lra. }
  rewrite Ropp_0, erf_0 in C. lra.
Qed.
Lemma erf_bound w : 0 <= w -> erfR w <= exp 1.
Proof.
  intros H.
  assert (D : forall x, is_derive (fun x => - exp (1 - 2 * x) / 2 - erfR x) x (exp (1 - 2 * x) - gs x)).
  { intros x. apply (is_derive_minus (V := R_NormedModule) (fun x => - exp (1 - 2 * x) / 2) erfR).
    - auto_derive; [trivial|]. unfold Rminus; field.
    - apply erf_derive. }
  assert (C : - exp (1 - 2 * 0) / 2 - erfR 0 <= - exp (1 - 2 * w) / 2 - erfR w).
  { destruct (Req_dec w 0) as [->|N]; [lra|].
    destruct (MVT_cor2 _ _ 0 w ltac:(lra) (fun c _ => proj1 (is_derive_Reals _ _ _) (D c))) as [c [E Hc]].
    assert (gs c <= exp (1 - 2 * c)).
    { unfold gs. destruct (Req_dec c 1) as [->|N1]; [right; f_equal; ring|].
      left. apply exp_increasing. assert (0 < (c - 1) ^ 2) by (apply pow2_gt_0; lra). nra. }
    cbv beta in E. nra. }
  rewrite erf_0 in C. assert (0 < exp (1 - 2 * w)) by apply exp_pos.
  replace (1 - 2 * 0) with 1 in C by ring. assert (0 < exp 1) by apply exp_pos. lra.
Qed.

Definition gconst : R := real (Lim_seq (fun n => erfR (INR n))).
Lemma gconst_lim : is_lim_seq (fun n => erfR (INR n)) gconst.
Proof.
  apply Lim_seq_correct'.
  apply ex_finite_lim_seq_incr with (exp 1).
  - intros n. apply erf_incr, le_INR. lia.
  - intros n. apply erf_bound, pos_INR.
Qed.
Lemma gconst_pos : 0 < gconst.
Proof.
  assert (0 < erfR (INR 1)) by (apply erf_pos; simpl; lra).
  assert (H1 := is_lim_seq_incr_compare _ _ gconst_lim (fun n => erf_incr _ _ (le_INR _ _ (Nat.le_succ_diag_r n))) 1%nat).
  cbv beta in H1. lra.
Qed.
Lemma erf_lim_p : is_lim erfR p_infty gconst.
Proof.
  apply is_lim_spec. intros eps.
  destruct (proj2 (is_lim_seq_spec _ _) gconst_lim eps) as [N HN].
  exists (INR N). intros x Hx.
  assert (A := HN N (le_n N)). apply Rabs_def2 in A.
  assert (erfR (INR N) <= erfR x) by (apply erf_incr; lra).
  destruct (nfloor_ex x) as [m [Hm1 Hm2]]; [assert (0 <= INR N) by apply pos_INR; lra|].
  assert (erfR x <= erfR (INR (S m))) by (apply erf_incr; rewrite S_INR; lra).
  assert (H1 := is_lim_seq_incr_compare _ _ gconst_lim (fun n => erf_incr _ _ (le_INR _ _ (Nat.le_succ_diag_r n))) (S m)).
  cbv beta in H1. apply Rabs_def1; lra.
Qed.
Lemma erf_seq_p (u : nat -> R) : is_lim_seq u p_infty -> is_lim_seq (fun n => erfR (u n)) gconst.
Proof. intros H. apply (filterlim_comp _ _ _ u erfR _ _ _ H). exact erf_lim_p. Qed.
Lemma erf_seq_m (u : nat -> R) : is_lim_seq u m_infty -> is_lim_seq (fun n => erfR (u n)) (- gconst).
Proof.
  intros H.
  apply is_lim_seq_ext with (fun n => - erfR (- u n)).
  - intros n. rewrite erf_odd. ring.
  - apply (is_lim_seq_opp _ gconst). apply erf_seq_p.
    apply (proj1 (is_lim_seq_opp u m_infty) H).
Qed.

(* the truncated mixture: v^(2m-2) exp(-v^2 - s^2/(4v^2)) over [1/N, N], N = n+1 *)
Definition mix (s v : R) : R := exp (- v ^ 2 - s ^ 2 / (4 * v ^ 2)).
Definition lo (n : nat) : R := / (INR n + 1).
Definition hi (n : nat) : R := INR n + 1.
Definition JJ (m : nat) (s : R) (n : nat) : R := RInt (fun v => v ^ (2 * m) / v ^ 2 * mix s v) (lo n) (hi n).

Lemma hi_ge1 n : 1 <= hi n. Proof. unfold hi. assert (0 <= INR n) by apply pos_INR. lra. Qed.
Lemma lo_pos n : 0 < lo n.
Proof. unfold lo. apply Rinv_0_lt_compat. assert (0 <= INR n) by apply pos_INR. lra. Qed.
Lemma lo_le_1 n : lo n <= 1.
Proof. rewrite <- Rinv_1. unfold lo. fold (hi n). apply Rinv_le_contravar; [lra|]. apply hi_ge1. Qed.
Lemma lo_le_hi n : lo n <= hi n. Proof. assert (A := lo_le_1 n). assert (B := hi_ge1 n). lra. Qed.
Lemma hi_lim : is_lim_seq hi p_infty.
Proof.
  apply is_lim_seq_ext with (fun n => INR (S n)); [intros; unfold hi; apply S_INR|].
  apply (is_lim_seq_incr_1 INR). apply is_lim_seq_INR.
Qed.
Lemma lo_lim : is_lim_seq lo 0.
Proof. apply (is_lim_seq_inv hi p_infty hi_lim). discriminate. Qed.

Lemma mix_cont s v : 0 < v -> continuous (mix s) v.
Proof.
  intros H. apply (ex_derive_continuous (mix s)). unfold mix. auto_derive. nra.
Qed.
Lemma JJ_cont m s v : 0 < v -> continuous (fun v => v ^ (2 * m) / v ^ 2 * mix s v) v.
Proof.
  intros H. apply (ex_derive_continuous (fun v => v ^ (2 * m) / v ^ 2 * mix s v)).
  unfold mix. auto_derive. repeat split; nra.
Qed.
Lemma JJ_ex m s n : ex_RInt (fun v => v ^ (2 * m) / v ^ 2 * mix s v) (lo n) (hi n).
Proof.
  apply (ex_RInt_continuous (V := R_CompleteNormedModule)). intros z Hz.
  rewrite Rmin_left, Rmax_right in Hz by apply lo_le_hi. apply JJ_cont.
  assert (A := lo_pos n). lra.
Qed.

(* fundamental theorem on [lo n, hi n] *)
Lemma ftc (f df : R -> R) n :
  (forall v, 0 < v -> is_derive f v (df v)) -> (forall v, 0 < v -> continuous df v) ->
  is_RInt df (lo n) (hi n) (f (hi n) - f (lo n)).
Proof.
  intros Hd Hc. assert (A := lo_pos n).
  apply (is_RInt_derive (V := R_CompleteNormedModule) f df); intros x Hx;
    rewrite Rmin_left, Rmax_right in Hx by apply lo_le_hi; [apply Hd|apply Hc]; lra.
Qed.

Lemma mixm s v : 0 < v -> gs (v - s / (2 * v)) = exp s * mix s v.
Proof. intros H. unfold gs, mix. rewrite <- exp_plus. f_equal. field. lra. Qed.
Lemma mixp s v : 0 < v -> gs (v + s / (2 * v)) = exp (- s) * mix s v.
Proof. intros H. unfold gs, mix. rewrite <- exp_plus. f_equal. field. lra. Qed.

Lemma prim_m s v : 0 < v ->
  is_derive (fun v => exp (- s) * erfR (v - s / (2 * v))) v ((1 + s / (2 * v ^ 2)) * mix s v).
Proof.
  intros H. evar_last.
  - apply (is_derive_scal (fun v => erfR (v - s / (2 * v)))).
    apply (is_derive_comp (V := R_NormedModule) erfR (fun v => v - s / (2 * v))); [apply erf_derive|].
    auto_derive; [lra|reflexivity].
  - unfold scal, mult; simpl. unfold mult; simpl. rewrite mixm by lra.
    transitivity ((exp (- s) * exp s) * ((1 + s / (2 * v ^ 2)) * mix s v)).
    + field. lra.
    + rewrite <- exp_plus. replace (- s + s) with 0 by ring. rewrite exp_0. simpl; ring.
Qed.
Lemma prim_p s v : 0 < v ->
  is_derive (fun v => exp s * erfR (v + s / (2 * v))) v ((1 - s / (2 * v ^ 2)) * mix s v).
Proof.
  intros H. evar_last.
  - apply (is_derive_scal (fun v => erfR (v + s / (2 * v)))).
    apply (is_derive_comp (V := R_NormedModule) erfR (fun v => v + s / (2 * v))); [apply erf_derive|].
    auto_derive; [lra|reflexivity].
  - unfold scal, mult; simpl. unfold mult; simpl. rewrite mixp by lra.
    transitivity ((exp s * exp (- s)) * ((1 - s / (2 * v ^ 2)) * mix s v)).
    + field. lra.
    + rewrite <- exp_plus. replace (s + - s) with 0 by ring. rewrite exp_0. simpl; ring.
Qed.

Definition prA (s v : R) : R := exp (- s) * erfR (v - s / (2 * v)).
Definition prB (s v : R) : R := exp s * erfR (v + s / (2 * v)).

Lemma mixw_cont (a b : R) s v : 0 < v -> continuous (fun v => (a + b / v ^ 2) * mix s v) v.
Proof.
  intros H. apply (ex_derive_continuous (fun v => (a + b / v ^ 2) * mix s v)).
  unfold mix. auto_derive. repeat split; nra.
Qed.

Lemma JJ_1 s n : JJ 1 s n = / 2 * ((prA s (hi n) + prB s (hi n)) - (prA s (lo n) + prB s (lo n))).
Proof.
  unfold JJ. apply is_RInt_unique.
  apply (is_RInt_ext (fun v => / 2 * ((2 + 0 / v ^ 2) * mix s v))).
  { intros v Hv. rewrite Rmin_left, Rmax_right in Hv by apply lo_le_hi.
    assert (A := lo_pos n). simpl. field. lra. }
  apply (is_RInt_scal (V := R_NormedModule)).
  apply (ftc (fun v => prA s v + prB s v)).
  - intros v Hv. evar_last.
    + apply (is_derive_plus (V := R_NormedModule)); [apply prim_m|apply prim_p]; lra.
    + unfold plus; simpl. field. lra.
  - intros v Hv. now apply mixw_cont.
Qed.
Lemma JJ_0 s n : s ^ 2 * JJ 0 s n = s * ((prA s (hi n) - prB s (hi n)) - (prA s (lo n) - prB s (lo n))).
Proof.
  unfold JJ. rewrite <- (RInt_scal (V := R_CompleteNormedModule) _ _ _ (s ^ 2)) by apply JJ_ex.
  apply is_RInt_unique.
  apply (is_RInt_ext (fun v => s * ((0 + s / v ^ 2) * mix s v))).
  { intros v Hv. rewrite Rmin_left, Rmax_right in Hv by apply lo_le_hi.
    assert (A := lo_pos n). unfold scal; simpl. unfold mult; simpl. field. lra. }
  apply (is_RInt_scal (V := R_NormedModule)).
  apply (ftc (fun v => prA s v - prB s v)).
  - intros v Hv. evar_last.
    + apply (is_derive_minus (V := R_NormedModule)); [apply prim_m|apply prim_p]; lra.
    + unfold minus, plus, opp; simpl. field. lra.
  - intros v Hv. now apply mixw_cont.
Qed.

Lemma lo_inv_lim s : 0 < s -> is_lim_seq (fun n => s / (2 * lo n)) p_infty.
Proof.
  intros H. apply is_lim_seq_ext with (fun n => s / 2 * hi n).
  - intros n. unfold lo. fold (hi n). assert (A := hi_ge1 n). field. lra.
  - apply is_lim_seq_ext with (fun n => hi n * (s / 2)); [intros; ring|].
    apply (is_lim_seq_mult hi (fun _ => s / 2) p_infty (s / 2) p_infty); [apply hi_lim|apply is_lim_seq_const|].
    unfold is_Rbar_mult. simpl.
    destruct (Rle_dec 0 (s / 2)) as [h|h]; [|exfalso; lra].
    destruct (Rle_lt_or_eq_dec 0 (s / 2) h); [reflexivity|exfalso; lra].
Qed.
Lemma hi_inv_lim s : is_lim_seq (fun n => s / (2 * hi n)) 0.
Proof.
  apply is_lim_seq_ext with (fun n => s / 2 * lo n).
  - intros n. unfold lo. fold (hi n). assert (A := hi_ge1 n). field. lra.
  - evar_last; [apply (is_lim_seq_scal_l lo (s / 2) 0 lo_lim)|]. simpl. f_equal; ring.
Qed.
Lemma prA_hi s : is_lim_seq (fun n => prA s (hi n)) (exp (- s) * gconst).
Proof.
  apply (is_lim_seq_scal_l _ (exp (- s)) gconst). apply erf_seq_p.
  apply is_lim_seq_minus with p_infty 0; [apply hi_lim|apply hi_inv_lim|reflexivity].
Qed.
Lemma prB_hi s : is_lim_seq (fun n => prB s (hi n)) (exp s * gconst).
Proof.
  apply (is_lim_seq_scal_l _ (exp s) gconst). apply erf_seq_p.
  apply is_lim_seq_plus with p_infty 0; [apply hi_lim|apply hi_inv_lim|reflexivity].
Qed.
Lemma prA_lo s : 0 < s -> is_lim_seq (fun n => prA s (lo n)) (exp (- s) * - gconst).
Proof.
  intros H. apply (is_lim_seq_scal_l _ (exp (- s)) (- gconst)). apply erf_seq_m.
  apply is_lim_seq_minus with 0 p_infty; [apply lo_lim|now apply lo_inv_lim|reflexivity].
Qed.
Lemma prB_lo s : 0 < s -> is_lim_seq (fun n => prB s (lo n)) (exp s * gconst).
Proof.
  intros H. apply (is_lim_seq_scal_l _ (exp s) gconst). apply erf_seq_p.
  apply is_lim_seq_plus with 0 p_infty; [apply lo_lim|now apply lo_inv_lim|reflexivity].
Qed.
Lemma erf_lo : is_lim_seq (fun n => erfR (lo n)) 0.
Proof.
  rewrite <- erf_0. apply (is_lim_seq_continuous erfR lo 0); [|apply lo_lim].
  apply continuity_pt_filterlim. apply (ex_derive_continuous erfR). eexists; apply erf_derive.
Qed.

Lemma JJ_1_lim s : 0 <= s -> is_lim_seq (JJ 1 s) (gconst * exp (- s)).
Proof.
  intros H. apply is_lim_seq_ext with (1 := fun n => eq_sym (JJ_1 s n)).
  destruct (Req_dec s 0) as [->|N].
  - evar_last.
    + apply (is_lim_seq_scal_l _ (/ 2) (exp (- 0) * gconst + exp 0 * gconst - (0 + 0))).
      apply is_lim_seq_minus'; [apply is_lim_seq_plus'; [apply prA_hi|apply prB_hi]|].
      apply is_lim_seq_plus'; apply is_lim_seq_ext with (fun n => erfR (lo n)); try apply erf_lo.
      * intros n. unfold prA. rewrite Ropp_0, exp_0. unfold Rdiv. rewrite Rmult_0_l, Rminus_0_r. ring.
      * intros n. unfold prB. rewrite exp_0. unfold Rdiv. rewrite Rmult_0_l, Rplus_0_r. ring.
    + simpl. f_equal. rewrite Ropp_0, exp_0. field.
  - evar_last.
    + apply (is_lim_seq_scal_l _ (/ 2) (exp (- s) * gconst + exp s * gconst - (exp (- s) * - gconst + exp s * gconst))).
      apply is_lim_seq_minus'; apply is_lim_seq_plus'; [apply prA_hi|apply prB_hi|apply prA_lo; lra|apply prB_lo; lra].
    + simpl. f_equal. field.
Qed.
Lemma JJ_0_lim s : 0 <= s -> is_lim_seq (fun n => s ^ 2 * JJ 0 s n) (2 * gconst * s * exp (- s)).
Proof.
  intros H. apply is_lim_seq_ext with (1 := fun n => eq_sym (JJ_0 s n)).
  destruct (Req_dec s 0) as [->|N].
  - apply is_lim_seq_ext with (fun _ => 0); [intros; ring|].
    replace (2 * gconst * 0 * exp (- 0)) with 0 by ring. apply is_lim_seq_const.
  - evar_last.
    + apply (is_lim_seq_scal_l _ s (exp (- s) * gconst - exp s * gconst - (exp (- s) * - gconst - exp s * gconst))).
      apply is_lim_seq_minus'; apply is_lim_seq_minus'; [apply prA_hi|apply prB_hi|apply prA_lo; lra|apply prB_lo; lra].
    + simpl. f_equal. ring.
Qed.

(* integration by parts *)
Definition bd (q : nat) (s v : R) : R := v ^ (2 * q + 1) * mix s v.
Lemma pow_div_2 v q : v <> 0 -> v ^ (2 * (q + 1)) / v ^ 2 = v ^ (2 * q).
Proof. intros H. replace (2 * (q + 1))%nat with (2 * q + 2)%nat by lia. rewrite pow_add. field. exact H. Qed.
Lemma JJ_rec q s n : JJ (q + 2) s n =
  / 2 * ((2 * INR q + 1) * JJ (q + 1) s n + / 2 * (s ^ 2 * JJ q s n) - (bd q s (hi n) - bd q s (lo n))).
Proof.
  assert (I1 : is_RInt (fun v => v ^ (2 * (q + 1)) / v ^ 2 * mix s v) (lo n) (hi n) (JJ (q + 1) s n))
    by (apply (RInt_correct (V := R_CompleteNormedModule)), JJ_ex).
  assert (I0 : is_RInt (fun v => v ^ (2 * q) / v ^ 2 * mix s v) (lo n) (hi n) (JJ q s n))
    by (apply (RInt_correct (V := R_CompleteNormedModule)), JJ_ex).
  set (db := fun v => ((2 * INR q + 1) * v ^ (2 * q) - 2 * v ^ (2 * q + 2) + s ^ 2 / 2 * (v ^ (2 * q) / v ^ 2)) * mix s v).
  assert (Ib : is_RInt db (lo n) (hi n) (bd q s (hi n) - bd q s (lo n))).
  { apply (ftc (bd q s)).
    - intros v Hv. unfold bd, db, mix. auto_derive; [nra|].
      replace (pred (2 * q + 1)) with (2 * q)%nat by lia.
      replace (q + (q + 0) + 1)%nat with (2 * q + 1)%nat by lia.
      rewrite plus_INR, mult_INR. simpl (INR 2). simpl (INR 1).
      rewrite !pow_add. unfold Rminus. simpl (v ^ 1). simpl (v ^ 2). simpl (s ^ 2).
      replace (Init.Nat.pred (2 * q + 1)) with (2 * q)%nat by lia. unfold Rdiv.
      set (E := exp _). field. lra.
    - intros v Hv. apply (ex_derive_continuous db). unfold db, mix. auto_derive. repeat split; nra. }
  unfold JJ at 1. apply is_RInt_unique.
  apply (is_RInt_ext (fun v => / 2 * (((2 * INR q + 1) * (v ^ (2 * (q + 1)) / v ^ 2 * mix s v)
      + / 2 * (s ^ 2 * (v ^ (2 * q) / v ^ 2 * mix s v))) - db v))).
  { intros v Hv. rewrite Rmin_left, Rmax_right in Hv by apply lo_le_hi.
    assert (A := lo_pos n). unfold db.
    replace (2 * (q + 2))%nat with (2 * q + 2 + 2)%nat by lia.
    replace (2 * (q + 1))%nat with (2 * q + 2)%nat by lia.
    rewrite !pow_add. match goal with |- ?a = ?b => change (@eq R a b) end. field. lra. }
  apply (is_RInt_scal (V := R_NormedModule)).
  apply (is_RInt_minus (V := R_NormedModule)); [|exact Ib].
  apply (is_RInt_plus (V := R_NormedModule)).
  - apply (is_RInt_scal (V := R_NormedModule)), I1.
  - apply (is_RInt_scal (V := R_NormedModule)). apply (is_RInt_scal (V := R_NormedModule)), I0.
Qed.

Lemma exp_ge_pow x k : 0 <= x -> x ^ k / INR (fact k) <= exp x.
Proof.
  intros H. assert (S1 := is_exp_Reals x). apply is_pseries_R in S1.
  assert (S2 : infinite_sum (fun n => / INR (fact n) * x ^ n) (exp x)).
  { apply is_series_Reals. exact S1. }
  assert (L := sum_incr (fun n => / INR (fact n) * x ^ n) k (exp x) S2).
  assert (P : forall n, 0 <= / INR (fact n) * x ^ n).
  { intros n. apply Rmult_le_pos; [left; apply Rinv_0_lt_compat, INR_fact_pos|now apply pow_le]. }
  specialize (L P). rewrite sum_f_R0_rsum in L. cbn [rsum] in L.
  assert (0 <= rsum k (fun n => / INR (fact n) * x ^ n)) by (apply rsum_nonneg; intros; apply P).
  unfold Rdiv. rewrite Rmult_comm. lra.
Qed.
Lemma bd_hi q s : is_lim_seq (fun n => bd q s (hi n)) 0.
Proof.
  apply is_lim_seq_le_le with (fun _ => 0) (fun n => INR (fact (2 * q + 2)) * lo n);
    [|apply is_lim_seq_const|].
  - intros n. assert (A := hi_ge1 n). unfold bd. split.
    + apply Rmult_le_pos; [apply pow_le; lra|left; apply exp_pos].
    + assert (M : mix s (hi n) <= exp (- hi n)).
      { assert (0 <= s ^ 2 / (4 * hi n ^ 2)).
        { apply Rmult_le_pos; [apply pow2_ge_0|]. left; apply Rinv_0_lt_compat. nra. }
        unfold mix. destruct (Req_dec (- hi n ^ 2 - s ^ 2 / (4 * hi n ^ 2)) (- hi n)) as [E|E]; [rewrite E; lra|].
        left. apply exp_increasing. nra. }
      assert (P := exp_ge_pow (hi n) (2 * q + 2) ltac:(lra)).
      assert (F := INR_fact_pos (2 * q + 2)).
      rewrite exp_Ropp in M. unfold lo. fold (hi n).
      assert (Ep := exp_pos (hi n)).
      assert (Q : hi n ^ (2 * q + 1) * / exp (hi n) <= INR (fact (2 * q + 2)) * / hi n).
      { replace (2 * q + 2)%nat with (S (2 * q + 1)) in * by lia. cbn [pow] in P.
        set (f := INR (fact (S (2 * q + 1)))) in *. set (y := hi n ^ (2 * q + 1)) in *.
        apply Rmult_le_reg_r with (exp (hi n) * hi n); [nra|].
        replace (y * / exp (hi n) * (exp (hi n) * hi n)) with (hi n * y) by (field; lra).
        replace (f * / hi n * (exp (hi n) * hi n)) with (f * exp (hi n)) by (field; lra).
        apply Rmult_le_reg_r with (/ f); [now apply Rinv_0_lt_compat|].
        replace (f * exp (hi n) * / f) with (exp (hi n)) by (field; lra). exact P. }
      eapply Rle_trans; [|exact Q]. apply Rmult_le_compat_l; [apply pow_le; lra|exact M].
  - evar_last; [apply (is_lim_seq_scal_l lo (INR (fact (2 * q + 2))) 0 lo_lim)|]. simpl. f_equal. ring.
Qed.
Lemma bd_lo q s : is_lim_seq (fun n => bd q s (lo n)) 0.
Proof.
  apply is_lim_seq_le_le with (fun _ => 0) lo; [|apply is_lim_seq_const|apply lo_lim].
  intros n. assert (A := lo_pos n). assert (B := lo_le_1 n). unfold bd. split.
  - apply Rmult_le_pos; [apply pow_le; lra|left; apply exp_pos].
  - rewrite Nat.add_1_r. cbn [pow]. rewrite Rmult_assoc.
    assert (lo n ^ (2 * q) <= 1) by (rewrite <- (pow1 (2 * q)); apply pow_incr; lra).
    assert (0 <= lo n ^ (2 * q)) by (apply pow_le; lra).
    assert (mix s (lo n) <= 1).
    { rewrite <- exp_0. unfold mix.
      assert (0 <= s ^ 2 / (4 * lo n ^ 2)).
      { apply Rmult_le_pos; [apply pow2_ge_0|]. left; apply Rinv_0_lt_compat. nra. }
      left. apply exp_increasing. nra. }
    assert (0 < mix s (lo n)) by apply exp_pos.
    assert (lo n ^ (2 * q) * mix s (lo n) <= 1) by nra. nra.
Qed.

(* recurrence of the reverse Bessel polynomials *)
Lemma INR_two : INR 2 = 2. Proof. simpl; ring. Qed.
Lemma INR_one : INR 1 = 1. Proof. reflexivity. Qed.
Lemma tc_rec0 q : tc (S (S q)) 0 = (2 * INR q + 3) * tc (S q) 0.
Proof.
  unfold tc. rewrite !Nat.sub_0_r.
  replace (2 * S (S q))%nat with (S (S (2 * S q))) by lia. rewrite !INR_fact_S. cbn [pow fact].
  replace (INR (S (2 * S q))) with (2 * INR q + 3) by (rewrite S_INR, mult_INR, INR_two, S_INR; ring).
  replace (INR (2 * S q)) with (2 * INR q + 2) by (rewrite mult_INR, INR_two, S_INR; ring).
  assert (F := INR_fact_pos (2 * S q)). assert (F2 := INR_fact_pos q). assert (P := pow2_pos q).
  rewrite (S_INR q), INR_one. assert (0 <= INR q) by apply pos_INR.
  field. repeat split; lra.
Qed.
Lemma tc_rec1 q : tc (S (S q)) 1 = (2 * INR q + 3) * tc (S q) 1.
Proof.
  unfold tc.
  replace (2 * S (S q) - 1)%nat with (S (S (2 * q + 1))) by lia.
  replace (2 * S q - 1)%nat with (2 * q + 1)%nat by lia.
  replace (S (S q) - 1)%nat with (S q) by lia. replace (S q - 1)%nat with q by lia.
  rewrite !INR_fact_S. cbn [pow fact].
  assert (E1 : INR (S (2 * q + 1)) = 2 * INR q + 2) by (rewrite S_INR, plus_INR, mult_INR, INR_two, INR_one; ring).
  assert (E2 : INR (2 * q + 1) = 2 * INR q + 1) by (rewrite plus_INR, mult_INR, INR_two, INR_one; ring).
  rewrite E1, E2. rewrite INR_one. change (INR 0) with 0.
  assert (F2 := INR_fact_pos q). assert (P := pow2_pos q). assert (0 <= INR q) by apply pos_INR.
  field. repeat split; lra.
Qed.
Lemma tc_rec2 q j : (j < q)%nat -> tc (S (S q)) (S (S j)) = (2 * INR q + 3) * tc (S q) (S (S j)) + tc q j.
Proof.
  intros H. unfold tc.
  replace (2 * S (S q) - S (S j))%nat with (S (S (2 * q - j))) by lia.
  replace (2 * S q - S (S j))%nat with (2 * q - j)%nat by lia.
  replace (S (S q) - S (S j))%nat with (S (q - S j)) by lia.
  replace (S q - S (S j))%nat with (q - S j)%nat by lia.
  replace (q - j)%nat with (S (q - S j)) by lia.
  rewrite !INR_fact_S. cbn [pow].
  assert (E1 : INR (S (2 * q - j)) = 2 * INR q - INR j + 1) by (rewrite S_INR, minus_INR, mult_INR, INR_two by lia; ring).
  assert (E2 : INR (2 * q - j) = 2 * INR q - INR j) by (rewrite minus_INR, mult_INR, INR_two by lia; ring).
  assert (E3 : INR (q - S j) = INR q - INR j - 1) by (rewrite minus_INR, S_INR by lia; ring).
  rewrite E1, E2, E3, !S_INR.
  assert (F1 := INR_fact_pos (2 * q - j)). assert (F2 := INR_fact_pos (q - S j)). assert (F3 := INR_fact_pos j).
  assert (P := pow2_pos (q - S j)). assert (0 <= INR j) by apply pos_INR.
  assert (INR j + 1 <= INR q) by (rewrite <- S_INR; apply le_INR; lia).
  field. repeat split; lra.
Qed.
Lemma tc_top q : tc q q = 1.
Proof.
  unfold tc. replace (2 * q - q)%nat with q by lia. rewrite Nat.sub_diag. simpl.
  field. apply Rgt_not_eq, INR_fact_pos.
Qed.
Lemma theta_rec q s : theta (S (S q)) s = (2 * INR q + 3) * theta (S q) s + s ^ 2 * theta q s.
Proof.
  unfold theta.
  assert (L : rsum (S (S (S q))) (fun k => tc (S (S q)) k * s ^ k) =
    tc (S (S q)) 0 + tc (S (S q)) 1 * s + rsum q (fun j => tc (S (S q)) (S (S j)) * s ^ S (S j)) + s ^ S (S q)).
  { change (rsum (S (S (S q))) (fun k => tc (S (S q)) k * s ^ k))
      with (rsum (S (S q)) (fun k => tc (S (S q)) k * s ^ k) + tc (S (S q)) (S (S q)) * s ^ S (S q)).
    rewrite tc_top, !rsum_shift. cbn [pow]. ring. }
  rewrite L. rewrite (rsum_shift (S q)), (rsum_shift q).
  change (rsum (S q) (fun k => tc q k * s ^ k)) with (rsum q (fun k => tc q k * s ^ k) + tc q q * s ^ q).
  rewrite tc_top, tc_rec0, tc_rec1.
  rewrite (rsum_ext q (fun j => tc (S (S q)) (S (S j)) * s ^ S (S j))
    (fun j => (2 * INR q + 3) * (tc (S q) (S (S j)) * s ^ S (S j)) + s ^ 2 * (tc q j * s ^ j))).
  - rewrite rsum_plus, !rsum_scal. cbn [pow]. ring.
  - intros j Hj. rewrite tc_rec2 by exact Hj. cbn [pow]. ring.
Qed.

Lemma JJ_lim s : 0 <= s -> forall p, is_lim_seq (JJ (S p) s) (gconst * emat p s / 2 ^ p).
Proof.
  intros H.
  assert (Main : forall p, is_lim_seq (JJ (S p) s) (gconst * emat p s / 2 ^ p) /\
                           is_lim_seq (JJ (S (S p)) s) (gconst * emat (S p) s / 2 ^ S p)).
  { assert (Step : forall q (l0 l1 : R), is_lim_seq (fun n => s ^ 2 * JJ q s n) l0 ->
       is_lim_seq (JJ (S q) s) l1 -> is_lim_seq (JJ (S (S q)) s) (/ 2 * ((2 * INR q + 1) * l1 + / 2 * l0))).
    { intros q l0 l1 H0 H1.
      apply is_lim_seq_ext with (u := fun n => / 2 * ((2 * INR q + 1) * JJ (S q) s n + / 2 * (s ^ 2 * JJ q s n)
         - (bd q s (hi n) - bd q s (lo n)))).
      - intros n. symmetry. replace (S (S q)) with (q + 2)%nat by lia. replace (S q) with (q + 1)%nat by lia.
        apply JJ_rec.
      - replace (/ 2 * ((2 * INR q + 1) * l1 + / 2 * l0))
          with (/ 2 * ((2 * INR q + 1) * l1 + / 2 * l0 - (0 - 0))) by ring.
        apply (is_lim_seq_scal_l _ (/ 2) ((2 * INR q + 1) * l1 + / 2 * l0 - (0 - 0))).
        apply is_lim_seq_minus'.
        + apply is_lim_seq_plus'.
          * apply (is_lim_seq_scal_l _ (2 * INR q + 1) l1 H1).
          * apply (is_lim_seq_scal_l _ (/ 2) l0 H0).
        + apply is_lim_seq_minus'; [apply bd_hi|apply bd_lo]. }
    induction p as [|p [IH0 IH1]].
    - assert (B0 := JJ_0_lim s H). assert (B1 := JJ_1_lim s H).
      assert (T0 : theta 0 s = 1) by (unfold theta, tc; simpl; field).
      assert (T1 : theta 1 s = 1 + s) by (unfold theta, tc; simpl; field).
      split.
      + replace (gconst * emat 0 s / 2 ^ 0) with (gconst * exp (- s)); [exact B1|].
        unfold emat. rewrite T0. simpl. field.
      + assert (B2 := Step _ _ _ B0 B1). evar_last; [exact B2|].
        f_equal. unfold emat. rewrite T1. simpl. field.
    - split; [exact IH1|].
      assert (S0 : is_lim_seq (fun n => s ^ 2 * JJ (S p) s n) (s ^ 2 * (gconst * emat p s / 2 ^ p)))
        by (apply (is_lim_seq_scal_l _ (s ^ 2) (gconst * emat p s / 2 ^ p) IH0)).
      assert (B2 := Step _ _ _ S0 IH1). evar_last; [exact B2|].
      f_equal. unfold emat. rewrite theta_rec, S_INR. cbn [pow].
      assert (P := pow2_pos p). field. lra. }
  intros p. exact (proj1 (Main p)).
Qed.

(* the kernel matrix of any finite family of points of R^d *)
Theorem matern_psd p n d (x : nat -> nat -> R) :
  psd n (fun i j => maternp_kernel p (sqrt (dist2 d (x i) (x j)))).
Proof.
  assert (D : forall i j, 0 <= dist2 d (x i) (x j)) by (intros; apply rsum_nonneg; intros; apply pow2_ge_0).
  set (s := fun i j => mconst p * sqrt (dist2 d (x i) (x j))).
  assert (Hs : forall i j, 0 <= s i j).
  { intros. apply Rmult_le_pos; [left; apply mconst_pos|apply sqrt_pos]. }
  assert (G := gconst_pos). assert (P := pow2_pos p). assert (T : 0 < theta p 0) by (apply theta_pos; lra).
  apply psd_ext with (fun i j => (2 ^ p / (gconst * theta p 0)) * (gconst * emat p (s i j) / 2 ^ p)).
  { intros i j _ _. rewrite kernel_emat. fold (s i j). field. repeat split; lra. }
  apply psd_scal.
  { left. apply Rdiv_lt_0_compat; [lra|nra]. }
  apply psd_lim with (fun m i j => JJ (S p) (s i j) m).
  2: { intros i j _ _. now apply JJ_lim. }
  intros m.
  apply psd_RInt with (fun v i j => v ^ (2 * S p) / v ^ 2 * mix (s i j) v) (lo m) (hi m).
  - apply lo_le_hi.
  - intros v Hv. assert (L := lo_pos m). assert (V : 0 < v ^ 2) by nra.
    apply psd_ext with (fun i j => (v ^ (2 * S p) / v ^ 2 * exp (- v ^ 2)) *
       exp (- ((mconst p) ^ 2 / (4 * v ^ 2) * dist2 d (x i) (x j)))).
    + intros i j _ _. rewrite Rmult_assoc. f_equal. rewrite <- exp_plus. unfold mix, s.
      f_equal. rewrite Rpow_mult_distr.
      replace (sqrt (dist2 d (x i) (x j)) ^ 2) with (dist2 d (x i) (x j))
        by (rewrite <- Rsqr_pow2; symmetry; apply Rsqr_sqrt, D).
      field. lra.
    + apply psd_scal.
      * apply Rmult_le_pos; [|left; apply exp_pos]. apply Rmult_le_pos; [apply pow_le; lra|].
        left. now apply Rinv_0_lt_compat.
      * apply psd_gauss. apply Rmult_le_pos; [apply pow2_ge_0|]. left. apply Rinv_0_lt_compat. lra.
  - intros i j _ _. apply (RInt_correct (V := R_CompleteNormedModule)), JJ_ex.
Qed.
