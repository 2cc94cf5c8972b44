(** Posterior samplers of gpmp/mcmc/param_posterior.py: theorem C91 (SMC entry point). *)
From Coq Require Import List Arith ZArith Reals Bool Lra Lia.
From Verif Require Import ConfigModel FlModel PriorModel PriorProofs SmcModel SelectProofs SmcProofs SmcThms MhModel MhProofs MhProofs2 MhProofs3 MhThms DesignModel PostModel PostThms.
Import ListNotations.
Local Open Scope R_scope.

(** the tempered density of one point, for a criterion that never raises *)
Definition smc_target (crit : list R -> fl) (b : option (list R * list R)) (temperature : R) (x : list R) : fl :=
  if out_of_box b x then NInf else fl_div (fl_opp (crit x)) (Fin temperature).
(** x has as many coordinates as the box *)
Definition fits (b : option (list R * list R)) (x : list R) : Prop :=
  match b with None => True | Some (lo, up) => length x = length lo /\ length x = length up end.
Definition in_sampling_box (b : option (list R * list R)) (x : list R) : Prop :=
  match b with None => True | Some (lo, up) => inside lo up x end.

Lemma in_row_spec lo up x : length x = length lo -> length x = length up -> in_box_row lo up x = negb (out_of_box (Some (lo, up)) x).
Proof.
  unfold in_box_row, out_of_box. rewrite negb_orb. intros h1 h2. f_equal.
  - revert lo h1. clear. induction x as [| a x ih]; intros [| l lo] h; try discriminate; [reflexivity |]. cbn. rewrite ih by (cbn in h; lia).
    rewrite negb_orb. f_equal. unfold rleb, rltb. destruct (Rle_dec l a), (Rlt_dec a l); try reflexivity; lra.
  - revert up h2. clear. induction x as [| a x ih]; intros [| l lo] h; try discriminate; [reflexivity |]. cbn. rewrite ih by (cbn in h; lia).
    rewrite negb_orb. f_equal. unfold rleb, rltb. destruct (Rle_dec a l), (Rlt_dec l a); try reflexivity; lra.
Qed.
Lemma all_values_none {V} (l : list (option V)) : all_values l = None <-> In None l.
Proof.
  induction l as [| [v |] l ih]; cbn; [split; [discriminate | tauto] | | split; auto].
  destruct (all_values l); cbn; split; try discriminate; intros h; [destruct h as [h | h]; [discriminate | apply ih in h; discriminate] | right; now apply ih | reflexivity].
Qed.
Lemma all_values_some {V} (l : list V) : all_values (map Some l) = Some l.
Proof. induction l as [| v l ih]; [reflexivity | cbn; now rewrite ih]. Qed.

(** * C91 *)
(** on an array of points the density is the tempered one, row by row, and -inf outside the box *)
Theorem C91_array_density crit b T xs : (forall x, In x xs -> fits b x) ->
  smc_logpdf_2d (fun x => Some (crit x)) b T xs = Some (map (smc_target crit b T) xs) /\
  forall x, In x xs -> smc_logpdf_1d (fun x => Some (crit x)) b T x = Some (smc_target crit b T x) /\
    (in_sampling_box b x -> smc_target crit b T x = fl_div (fl_opp (crit x)) (Fin T)) /\ (~ in_sampling_box b x -> smc_target crit b T x = NInf).
Proof.
  intros h. split.
  - unfold smc_logpdf_2d. rewrite <- (map_map crit Some), all_values_some. f_equal. destruct b as [[lo up] |].
    + rewrite map_map. unfold smc_target. induction xs as [| x xs ih]; [reflexivity |]. cbn [map zip2]. rewrite ih by (intros; apply h; now right). f_equal.
      destruct (h x (or_introl eq_refl)) as [h1 h2]. rewrite in_row_spec by assumption. now destruct (out_of_box _ x).
    + now rewrite map_map.
  - intros x hx. specialize (h x hx). unfold smc_logpdf_1d, smc_target. destruct (out_of_box b x) eqn:e; (split; [reflexivity |]); split; intro hb; try reflexivity.
    + destruct b as [[lo up] |]; [| discriminate]. apply out_of_box_spec in hb; [congruence | apply h | apply h].
    + exfalso. apply hb. destruct b as [[lo up] |]; [| exact I]. apply out_of_box_spec in e; [exact e | apply h | apply h].
Qed.
(** unlike the MH and NUTS targets, an exception of the criterion goes through, even at a point outside the box *)
Theorem C91_exceptions (crit : list R -> option fl) b T xs :
  (smc_logpdf_2d crit b T xs = None <-> exists x, In x xs /\ crit x = None) /\
  (forall f p, make_log_prob_mh crit b T = Some f -> f p <> None) /\
  (forall x, out_of_box b x = true -> smc_logpdf_1d crit b T x = Some NInf).
Proof.
  split; [| split].
  - unfold smc_logpdf_2d. destruct (all_values (map crit xs)) eqn:e; split; try discriminate; try reflexivity.
    + intros [x [hx hn]]. assert (q : In None (map crit xs)) by (apply in_map_iff; eauto). apply all_values_none in q. congruence.
    + intros _. apply all_values_none, in_map_iff in e as [x [h1 h2]]. eauto.
  - intros f p h. unfold make_log_prob_mh in h. destruct (rleb T 0); [discriminate |]. match type of h with Some ?g = _ => assert (e : f = g) by congruence end.
    rewrite e. destruct (out_of_box b p); [discriminate |]. destruct (crit p); discriminate.
  - intros x h. unfold smc_logpdf_1d. now rewrite h.
Qed.

Lemma weight_cases n (v : fl) : 0 < n -> let w := fl_mul (Fin (1 / n)) (fl_exp (fl_sub v (Fin 0))) in
  match v with Fin a => w = Fin (1 / n * exp (a - 0)) /\ 0 < 1 / n * exp (a - 0) | NInf => w = Fin 0 | NaN => w = NaN | PInf => w = PInf end.
Proof.
  intros h. assert (q : 0 < 1 / n) by (apply Rdiv_lt_0_compat; lra). destruct v; cbn.
  - split; [reflexivity |]. apply Rmult_lt_0_compat; [exact q | apply exp_pos].
  - unfold rltb. destruct (Rlt_dec 0 (1 / n)); [reflexivity | lra].
  - f_equal. ring.
  - reflexivity.
Qed.
(** a log density under which a particle can survive *)
Definition good (v : fl) : Prop := v <> NInf /\ v <> NaN.
(** particles as drawn by particles_init, not yet reweighted *)
Definition fresh {X} (s : particles X) : Prop :=
  plogpx s = repeat (Fin 0) (length (px s)) /\ pw s = repeat (Fin (1 / INR (length (px s)))) (length (px s)) /\ length (pw_tmp s) = length (px s).

Lemma fresh_weights {X} (f : X -> fl) c : forall xs,
  zip2 fl_mul (repeat (Fin c) (length xs)) (zip2 (fun a b => fl_exp (fl_sub a b)) (map f xs) (repeat (Fin 0) (length xs))) = map (fun x => fl_mul (Fin c) (fl_exp (fl_sub (f x) (Fin 0)))) xs.
Proof. induction xs as [| x xs ih]; [reflexivity |]. cbn [length repeat map zip2]. now rewrite ih. Qed.

Lemma first_step {X} sch (logpdf : R -> X -> fl) draw ms t (s s' : particles X) : multinomial_draw draw -> draws_no_null draw -> fresh s ->
  (exists x, In x (px s) /\ good (logpdf t x)) -> step X sch logpdf draw ms t s = Some s' -> Forall (fun y => good (logpdf t y)) (px s').
Proof.
  intros hd hz [f1 [f2 f3]] [x0 [hx0 hg]] h. unfold step in h. cbv zeta in h.
  set (s1 := reweight X true (set_logpdf X (logpdf t) s)) in *.
  assert (e1 : px s1 = px s) by reflexivity. assert (e2 : plogpdf s1 = logpdf t) by reflexivity.
  assert (hn : 0 < INR (length (px s))) by (apply lt_0_INR; destruct (px s); [destruct hx0 | cbn; lia]).
  assert (e3 : pw_tmp s1 = map (fun x => fl_mul (Fin (1 / INR (length (px s)))) (fl_exp (fl_sub (logpdf t x) (Fin 0)))) (px s)).
  { unfold s1, reweight, set_logpdf. cbn [pw_tmp px plogpx plogpdf pw]. rewrite f1, f2. apply fresh_weights. }
  assert (hW : well_shaped s1). { apply reweight_shaped, set_shaped. unfold well_shaped. rewrite f1, f2, !repeat_length. auto. }
  clearbody s1. destruct (resample X sch draw s1) as [s2 |] eqn:er; [| discriminate].
  assert (hsch : sch <> Unknown) by (intros ->; discriminate).
  assert (hpr : exists w, fins_of (pw_tmp s1) = Some w).
  { destruct sch; cbn in er; unfold multinomial_resample, residual_resample, probs in er; destruct (fins_of (pw_tmp s1)); try discriminate; eauto. }
  destruct hpr as [w hw]. assert (hw2 := fins_of_some _ _ hw). rewrite e3 in hw2.
  assert (hlw : length w = length (px s)). { apply (f_equal (@length _)) in hw2. now rewrite !map_length in hw2. }
  assert (hwi : forall i d, (i < length (px s))%nat -> match logpdf t (nth i (px s) d) with Fin a => 0 < nth i w 0 | NInf => nth i w 0 = 0 | _ => False end).
  { intros i d hi. apply (f_equal (fun l => nth i l NaN)) in hw2. rewrite (nth_indep (map Fin w) NaN (Fin 0)) in hw2 by (rewrite map_length; lia).
    rewrite (map_nth Fin) in hw2.
    rewrite (nth_indep _ NaN ((fun x => fl_mul (Fin (1 / INR (length (px s)))) (fl_exp (fl_sub (logpdf t x) (Fin 0)))) d)) in hw2 by (rewrite map_length; exact hi).
    rewrite (map_nth (fun x => fl_mul (Fin (1 / INR (length (px s)))) (fl_exp (fl_sub (logpdf t x) (Fin 0))))) in hw2.
    pose proof (weight_cases _ (logpdf t (nth i (px s) d)) hn) as q. cbv zeta in q.
    destruct (logpdf t (nth i (px s) d)); [destruct q as [q1 q2] | | |]; try (rewrite q in hw2); try (rewrite q1 in hw2); try discriminate; injection hw2 as <-; [exact q2 | reflexivity]. }
  assert (hpos : Forall (fun v => 0 <= v) w).
  { apply Forall_forall. intros v hv. apply (In_nth _ _ 0) in hv as [i [hi <-]]. specialize (hwi i x0 ltac:(lia)). destruct (logpdf t (nth i (px s) x0)); lra. }
  assert (hex : exists j, nth j w 0 <> 0).
  { apply (In_nth _ _ x0) in hx0 as [j [hj ej]]. exists j. specialize (hwi j x0 hj). rewrite ej in hwi. destruct hg as [g1 g2]. destruct (logpdf t x0); try congruence; try contradiction. lra. }
  destruct (C48_resample x0 sch draw s1 w hsch hd hW) as [s3 [src [r1 [r2 [r3 [r4 [_ [_ [_ [r5 [_ r6]]]]]]]]]]].
  { rewrite e1. intros en. rewrite en in hx0. destruct hx0. } { now rewrite e3, hw2. } { exact hpos. }
  rewrite er in r1. assert (s3 = s2) by congruence. subst s3. specialize (r6 hz).
  assert (hs2 : Forall (fun y => good (logpdf t y)) (px s2)).
  { apply Forall_forall. intros y hy. rewrite r4 in hy. apply in_map_iff in hy as [i [<- hi]]. specialize (r3 i hi). rewrite e1 in r3 |- *. specialize (hwi i x0 r3).
    unfold good. destruct (logpdf t (nth i (px s) x0)) eqn:ev; try contradiction; [split; discriminate |].
    exfalso. apply (r6 i); [| exact hex | exact hi]. now rewrite (nth_indep w 1 0) by lia. }
  injection h as <-. apply moves_invariant; [| exact hs2]. intros y. rewrite r5, e2. unfold good. tauto.
Qed.
Lemma next_step {X} sch (logpdf : R -> X -> fl) (P : X -> Prop) draw ms t (s s' : particles X) : (forall y, good (logpdf t y) -> P y) ->
  Forall P (px s) -> step X sch logpdf draw ms t s = Some s' -> Forall P (px s').
Proof.
  intros hP hs h. unfold step in h. cbv zeta in h. destruct (resample X sch draw _) as [s2 |] eqn:er; [| discriminate]. apply resample_incl in er as [hi [_ hf]].
  injection h as <-. apply moves_invariant.
  - intros y h1 h2. apply hP. rewrite hf in h1, h2. cbn in h1, h2. split; assumption.
  - apply Forall_forall. intros y hy. rewrite Forall_forall in hs. apply hs. exact (hi y hy).
Qed.
Lemma loop_inside {X} fuel sch (logpdf : R -> X -> fl) (P : X -> Prop) draws mv next target : (forall t y, good (logpdf t y) -> P y) ->
  forall cur k s path r s', Forall P (px s) -> restart_loop X fuel sch logpdf draws mv next target cur k s path = Some (r, s') -> Forall P (px s').
Proof.
  intros hP. induction fuel as [| fuel ih]; intros cur k s path r s' hs; cbn [restart_loop]; destruct (reqb cur target); try discriminate;
    try (intro h; assert (s' = s) by congruence; now subst s').
  destruct (next s cur) as [t |]; [| discriminate]. destruct (step X sch logpdf (draws k) (mv k) t s) as [s1 |] eqn:e; [| discriminate].
  apply ih. exact (next_step _ _ _ _ _ _ _ _ (hP t) hs e).
Qed.

(** a point of the sampling box where the criterion is neither NaN nor +inf *)
Definition admissible (crit : list R -> fl) (b : option (list R * list R)) (x : list R) : Prop :=
  out_of_box b x = false /\ crit x <> NaN /\ crit x <> PInf.
Lemma target_good crit b T x : 0 < T -> (good (smc_target crit b T x) <-> admissible crit b x).
Proof.
  intros hT. unfold good, smc_target, admissible. destruct (out_of_box b x); [split; intros [h1 h2]; congruence |].
  assert (q : reqb T 0 = false) by (unfold reqb; destruct (Req_EM_T T 0); [lra | reflexivity]). assert (q2 : rltb T 0 = false) by (unfold rltb; destruct (Rlt_dec T 0); [lra | reflexivity]).
  destruct (crit x); cbn; rewrite ?q, ?q2; split; intros h; repeat split; try discriminate; destruct h as [h1 h2]; try destruct h2; congruence.
Qed.
Lemma fresh_probe {X} (f : X -> fl) x g : fresh (reweight X false (set_logpdf X f (particles_init X x g))).
Proof.
  unfold fresh, reweight, set_logpdf, particles_init. cbn [px plogpx pw pw_tmp plogpdf]. repeat split.
  rewrite fresh_weights. apply map_length.
Qed.
(** every returned particle is in the sampling box, at a point where the criterion is neither NaN nor +inf, provided one of the particles
    drawn in init_box was; all tempering parameters are positive *)
Theorem C91_particles_in_box fuel sch crit b draws mv next initial final ratio x0 x s' :
  (forall k, multinomial_draw (draws k) /\ draws_no_null (draws k)) -> initial <> final -> 0 < final -> (forall s cur t, next s cur = Some t -> 0 < t) ->
  (exists y, In y x0 /\ admissible crit b y) -> (exists y, In y x /\ admissible crit b y) ->
  step_with_possible_restart (list R) fuel sch (smc_target crit b) draws mv next initial final ratio x (particles_init (list R) x0 (fun _ => NaN)) = Some s' ->
  Forall (admissible crit b) (px s').
Proof.
  intros hd hne hfin hnext [y0 [i0 a0]] [y1 [i1 a1]] h. unfold step_with_possible_restart in h. cbv zeta in h.
  destruct (fl_lt _ _) in h.
  - destruct (restart _ _ _ _ _ _ _ _ _ _) as [[path s2] |] eqn:e; [| discriminate]. cbn in h. assert (s2 = s') by congruence. subst s2. clear h.
    unfold restart in e. destruct fuel as [| fuel]; cbn [restart_loop] in e; unfold reqb in e at 1; destruct (Req_EM_T initial final); try contradiction; try discriminate.
    set (s0 := reweight (list R) false _) in e. destruct (next s0 initial) as [t |] eqn:en; [| discriminate]. assert (ht := hnext _ _ _ en).
    destruct (step (list R) sch (smc_target crit b) (draws 0%nat) (mv 0%nat) t s0) as [s1 |] eqn:es; [| discriminate].
    assert (q : Forall (admissible crit b) (px s1)).
    { assert (q := first_step sch (smc_target crit b) (draws 0%nat) (mv 0%nat) t s0 s1 (proj1 (hd 0%nat)) (proj2 (hd 0%nat)) (fresh_probe _ _ _)).
      eapply Forall_impl; [intros a ha; exact (proj1 (target_good crit b t a ht) ha) |]. apply q; [| exact es]. exists y1. split; [exact i1 | now apply target_good]. }
    (* later parameters are positive too *)
    clear es en. revert t s1 q ht e. generalize [initial] as path0. generalize 1%nat as k. clear s0. induction fuel as [| fuel ih]; intros k path0 t s1 q ht e;
      cbn [restart_loop] in e; destruct (reqb t final); try discriminate; try (assert (s' = s1) by congruence; now subst s').
    destruct (next s1 t) as [t' |] eqn:en; [| discriminate]. destruct (step (list R) sch _ (draws k) (mv k) t' s1) as [s2 |] eqn:es; [| discriminate].
    assert (ht' := hnext _ _ _ en). apply (ih (S k) (path0 ++ [t]) t' s2); [| exact ht' | exact e].
    eapply next_step; [| exact q | exact es]. intros y hy. now apply (target_good crit b t').
  - eapply Forall_impl; [intros a ha; exact (proj1 (target_good crit b final a hfin) ha) |].
    eapply (first_step sch (smc_target crit b) (draws 0%nat) (mv 0%nat) final); [apply hd | apply hd | apply fresh_probe | | exact h].
    exists y0. split; [exact i0 | now apply target_good].
Qed.
(** when no drawn particle lies in the box the run does not fail: all weights vanish, the resampling is uniform, and unless a proposal
    reaches the box the particles outside it are returned *)
Lemma move_kept (P : list R -> Prop) ys us (s : particles (list R)) : (forall y, In y ys -> P y) -> Forall P (px s) -> Forall P (px (fst (move (list R) ys us s))).
Proof.
  unfold move. cbn [fst px]. generalize (plogpx s). revert ys us. induction (px s) as [| x xs ih]; intros ys us ls hy hs; [constructor |].
  inversion hs; subst. destruct ls as [| l ls], ys as [| y ys], us as [| u us]; cbn; try constructor.
  - unfold move_one. destruct (accept u (plogpdf s y) l); cbn; [apply hy; now left | assumption].
  - apply ih; [intros z hz; apply hy; now right | assumption].
Qed.
Lemma zero_target crit b T xs : Forall (fun y => out_of_box b y = true) xs -> forall c, 0 < c ->
  map (fun x => fl_mul (Fin (1 / c)) (fl_exp (fl_sub (smc_target crit b T x) (Fin 0)))) xs = map Fin (repeat 0 (length xs)).
Proof.
  intros h c hc. induction h as [| x xs hx _ ih]; [reflexivity |]. cbn [map length repeat]. rewrite ih. f_equal.
  unfold smc_target. rewrite hx. cbn. f_equal. ring.
Qed.
Theorem C91_outside_returned fuel sch crit b draws mv next initial final ratio x0 x :
  sch <> Unknown -> (forall k, multinomial_draw (draws k)) -> initial <> final -> 0 < ratio -> x0 <> [] -> x <> [] ->
  Forall (fun y => out_of_box b y = true) x0 -> Forall (fun y => out_of_box b y = true) x -> (forall s cur, next s cur = Some final) ->
  (forall k m s y, In m (mv k) -> In y (fst (m s)) -> out_of_box b y = true) ->
  exists s', step_with_possible_restart (list R) (S fuel) sch (smc_target crit b) draws mv next initial final ratio x (particles_init (list R) x0 (fun _ => NaN)) = Some s' /\
    Forall (fun y => out_of_box b y = true) (px s').
Proof.
  intros hs hd hne hr hx0 hx o0 o1 hnext hmv. unfold step_with_possible_restart. cbv zeta.
  assert (pos : forall l : list (list R), l <> [] -> 0 < INR (length l)) by (intros l hl; apply lt_0_INR; destruct l; [congruence | cbn; lia]).
  assert (he : fl_lt (fl_div (ess (list R) (reweight (list R) false (set_logpdf (list R) (smc_target crit b final) (particles_init (list R) x0 (fun _ => NaN))))) (Fin (INR (length (px (particles_init (list R) x0 (fun _ => NaN))))))) (Fin ratio) = true).
  { rewrite (ess_fin _ (repeat 0 (length x0))).
    2: { unfold reweight, set_logpdf, particles_init. cbn [pw_tmp px plogpx plogpdf pw]. rewrite fresh_weights. apply zero_target; auto. }
    assert (q : sq_sum (repeat 0 (length x0)) = 0). { apply sq_sum_all_zero. intros v hv. now apply repeat_spec in hv. }
    rewrite q. destruct (Req_EM_T 0 0) as [_ | n]; [| congruence]. cbn. unfold reqb. specialize (pos x0 hx0). destruct (Req_EM_T (INR (length x0)) 0); [lra |].
    unfold rltb. cbn. destruct (Rlt_dec (0 / INR (length x0)) ratio) as [h | h]; [reflexivity |]. exfalso. apply h. unfold Rdiv. rewrite Rmult_0_l. exact hr. }
  rewrite he. unfold restart. cbn [restart_loop]. unfold reqb at 1. destruct (Req_EM_T initial final); [contradiction |]. rewrite hnext. unfold step. cbv zeta.
  set (s0 := reweight (list R) false (set_logpdf (list R) (smc_target crit b initial) (particles_init (list R) x (smc_target crit b initial)))).
  set (s1 := reweight (list R) true (set_logpdf (list R) (smc_target crit b final) s0)).
  assert (e3 : pw_tmp s1 = map Fin (repeat 0 (length x))).
  { unfold s1, s0, reweight, set_logpdf, particles_init. cbn [pw_tmp px plogpx plogpdf pw]. rewrite fresh_weights. apply zero_target; auto. }
  assert (hW : well_shaped s1) by (apply reweight_shaped, set_shaped, reweight_shaped, set_shaped, init_shaped).
  destruct (C48_resample [] sch (draws 0%nat) s1 (repeat 0 (length x)) hs (hd 0%nat) hW) as [s2 [src [r1 [r2 [r3 [r4 _]]]]]]; [exact hx | exact e3 | apply Forall_forall; intros v hv; apply repeat_spec in hv; lra |].
  rewrite r1. set (s3 := fold_left _ _ _).
  assert (q : Forall (fun y => out_of_box b y = true) (px s3)).
  { unfold s3. assert (q2 : Forall (fun y => out_of_box b y = true) (px s2)).
    { apply resample_incl in r1 as [hi _]. apply Forall_forall. intros y hy. rewrite Forall_forall in o1. apply o1. exact (hi y hy). }
    clear - q2 hmv. specialize (hmv 0%nat). revert s2 q2. induction (mv 0%nat) as [| m ms ih]; intros s2 q2; [exact q2 |]. cbn [fold_left]. apply ih; [intros m' s y hm; apply hmv; now right |].
    unfold apply_move. destruct (m s2) as [ys us] eqn:em. apply move_kept; [| exact q2]. intros y hy. apply (hmv m s2 y); [now left |]. now rewrite em. }
  clearbody s3. exists s3. split; [| exact q]. destruct fuel; cbn [restart_loop]; unfold reqb; destruct (Req_EM_T final final) as [_ | n0]; try congruence; reflexivity.
Qed.
(** equal temperatures: below the ESS threshold the uniform draws are returned as they are *)
Theorem C91_equal_temperatures fuel sch crit b draws mv next T ratio x0 x :
  fl_lt (fl_div (ess (list R) (reweight (list R) false (set_logpdf (list R) (smc_target crit b T) (particles_init (list R) x0 (fun _ => NaN))))) (Fin (INR (length x0)))) (Fin ratio) = true ->
  exists s', step_with_possible_restart (list R) fuel sch (smc_target crit b) draws mv next T T ratio x (particles_init (list R) x0 (fun _ => NaN)) = Some s' /\ px s' = x.
Proof.
  intros h. unfold step_with_possible_restart. cbv zeta. change (length (px (particles_init (list R) x0 (fun _ => NaN)))) with (length x0). rewrite h.
  unfold restart. destruct fuel; cbn [restart_loop]; unfold reqb; destruct (Req_EM_T T T) as [_ | n]; try congruence; eexists; split; reflexivity.
Qed.
Print Assumptions C91_array_density.
Print Assumptions C91_exceptions.
Print Assumptions C91_particles_in_box.
Print Assumptions C91_outside_returned.
Print Assumptions C91_equal_temperatures.

(** * Concrete cases *)
Example C91_array_density_ex : smc_logpdf_2d (fun x => Some (Fin (nth 0 x 0))) (Some ([0], [1])) 2 [[1]; [3]] = Some [Fin (- 1 / 2); NInf].
Proof.
  destruct (C91_array_density (fun x => Fin (nth 0 x 0)) (Some ([0], [1])) 2 [[1]; [3]]) as [h _]; [intros x [<- | [<- | []]]; split; reflexivity |].
  rewrite h. unfold smc_target, out_of_box, rltb. cbn. destruct (Rlt_dec 1 0), (Rlt_dec 1 1), (Rlt_dec 3 0), (Rlt_dec 1 3); try lra. cbn. unfold reqb. destruct (Req_EM_T 2 0); [lra | reflexivity].
Qed.
Example C91_exceptions_ex : smc_logpdf_2d (fun x => match x with [] => None | _ => Some (Fin 0) end) None 1 [[1]; []] = None /\
  smc_logpdf_1d (fun x => None) (Some ([0], [1])) 1 [5] = Some NInf.
Proof. split; [reflexivity |]. apply (C91_exceptions (fun _ => None) (Some ([0], [1])) 1 []). unfold out_of_box, rltb. cbn. destruct (Rlt_dec 5 0), (Rlt_dec 1 5); try lra; reflexivity. Qed.
(** one particle in the box, one outside: only the first survives *)
Example C91_particles_in_box_ex : exists s', step_with_possible_restart (list R) 1 Multinomial (smc_target (fun x => Fin (nth 0 x 0)) (Some ([0], [1]))) (fun _ => support_draw) (fun _ => [])
    (fun _ _ => Some 1) 10 1 (1 / 2) [[1 / 2]; [5]] (particles_init (list R) [[1 / 2]; [5]] (fun _ => NaN)) = Some s' /\
  length (px s') = 2%nat /\ Forall (admissible (fun x => Fin (nth 0 x 0)) (Some ([0], [1]))) (px s').
Proof.
  set (crit := fun x : list R => Fin (nth 0 x 0)). set (b := Some ([0], [1])).
  assert (o1 : out_of_box b [1 / 2] = false) by (unfold b, out_of_box, rltb; cbn; destruct (Rlt_dec (1 / 2) 0), (Rlt_dec 1 (1 / 2)); try lra; reflexivity).
  assert (o2 : out_of_box b [5] = true) by (unfold b, out_of_box, rltb; cbn; destruct (Rlt_dec 5 0), (Rlt_dec 1 5); try lra; reflexivity).
  set (w := [1 / (1 + 1) * exp (- (1 / 2) / 1 + - 0); 1 / (1 + 1) * 0]).
  assert (w0 : Forall (fun v => 0 <= v) w) by (repeat apply Forall_cons; [apply Rmult_le_pos; [lra | left; apply exp_pos] | lra | apply Forall_nil]).
  assert (T : forall g t, exists s', step (list R) Multinomial (smc_target crit b) support_draw [] 1 (reweight (list R) false (set_logpdf (list R) (smc_target crit b t) (particles_init (list R) [[1 / 2]; [5]] g))) = Some s' /\ length (px s') = 2%nat).
  { intros g t. unfold step. cbv zeta. set (s1 := reweight (list R) true _).
    destruct (C48_resample [] Multinomial support_draw s1 w) as [s2 [src [r1 [r2 [_ [r4 _]]]]]].
    - discriminate.
    - apply support_draw_ok.
    - apply reweight_shaped, set_shaped, reweight_shaped, set_shaped, init_shaped.
    - discriminate.
    - unfold s1, reweight, set_logpdf, particles_init, smc_target. cbn [pw_tmp pw px plogpx plogpdf length repeat INR map zip2]. rewrite o1, o2. unfold crit. cbn. unfold reqb. destruct (Req_EM_T 1 0); [lra |]. reflexivity.
    - exact w0.
    - rewrite r1. cbn [fold_left]. exists s2. split; [reflexivity |]. rewrite r4, map_length, r2. reflexivity. }
  assert (A : exists s', step_with_possible_restart (list R) 1 Multinomial (smc_target crit b) (fun _ => support_draw) (fun _ => []) (fun _ _ => Some 1) 10 1 (1 / 2) [[1 / 2]; [5]] (particles_init (list R) [[1 / 2]; [5]] (fun _ => NaN)) = Some s' /\ length (px s') = 2%nat).
  { unfold step_with_possible_restart. cbv zeta. destruct (fl_lt _ _).
    - unfold restart. cbn [restart_loop]. unfold reqb. destruct (Req_EM_T 10 1); [lra |]. destruct (T (smc_target crit b 10) 10) as [s2 [e l]]. rewrite e. destruct (Req_EM_T 1 1); [| congruence]. exists s2. split; [reflexivity | exact l].
    - destruct (T (fun _ => NaN) 1) as [s2 [e l]]. exists s2. split; [exact e | exact l]. }
  destruct A as [s' [e l]]. exists s'. split; [exact e |]. split; [exact l |]. eapply (C91_particles_in_box _ _ crit b _ _ _ _ _ _ _ _ s'); [| | | | | | exact e].
  - intro k. apply support_draw_ok.
  - lra.
  - lra.
  - intros s cur t q. cbn in q. assert (t = 1) by congruence. lra.
  - exists [1 / 2]. split; [now left |]. repeat split; try exact o1; discriminate.
  - exists [1 / 2]. split; [now left |]. repeat split; try exact o1; discriminate.
Qed.
(** no particle in the box and a mover that only proposes [7]: the particle outside is returned *)
Example C91_outside_returned_ex : exists s', step_with_possible_restart (list R) 1 Residual (smc_target (fun _ => Fin 0) (Some ([0], [1]))) (fun _ => support_draw) (fun _ => [fun _ => ([[7]], [1 / 2])])
    (fun _ _ => Some 1) 10 1 (1 / 2) [[5]] (particles_init (list R) [[5]] (fun _ => NaN)) = Some s' /\ Forall (fun y => out_of_box (Some ([0], [1])) y = true) (px s').
Proof.
  assert (o : forall v, 1 < v -> out_of_box (Some ([0], [1])) [v] = true) by (intros v hv; unfold out_of_box, rltb; cbn; destruct (Rlt_dec v 0), (Rlt_dec 1 v); try lra; reflexivity).
  apply C91_outside_returned; try discriminate; try lra.
  - intro k. apply support_draw_ok.
  - repeat constructor. apply o. lra.
  - repeat constructor. apply o. lra.
  - reflexivity.
  - intros k m s y [<- | []] [<- | []]. apply o. lra.
Qed.
