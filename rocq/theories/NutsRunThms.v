(** The NUTS driver and posterior entry point: theorems C101 (run) and C102 (entry point, gradients at the faces of the
    sampling box, options). *)
From Coq Require Import List Arith ZArith Reals Bool Lra Lia FunctionalExtensionality.
From Verif Require Import ConfigModel FlModel PriorModel SmcModel MhModel MhProofs3 DesignModel PostModel PostThms NutsModel NutsProofs NutsThms NutsRunModel NutsRunProofs.
Import ListNotations.
Local Open Scope R_scope.

(** the row of iteration t (warm-up first), chain c *)
Definition entry (n : nuts_run) (t c : nat) : option rowc :=
  match nth_error (n_warm n ++ n_rows n) t with Some rows => nth_error rows c | None => None end.
(** the state of chain c before iteration t *)
Definition state (q_init : list vec) (n : nuts_run) (t c : nat) : option vec :=
  match t with O => nth_error q_init c | S t => option_map (fun r => o_q (c_out r)) (entry n t c) end.
(** step size and mass used at each iteration *)
Definition used (num_samples : nat) (n : nuts_run) : list (R * vec) := m_used (n_state n) ++ repeat (n_step n, n_mass n) num_samples.

(** * C101 *)
Section C101.
Variables (d : nat) (lp : vec -> fl) (grad : vec -> option vec) (xi : nat -> nat -> vec) (M : nat) (delta_max : R).
Variables (o : adapt_opts) (pol : wpolicy) (mass : option vec) (eps0 : fl) (q_init : list vec) (W S : nat).
Notation pot := (pot_of lp grad).
Notation run := (nuts_sample d lp grad xi M delta_max o pol mass eps0 q_init W S).

Lemma run_linked : always run (fun r => forall n, r = Some n ->
  length (n_warm n) = W /\ length (n_rows n) = S /\ n_mass n = m_mass (n_state n) /\ final_step o (n_state n) = Some (n_step n) /\
  (exists ws, make_warmup_windows pol (Z.of_nat W) = Some ws /\
     warm_loop o ws 0 (warm_init o mass eps0) (map (map (fun r => (o_q (c_out r), o_accept (c_out r)))) (n_warm n)) = Some (n_state n)) /\
  linked d lp grad xi M delta_max 0 q_init (used S n) (n_warm n ++ n_rows n)).
Proof.
  unfold nuts_sample. destruct (make_warmup_windows pol (Z.of_nat W)) as [ws |]; [| cbn [always]; discriminate].
  destruct (match q_init with [] => _ | _ => _ end); [cbn [always]; discriminate |].
  eapply always_bind; [apply warm_phase_ok |]. intros [[[s qs] tr] |] h; [| cbn [always]; discriminate].
  destruct (h s qs tr eq_refl) as [ems [h1 [h2 [h3 [h4 h5]]]]]. destruct (final_step o s) as [e |] eqn:hf; [| cbn [always]; discriminate].
  eapply always_bind; [apply sample_phase_ok |]. intros rows [h6 h7]. cbn [always]. intros n hn. injection hn as <-.
  cbn [n_warm n_rows n_mass n_state n_step]. split; [exact h2 |]. split; [exact h6 |]. split; [reflexivity |]. split; [exact hf |].
  split; [now exists ws |]. unfold used. cbn [n_state n_step n_mass]. apply linked_app; [| rewrite Nat.add_0_l, h2, <- h4; exact h7].
  cbn [warm_init m_used app] in h1. rewrite h1. exact h3.
Qed.

(** a run is, chain by chain, a sequence of transitions: each starts where the previous one ended (the first at the
    given state), uses the step size and mass of its iteration and its own Gaussian numbers, and its log-density is
    recorded; the step sizes and masses of the warm-up are those of the adaptation applied to the recorded outcomes,
    and the final ones are used throughout the sampling phase *)
Theorem C101_transitions : always run (fun r => forall n, r = Some n ->
  length (n_warm n) = W /\ length (n_rows n) = S /\ (forall rows, In rows (n_warm n ++ n_rows n) -> length rows = length q_init) /\
  (exists ws, make_warmup_windows pol (Z.of_nat W) = Some ws /\
     warm_loop o ws 0 (warm_init o mass eps0) (map (map (fun r => (o_q (c_out r), o_accept (c_out r)))) (n_warm n)) = Some (n_state n)) /\
  n_mass n = m_mass (n_state n) /\ final_step o (n_state n) = Some (n_step n) /\ length (used S n) = (W + S)%nat /\
  forall t c r, entry n t c = Some r -> exists q e m, state q_init n t c = Some q /\ nth_error (used S n) t = Some (e, m) /\
    possible (nuts_transition d pot (fun i => 1 / m i) e delta_max (vfin_of lp) M q (fun i => xi t c i * sqrt (m i))) (c_out r) /\
    c_lp r = lp (o_q (c_out r))).
Proof.
  eapply always_mono; [| apply run_linked]. intros r h n hn. destruct (h n hn) as [h1 [h2 [h3 [h4 [h5 h6]]]]].
  split; [exact h1 |]. split; [exact h2 |]. split; [exact (linked_rows_length _ _ _ _ _ _ _ _ _ _ h6) |]. split; [exact h5 |]. split; [exact h3 |]. split; [exact h4 |].
  split; [rewrite (linked_length _ _ _ _ _ _ _ _ _ _ h6), app_length; lia |].
  intros t c rw he. unfold entry in he. destruct (nth_error (n_warm n ++ n_rows n) t) as [rows |] eqn:hr; [| discriminate].
  destruct (linked_nth _ _ _ _ _ _ _ _ _ _ h6 t rows hr) as [[e m] [qs [e1 [e2 e3]]]].
  destruct (rows_ok_nth _ _ _ _ _ _ _ _ _ _ _ _ _ e3 he) as [q [e4 [e5 e6]]]. exists q, e, m. split.
  - unfold before in e2. unfold state, entry. destruct t as [| t]; [congruence |]. destruct (nth_error (n_warm n ++ n_rows n) t) as [rows' |]; [| discriminate].
    cbn [option_map] in e2. assert (qs = positions rows') by congruence. subst qs. unfold positions in e4. rewrite nth_error_map in e4. exact e4.
  - split; [exact e1 |]. cbn [Nat.add fst snd] in e5, e6. split; [exact e5 | exact e6].
Qed.

(** an invariant of the transitions holds along every chain *)
Lemma chain_inv (I : vec -> Prop) (J : rowc -> Prop) c start : nth_error q_init c = Some start -> I start ->
  (forall im e q p0, I q -> always (nuts_transition d pot im e delta_max (vfin_of lp) M q p0) (fun x => I (o_q x) /\ J (RowC x (lp (o_q x))))) ->
  always run (fun r => forall n, r = Some n -> forall t r, entry n t c = Some r -> I (o_q (c_out r)) /\ J r).
Proof.
  intros hs h0 hI. eapply always_mono; [| apply C101_transitions]. intros r h n hn. destruct (h n hn) as [_ [_ [_ [_ [_ [_ [_ h1]]]]]]].
  assert (step : forall t q, state q_init n t c = Some q -> I q -> forall r, entry n t c = Some r -> I (o_q (c_out r)) /\ J r).
  { intros t q hq hIq rw hr. destruct (h1 t c rw hr) as [q' [e [m [e1 [_ [e3 e4]]]]]]. assert (q' = q) by congruence. subst q'.
    destruct (possible_always _ _ _ (hI _ _ _ _ hIq) e3) as [k1 k2]. split; [exact k1 |]. destruct rw as [x l]. cbn [c_out c_lp] in *. now subst l. }
  assert (all : forall t q, state q_init n t c = Some q -> I q).
  { induction t as [| t ih]; intros q hq; [cbn in hq; congruence |]. cbn [state] in hq. destruct (entry n t c) as [rw |] eqn:hr; [| discriminate].
    cbn [option_map] in hq. assert (q = o_q (c_out rw)) by congruence. subst q. destruct (h1 t c rw hr) as [q' [e [m [e1 _]]]]. exact (proj1 (step t q' e1 (ih q' e1) rw hr)). }
  intros t rw hr. destruct (h1 t c rw hr) as [q' [e [m [e1 _]]]]. exact (step t q' e1 (all t q' e1) rw hr).
Qed.

(** a chain whose first state has a finite log-density and gradient keeps them finite at every recorded iteration *)
Theorem C101_finite_start c start v g : nth_error q_init c = Some start -> lp start = Fin v -> grad start = Some g ->
  always run (fun r => forall n, r = Some n -> forall t r, entry n t c = Some r ->
    (exists v', c_lp r = Fin v' /\ lp (o_q (c_out r)) = Fin v') /\ grad (o_q (c_out r)) <> None /\
    (o_depth (c_out r) <= M)%nat /\ (o_nlf (c_out r) <= 2 ^ o_depth (c_out r) - 1)%nat /\ 0 <= o_accept (c_out r) <= 1).
Proof.
  intros hs hv hg.
  eapply always_mono; [| apply (chain_inv (fun q => exists v g, lp q = Fin v /\ grad q = Some g)
    (fun r => c_lp r = lp (o_q (c_out r)) /\ (o_depth (c_out r) <= M)%nat /\ (o_nlf (c_out r) <= 2 ^ o_depth (c_out r) - 1)%nat /\ 0 <= o_accept (c_out r) <= 1) c start hs (ex_intro _ v (ex_intro _ g (conj hv hg))))].
  - intros r h n hn t rw hr. destruct (h n hn t rw hr) as [[v' [g' [k1 k2]]] [k3 k4]]. split; [exists v'; split; congruence |]. split; [congruence | exact k4].
  - intros im e q p0 [v' [g' [k1 k2]]]. assert (hp : pot q = Some (- v', g')) by (unfold pot_of; now rewrite k1, k2).
    pose proof (C62_transition_finite d pot im e delta_max (vfin_of lp) M q p0 _ _ hp) as hfin.
    unfold nuts_transition in *. rewrite hp in *. cbn [always] in *. intros u hu. specialize (hfin u hu).
    eapply always_mono; [| apply always_and; [exact hfin | apply (C62_transition d pot im e delta_max (vfin_of lp) M q p0 _ (- v') g' hp)]].
    intros x [[_ [_ [U [g2 hU]]]] [j1 [j2 [j3 _]]]]. cbn [c_out c_lp]. split; [| now repeat split].
    unfold pot_of in hU. destruct (lp (o_q x)) as [v2 | | |]; try discriminate. destruct (grad (o_q x)) as [g3 |]; [| discriminate]. now exists v2, g3.
Qed.

(** a chain whose first state has a non-finite log-density or gradient never moves; nothing but the flags says so *)
Theorem C101_stuck c start : nth_error q_init c = Some start -> (forall v, lp start <> Fin v) \/ grad start = None ->
  always run (fun r => forall n, r = Some n -> forall t r, entry n t c = Some r ->
    o_q (c_out r) = start /\ c_lp r = lp start /\ o_accept (c_out r) = 0 /\ (o_nlf (c_out r) <= 1)%nat /\ ((1 <= M)%nat -> o_div (c_out r) = true)).
Proof.
  intros hs hv. assert (hp : pot start = None) by (unfold pot_of; destruct (lp start) as [v | | |]; try reflexivity; destruct hv as [hv | ->]; [now elim (hv v) | reflexivity]).
  eapply always_mono; [| apply (chain_inv (fun q => q = start)
    (fun r => c_lp r = lp (o_q (c_out r)) /\ o_accept (c_out r) = 0 /\ (o_nlf (c_out r) <= 1)%nat /\ ((1 <= M)%nat -> o_div (c_out r) = true)) c start hs eq_refl)].
  - intros r h n hn t rw hr. destruct (h n hn t rw hr) as [k1 [k2 k3]]. split; [exact k1 |]. split; [now rewrite k2, k1 | exact k3].
  - intros im e q p0 ->. unfold nuts_transition. rewrite hp. cbn [always]. unfold stuck. destruct (vfin_of lp start); [destruct M |]; cbn [o_q o_accept o_nlf o_div c_out c_lp]; repeat split; lia.
Qed.

(** max_depth = 0 freezes every chain without any flag on a finite start *)
Theorem C101_depth_zero c start : M = 0%nat -> nth_error q_init c = Some start ->
  always run (fun r => forall n, r = Some n -> forall t r, entry n t c = Some r ->
    o_q (c_out r) = start /\ o_accept (c_out r) = 0 /\ (o_div (c_out r) = true <-> forall v, lp start <> Fin v)).
Proof.
  intros hM hs.
  eapply always_mono; [| apply (chain_inv (fun q => q = start) (fun r => o_accept (c_out r) = 0 /\ (o_div (c_out r) = true <-> forall v, lp start <> Fin v)) c start hs eq_refl)].
  - intros r h n hn t rw hr. exact (h n hn t rw hr).
  - intros im e q p0 ->. unfold nuts_transition, stuck, vfin_of, pot_of. rewrite hM. destruct (lp start) as [v | | |] eqn:hl; try (now cbn; repeat split; try discriminate).
    destruct (grad start) as [g |] eqn:hg.
    + cbn [always]. intros u hu. unfold nuts_slice, pot_of. rewrite hl, hg. cbn. split; [reflexivity |]. split; [field |]. split; [discriminate | intro h; now elim (h v)].
    + cbn. split; [reflexivity |]. split; [reflexivity |]. split; [discriminate | intro h; now elim (h v)].
Qed.

(** step sizes and masses of all iterations *)
Theorem C101_steps_and_masses : 0 < a_min o <= a_max o -> always run (fun r => forall n, r = Some n ->
  forall t e m, nth_error (used S n) t = Some (e, m) -> a_min o <= e <= a_max o /\ forall i, Rmin 1 (a_jitter o) <= m i).
Proof.
  intro hb. eapply always_mono; [| apply C101_transitions]. intros r h n hn t e m ht.
  destruct (h n hn) as [_ [_ [_ [[ws [_ hw]] [hm [hf _]]]]]]. destruct (C65_steps_and_masses _ _ _ _ _ _ hb hw) as [_ [k1 [k2 k3]]].
  apply nth_error_In in ht. unfold used in ht. apply in_app_or in ht as [ht | ht]; [now apply k1 |].
  apply repeat_spec in ht. injection ht as -> ->. split; [now apply k3 |]. rewrite hm. exact k2.
Qed.

(** the run ends without raising while the largest possible log step size is below the overflow level of math.exp *)
Lemma accept_range im e q p0 : always (nuts_transition d pot im e delta_max (vfin_of lp) M q p0) (fun x => 0 <= o_accept x <= 1).
Proof.
  destruct (pot q) as [[U g] |] eqn:hp.
  - eapply always_mono; [| exact (C62_transition_finite d pot im e delta_max (vfin_of lp) M q p0 U g hp)]. intros x [_ [h _]]. exact h.
  - unfold nuts_transition. rewrite hp. cbn [always]. unfold stuck. destruct (vfin_of lp q); [destruct M |]; cbn [o_accept]; lra.
Qed.
Definition good_out (out : list (vec * R)) : Prop := out <> [] /\ forall x, In x out -> 0 <= snd x <= 1.
Lemma chains_iter_accept step ms t : forall qs c, always (chains_iter d lp grad xi M delta_max step ms t c qs) (fun rows =>
  length rows = length qs /\ forall r, In r rows -> 0 <= o_accept (c_out r) <= 1).
Proof.
  induction qs as [| q qs ih]; intro c; cbn [chains_iter always]; [split; [reflexivity | intros r []] |].
  eapply always_bind; [apply accept_range |]. intros x hx. eapply always_bind; [apply (ih (Datatypes.S c)) |]. intros rest [hl hr]. cbn [always].
  split; [cbn; congruence |]. intros r [<- | hin]; [exact hx | now apply hr].
Qed.
Lemma warm_phase_total ws : forall n t s qs, qs <> [] -> always (warm_phase d lp grad xi M delta_max o ws n t s qs) (fun r =>
  exists outs, (length outs <= n)%nat /\ (forall out, In out outs -> good_out out) /\
    match r with None => warm_loop o ws (Z.of_nat t) s outs = None | Some (s', _, _) => warm_loop o ws (Z.of_nat t) s outs = Some s' end).
Proof.
  induction n as [| n ih]; intros t s qs hq; cbn [warm_phase always].
  - exists []. split; [cbn; lia |]. split; [intros out [] | reflexivity].
  - eapply always_bind; [apply chains_iter_accept |]. intros rows [hl hr].
    assert (hg : good_out (stats rows)).
    { split; [destruct rows; [destruct qs; easy | discriminate] |]. intros x hx. unfold stats in hx. apply in_map_iff in hx as [r [<- hin]]. now apply hr. }
    destruct (warm_iter o ws (Z.of_nat t) s (stats rows)) as [s1 |] eqn:e.
    + eapply always_bind; [apply (ih (Datatypes.S t) s1 (positions rows)); destruct rows; [destruct qs; easy | discriminate] |].
      intros r [outs [h1 [h2 h3]]]. cbn [always]. exists (stats rows :: outs). split; [cbn; lia |]. split; [intros out [<- | hin]; [exact hg | now apply h2] |].
      cbn [warm_loop]. rewrite e. replace (Z.of_nat t + 1)%Z with (Z.of_nat (Datatypes.S t)) by lia. destruct r as [[[s2 q2] tr] |]; exact h3.
    + cbn [always]. exists [stats rows]. split; [cbn; lia |]. split; [intros out [<- | []]; exact hg |]. cbn [warm_loop]. now rewrite e.
Qed.
Theorem C101_no_overflow : q_init <> [] -> make_warmup_windows pol (Z.of_nat W) <> None ->
  0 < a_min o <= a_max o -> 0 <= a_target o <= 1 -> 0 < a_gamma o -> 0 <= a_t0 o -> 0 <= a_kappa o -> 1 <= a_factor o ->
  ln (a_factor o * a_max o) + sqrt (INR W) * ((1 - a_target o) / a_gamma o) < 1024 * ln 2 ->
  always run (fun r => r <> None).
Proof.
  intros hq hw h1 h2 h3 h4 h5 h6 h7. unfold nuts_sample. destruct (make_warmup_windows pol (Z.of_nat W)) as [ws |]; [| congruence].
  assert (e : match q_init with [] => (0 <? W + S)%nat | _ => false end = false) by now destruct q_init. rewrite e. clear e.
  eapply always_bind; [apply (warm_phase_total ws W 0 _ q_init hq) |]. intros r [outs [k1 [k2 k3]]].
  destruct (C65_no_overflow o ws mass eps0 outs h1 h2 h3 h4 h5 h6 k2) as [s [ef [k4 k5]]].
  { apply Rle_lt_trans with (2 := h7). apply Rplus_le_compat_l. apply Rmult_le_compat_r; [| apply sqrt_le_1_alt, le_INR, k1].
    apply Rmult_le_pos; [lra | left; now apply Rinv_0_lt_compat]. }
  change (Z.of_nat 0) with 0%Z in k3. rewrite k4 in k3. destruct r as [[[s' qs] tr] |]; [| discriminate]. injection k3 as <-. rewrite k5.
  eapply always_bind; [apply always_true; exact (fun _ => I) |]. intros rows _. cbn [always]. discriminate.
Qed.
Theorem C101_no_chains : q_init = [] -> (0 < W + S)%nat -> run = Ret None.
Proof.
  intros -> h. unfold nuts_sample. destruct (make_warmup_windows pol (Z.of_nat W)); [| reflexivity].
  destruct (Nat.ltb_spec 0 (W + S)); [reflexivity | lia].
Qed.
End C101.

(** * C102 *)
Lemma of_to d x : length x = d -> of_vec d (to_vec x) = x.
Proof.
  intros <-. unfold of_vec, to_vec. induction x as [| a x ih]; [reflexivity |]. cbn [length seq map nth]. f_equal.
  rewrite <- seq_shift, map_map. exact ih.
Qed.
Lemma of_vec_length d q : length (of_vec d q) = d.
Proof. unfold of_vec. now rewrite map_length, seq_length. Qed.
Lemma nth_error_seq' a n c : (c < n)%nat -> nth_error (seq a n) c = Some (a + c)%nat.
Proof. revert a c. induction n as [| n ih]; intros a [| c] h; try lia; cbn; [f_equal; lia |]. rewrite ih by lia. f_equal. lia. Qed.

(** the log-density of a point: finite exactly at points of the box where the criterion is finite *)
Definition finite_at (crit : list R -> option fl) (box : option (list R * list R)) (x : list R) : Prop :=
  (exists v, crit x = Some (Fin v)) /\ forall lo up, box = Some (lo, up) -> inside lo up x.
Definition target_lp (crit : list R -> option fl) (box : option (list R * list R)) (x : list R) : fl :=
  if out_of_box box x then NInf else match crit x with None => NInf | Some v => fl_opp v end.
Lemma make_log_prob_one crit box : exists f, make_log_prob_nuts crit box 1 = Some f /\
  forall x, match f x with Some v => v | None => NInf end = target_lp crit box x.
Proof.
  unfold make_log_prob_nuts, make_log_prob_mh, rleb. destruct (Rle_dec 1 0); [lra |]. eexists. split; [reflexivity |]. intro x. unfold target_lp.
  destruct (out_of_box box x); [reflexivity |]. destruct (crit x) as [v |]; [| reflexivity]. unfold fl_div, fl_opp, rltb.
  destruct v; try reflexivity; try (destruct (Rlt_dec 1 0); [lra | reflexivity]). unfold FlModel.reqb. destruct (Req_EM_T 1 0); [lra | f_equal; field].
Qed.
Lemma target_lp_finite crit box x : (forall lo up, box = Some (lo, up) -> length lo = length x /\ length up = length x) ->
  (exists v, target_lp crit box x = Fin v) <-> finite_at crit box x.
Proof.
  intro hb. assert (hbox : out_of_box box x = false <-> forall lo up, box = Some (lo, up) -> inside lo up x).
  { destruct box as [[lo up] |]; [| cbn; easy]. destruct (hb lo up eq_refl) as [l1 l2]. rewrite out_of_box_spec by congruence.
    split; [intros h lo' up' e; congruence | intro h; now apply h]. }
  unfold target_lp, finite_at. destruct (out_of_box box x).
  - split; [intros [v e]; discriminate |]. intros [_ h]. apply hbox in h. discriminate.
  - split.
    + intros [v e]. split; [| now apply hbox]. destruct (crit x) as [w |]; [| discriminate]. destruct w; try discriminate. now eexists.
    + intros [[v ->] _]. now exists (- v).
Qed.

Section C102.
Variables (vgrad : (list R -> fl) -> list R -> option (list R)) (xi : nat -> nat -> vec).
Variables (inf : option (info (list R -> option fl))) (crit : option (list R -> option fl)) (st : option arr) (rinit : bool) (ib sb : option box).
Variables (o : adapt_opts) (pol : wpolicy) (mass : option vec) (eps0 : fl) (M : nat) (delta_max : R) (S W nc : nat) (rand : list (list R)).
Notation run := (sample_nuts vgrad xi inf crit st rinit ib sb o pol mass eps0 M delta_max S W nc rand).
Notation prep := (prepare _ true inf crit st rinit ib sb nc rand).
(** the gradient of minus the log-density at a point, as computed by the backend *)
Definition grad_at (p : prepared (list R -> option fl)) (x : list R) : option (list R) := vgrad (fun y => fl_opp (target_lp (p_crit p) (p_box p) y)) x.

(** the samples have shape (n_chains, num_samples, dim); a chain whose starting point has a finite criterion and
    gradient, inside the sampling box, stays at such points; any other chain repeats its starting point *)
Theorem C102_samples : (forall a, st = Some a -> array_ok a) -> length rand = nc -> (forall p, prep = Some p -> forall r, In r rand -> length r = p_dim p) ->
  always run (fun r => forall samples n, r = Some (samples, n) -> exists p, prep = Some p /\ length samples = nc /\
    forall c rows, nth_error samples c = Some rows -> length rows = S /\ exists start, nth_error (p_states p) c = Some start /\
      (forall t x, nth_error rows t = Some x -> length x = p_dim p /\ exists r, entry n (W + t) c = Some r /\ x = of_vec (p_dim p) (o_q (c_out r))) /\
      (finite_at (p_crit p) (p_box p) start -> grad_at p start <> None ->
         forall x, In x rows -> finite_at (p_crit p) (p_box p) x /\ grad_at p x <> None) /\
      (~ finite_at (p_crit p) (p_box p) start \/ grad_at p start = None -> rows = repeat start S)).
Proof.
  intros ha hn hr. unfold sample_nuts. destruct prep as [p |] eqn:hp; [| cbn [always]; discriminate].
  destruct (C89_shape _ _ _ _ _ _ _ _ _ _ hp ha hn (hr p eq_refl)) as [hlen hmat].
  assert (hbl : forall lo up, p_box p = Some (lo, up) -> length lo = p_dim p /\ length up = p_dim p).
  { intros lo up e. apply prepare_inv in hp as [_ [_ [hsb _]]]. destruct sb as [b |]; [| congruence]. destruct hsb as [lh [e1 e2]]. assert (lh = (lo, up)) by congruence. subst lh.
    unfold normalize_box in e1. destruct (_ && _)%bool eqn:e3 in e1; [| discriminate]. apply andb_true_iff in e3 as [l1 l2]. apply Nat.eqb_eq in l1, l2.
    assert (elo : lo = flat_side (fst b) (p_dim p)) by congruence. assert (eup : up = flat_side (snd b) (p_dim p)) by congruence. now rewrite elo, eup. }
  unfold grad_at. destruct (make_log_prob_one (p_crit p) (p_box p)) as [f [hf hlp]]. rewrite hf. cbv zeta.
  set (lp := fun x => match f x with Some v => v | None => NInf end).
  assert (elp : lp = target_lp (p_crit p) (p_box p)) by (apply functional_extensionality; exact hlp).
  set (g := fun q => option_map to_vec (vgrad (fun x => fl_opp (lp x)) (of_vec (p_dim p) q))).
  set (lpv := fun q : vec => lp (of_vec (p_dim p) q)).
  set (inner := nuts_sample (p_dim p) lpv g xi M delta_max o pol mass eps0 (map to_vec (p_states p)) W S).
  assert (key : always inner (fun r => forall n, r = Some n -> length (n_warm n) = W /\ length (n_rows n) = S /\
    (forall rows, In rows (n_warm n ++ n_rows n) -> length rows = nc) /\
    forall c start, nth_error (p_states p) c = Some start -> forall t r, entry n t c = Some r ->
      (finite_at (p_crit p) (p_box p) start -> vgrad (fun x => fl_opp (lp x)) start <> None ->
         finite_at (p_crit p) (p_box p) (of_vec (p_dim p) (o_q (c_out r))) /\ vgrad (fun x => fl_opp (lp x)) (of_vec (p_dim p) (o_q (c_out r))) <> None) /\
      (~ finite_at (p_crit p) (p_box p) start \/ vgrad (fun x => fl_opp (lp x)) start = None -> o_q (c_out r) = to_vec start))).
  { assert (hall : forall c start, nth_error (p_states p) c = Some start -> always inner (fun r => forall n, r = Some n -> forall t r, entry n t c = Some r ->
      (finite_at (p_crit p) (p_box p) start -> vgrad (fun x => fl_opp (lp x)) start <> None ->
         finite_at (p_crit p) (p_box p) (of_vec (p_dim p) (o_q (c_out r))) /\ vgrad (fun x => fl_opp (lp x)) (of_vec (p_dim p) (o_q (c_out r))) <> None) /\
      (~ finite_at (p_crit p) (p_box p) start \/ vgrad (fun x => fl_opp (lp x)) start = None -> o_q (c_out r) = to_vec start))).
    { intros c start hs. assert (hd : length start = p_dim p) by (apply hmat; exact (nth_error_In _ _ hs)).
      assert (hq : nth_error (map to_vec (p_states p)) c = Some (to_vec start)) by (rewrite nth_error_map, hs; reflexivity).
      assert (hfin : (exists v, lpv (to_vec start) = Fin v) <-> finite_at (p_crit p) (p_box p) start).
      { unfold lpv. rewrite of_to by exact hd. rewrite elp. apply target_lp_finite. intros lo up e. destruct (hbl lo up e). lia. }
      assert (hg : g (to_vec start) = None <-> vgrad (fun x => fl_opp (lp x)) start = None).
      { unfold g. rewrite of_to by exact hd. destruct (vgrad _ start); cbn; split; congruence. }
      destruct (lpv (to_vec start)) as [v | | |] eqn:el.
      2-4: eapply always_mono; [| apply (C101_stuck _ _ _ _ _ _ _ _ _ _ _ _ _ c _ hq); left; intros v e; rewrite el in e; discriminate];
           intros r h n hrn t rw hrw; destruct (h n hrn t rw hrw) as [k _]; split; [intro hfs; apply hfin in hfs as [v e]; discriminate | now intros _].
      destruct (g (to_vec start)) as [g0 |] eqn:eg.
      - eapply always_mono; [| apply (C101_finite_start _ _ _ xi M delta_max o pol mass eps0 _ W S c _ v g0 hq el eg)].
        intros r h n hrn t rw hrw. destruct (h n hrn t rw hrw) as [[v' [_ k1]] [k2 _]]. split.
        + intros _ _. split.
          * apply target_lp_finite; [intros lo up e; destruct (hbl lo up e); rewrite of_vec_length; lia |]. exists v'. rewrite <- elp. exact k1.
          * intro e. apply k2. unfold g. now rewrite e.
        + intros [k | k]; [elim k; apply hfin; now exists v |]. apply hg in k. discriminate.
      - eapply always_mono; [| apply (C101_stuck _ _ _ _ _ _ _ _ _ _ _ _ _ c _ hq); right; exact eg].
        intros r h n hrn t rw hrw. destruct (h n hrn t rw hrw) as [k _]. split; [| now intros _]. intros _ hgn. elim hgn. now apply hg. }
    assert (hfor : forall (l : list nat), always inner (fun r => forall n, r = Some n -> forall c, In c l -> forall start, nth_error (p_states p) c = Some start -> forall t r, entry n t c = Some r ->
      (finite_at (p_crit p) (p_box p) start -> vgrad (fun x => fl_opp (lp x)) start <> None ->
         finite_at (p_crit p) (p_box p) (of_vec (p_dim p) (o_q (c_out r))) /\ vgrad (fun x => fl_opp (lp x)) (of_vec (p_dim p) (o_q (c_out r))) <> None) /\
      (~ finite_at (p_crit p) (p_box p) start \/ vgrad (fun x => fl_opp (lp x)) start = None -> o_q (c_out r) = to_vec start))).
    { induction l as [| c l ihl]; [apply always_true; intros r n _ c [] |].
      destruct (nth_error (p_states p) c) as [start |] eqn:hs.
      - eapply always_mono; [| apply always_and; [exact (hall c start hs) | exact ihl]]. intros r [h1 h2] n hrn c' [<- | hin] s' hs'; [assert (s' = start) by congruence; subst s'; now apply h1 | now apply (h2 n hrn c' hin)].
      - eapply always_mono; [| exact ihl]. intros r h2 n hrn c' [<- | hin] s' hs'; [congruence | now apply (h2 n hrn c' hin)]. }
    eapply always_mono; [| apply always_and; [exact (C101_transitions (p_dim p) lpv g xi M delta_max o pol mass eps0 (map to_vec (p_states p)) W S) | exact (hfor (seq 0 (length (p_states p))))]].
    intros r [h1 h2] n hrn. destruct (h1 n hrn) as [k1 [k2 [k3 _]]]. split; [exact k1 |]. split; [exact k2 |].
    split; [intros rows hin; rewrite (k3 rows hin), map_length; exact hlen |]. intros c start hs. apply (h2 n hrn c); [| exact hs].
    apply in_seq. split; [lia |]. cbn. apply nth_error_Some. congruence. }
  eapply always_bind; [exact key |]. clear key. intros [n |] h; cbn [always option_map]; [| discriminate].
  intros samples n' e. injection e as <- <-. destruct (h n eq_refl) as [h1 [h2 [h3 h4]]]. exists p. rewrite <- elp. split; [reflexivity |].
  split; [unfold swap01; now rewrite map_length, seq_length |].
  intros c rows hc. unfold swap01 in hc. rewrite nth_error_map in hc. destruct (nth_error (seq 0 (length (p_states p))) c) as [c' |] eqn:ec; [| discriminate].
  assert (hcl : (c < length (p_states p))%nat) by (rewrite <- (seq_length (length (p_states p)) 0); apply nth_error_Some; congruence).
  rewrite nth_error_seq' in ec by exact hcl. assert (c' = c) by (injection ec; intros; lia). subst c'. cbn [option_map] in hc.
  match type of hc with Some ?l = _ => assert (er : rows = l) by congruence end. clear hc ec. rewrite er.
  split; [now rewrite !map_length |]. destruct (nth_error (p_states p) c) as [start |] eqn:hs; [| apply nth_error_None in hs; lia].
  assert (hd : length start = p_dim p) by (apply hmat; exact (nth_error_In _ _ hs)).
  assert (hx : forall t x, nth_error rows t = Some x -> exists r, entry n (W + t) c = Some r /\ x = of_vec (p_dim p) (o_q (c_out r))).
  { intros t x ht. rewrite er, map_map, nth_error_map in ht. destruct (nth_error (n_rows n) t) as [rw |] eqn:erw; [| discriminate]. cbn [option_map] in ht.
    assert (hl : length rw = nc) by (apply h3, in_or_app; right; exact (nth_error_In _ _ erw)).
    unfold entry. rewrite nth_error_app2 by lia. replace (W + t - length (n_warm n))%nat with t by lia. rewrite erw.
    destruct (nth_error rw c) as [r |] eqn:ern; [| apply nth_error_None in ern; lia]. exists r. split; [reflexivity |].
    unfold positions in ht. rewrite map_map in ht. injection ht as <-. apply nth_error_nth. rewrite nth_error_map, ern. reflexivity. }
  exists start. split; [reflexivity |]. split; [| split].
  - intros t x ht. rewrite <- er in ht. destruct (hx t x ht) as [r [k1 ->]]. split; [apply of_vec_length | now exists r].
  - intros hfs hgs x hin. rewrite <- er in hin. apply In_nth_error in hin as [t ht]. destruct (hx t x ht) as [r [k1 ->]]. exact (proj1 (h4 c start hs _ r k1) hfs hgs).
  - intro hbad. rewrite <- er. apply nth_error_ext_eq. intro t. assert (hlr : length rows = S) by (rewrite er, !map_length; exact h2).
    destruct (Nat.lt_ge_cases t S) as [ht | ht].
    + rewrite nth_error_repeat by exact ht. destruct (nth_error rows t) as [x |] eqn:ex; [| apply nth_error_None in ex; lia].
      destruct (hx t x ex) as [r [k1 ->]]. rewrite (proj2 (h4 c start hs _ r k1) hbad). now rewrite of_to.
    + transitivity (@None (list R)); [apply nth_error_None; lia | symmetry; apply nth_error_None; rewrite repeat_length; lia].
Qed.
End C102.

(** NumPy backend: the gradient is a five-point difference, so at a point closer than 2h to a face of the sampling box
    it is not finite *)
Lemma collect_some {A} : forall (l : list (option A)), collect l <> None -> forall i, (i < length l)%nat -> exists a, nth_error l i = Some (Some a).
Proof.
  induction l as [| [a |] l ih]; intros h i hi; [cbn in hi; lia | | now elim h].
  destruct i as [| i]; [now exists a |]. cbn in *. apply ih; [| lia]. intro e. rewrite e in h. now elim h.
Qed.
Lemma set_coord_length x i v : (i < length x)%nat -> length (set_coord x i v) = length x.
Proof. intro h. unfold set_coord. rewrite app_length. cbn [length]. rewrite firstn_length, skipn_length. lia. Qed.
Lemma set_coord_same x i v : (i < length x)%nat -> nth i (set_coord x i v) 0 = v.
Proof. intro h. unfold set_coord. rewrite app_nth2; rewrite firstn_length, Nat.min_l by lia; [| lia]. now rewrite Nat.sub_diag. Qed.
Lemma np_grad_inside h crit lo up x : length lo = length x -> length up = length x ->
  np_grad h (fun y => fl_opp (target_lp crit (Some (lo, up)) y)) x <> None ->
  forall i, (i < length x)%nat -> nth i lo 0 + 2 * h <= nth i x 0 <= nth i up 0 - 2 * h.
Proof.
  intros hl hu hg i hi. unfold np_grad in hg. destruct (collect_some _ hg i) as [a ha]; [now rewrite map_length, seq_length |].
  rewrite nth_error_map, nth_error_seq' in ha by exact hi. cbn [option_map Nat.add] in ha. assert (hp : np_partial (fun y => fl_opp (target_lp crit (Some (lo, up)) y)) h x i = Some a) by congruence.
  assert (key : forall s v, fl_opp (target_lp crit (Some (lo, up)) (set_coord x i (nth i x 0 + s))) = Fin v -> nth i lo 0 <= nth i x 0 + s <= nth i up 0).
  { intros s v hv. set (y := set_coord x i (nth i x 0 + s)) in *. assert (hy : length y = length x) by now apply set_coord_length.
    assert (hf : finite_at crit (Some (lo, up)) y).
    { apply target_lp_finite; [intros lo' up' e; assert (lo' = lo /\ up' = up) as [-> ->] by (split; congruence); lia |].
      destruct (target_lp crit (Some (lo, up)) y); cbn in hv; try discriminate. now eexists. }
    destruct hf as [_ hin]. destruct (hin lo up eq_refl) as [_ [_ k]]. specialize (k i ltac:(lia)). unfold y in k. rewrite set_coord_same in k by exact hi. exact k. }
  unfold np_partial in hp.
  destruct (fl_opp (target_lp crit (Some (lo, up)) (set_coord x i (nth i x 0 + 2 * h)))) eqn:e1; try discriminate.
  destruct (fl_opp (target_lp crit (Some (lo, up)) (set_coord x i (nth i x 0 + h)))); try discriminate.
  destruct (fl_opp (target_lp crit (Some (lo, up)) (set_coord x i (nth i x 0 + - h)))); try discriminate.
  destruct (fl_opp (target_lp crit (Some (lo, up)) (set_coord x i (nth i x 0 + - (2 * h))))) eqn:e4; try discriminate.
  destruct (key _ _ e1). destruct (key _ _ e4). lra.
Qed.
(** the finite difference is the derivative whenever the function is a polynomial of degree at most four along the coordinate *)
Theorem C102_numpy_gradient f h x (g : nat -> R) : h <> 0 ->
  (forall i, (i < length x)%nat -> exists a2 a3 a4 v, forall s, f (set_coord x i (nth i x 0 + s)) = Fin (v + g i * s + a2 * s ^ 2 + a3 * s ^ 3 + a4 * s ^ 4)) ->
  np_grad h f x = Some (map g (seq 0 (length x))).
Proof.
  intros h0 H. unfold np_grad. assert (K : forall l, (forall i, In i l -> (i < length x)%nat) -> collect (map (np_partial f h x) l) = Some (map g l)).
  { induction l as [| i l IH]; intro hl; [reflexivity |]. cbn [map collect]. destruct (H i (hl i (or_introl eq_refl))) as [a2 [a3 [a4 [v hv]]]].
    unfold np_partial at 1. cbv zeta. rewrite !hv. rewrite IH by (intros j hj; apply hl; right; exact hj). cbn [option_map]. do 2 f_equal. field. exact h0. }
  apply K. intros i hi. apply in_seq in hi. lia.
Qed.
Theorem C102_numpy_faces h xi inf crit st rinit ib sb o pol mass eps0 M delta_max S W nc rand :
  (forall a, st = Some a -> array_ok a) -> length rand = nc ->
  (forall p, prepare _ true inf crit st rinit ib sb nc rand = Some p -> forall r, In r rand -> length r = p_dim p) ->
  always (sample_nuts (np_grad h) xi inf crit st rinit ib sb o pol mass eps0 M delta_max S W nc rand) (fun r => forall samples n, r = Some (samples, n) ->
    exists p, prepare _ true inf crit st rinit ib sb nc rand = Some p /\
    forall lo up c rows start, p_box p = Some (lo, up) -> nth_error samples c = Some rows -> nth_error (p_states p) c = Some start ->
      (forall x, In x rows -> x = start \/ forall i, (i < p_dim p)%nat -> nth i lo 0 + 2 * h <= nth i x 0 <= nth i up 0 - 2 * h) /\
      ((exists i, (i < p_dim p)%nat /\ (nth i start 0 < nth i lo 0 + 2 * h \/ nth i up 0 - 2 * h < nth i start 0)) -> rows = repeat start S)).
Proof.
  intros ha hn hr. pose proof (C102_samples (np_grad h) xi inf crit st rinit ib sb o pol mass eps0 M delta_max S W nc rand ha hn hr) as hs.
  eapply always_mono; [| exact hs]. clear hs. intros r hk samples n e. destruct (hk samples n e) as [p [hp [hl hrows]]]. exists p. split; [exact hp |].
  destruct (C89_shape _ _ _ _ _ _ _ _ _ _ hp ha hn (hr p hp)) as [_ hmat].
  intros lo up c rows start hb hc hst. destruct (hrows c rows hc) as [hlr [start' [hst' [hx [hfin hstuck]]]]]. assert (start' = start) by congruence. subst start'.
  assert (hd : length start = p_dim p) by (apply hmat; exact (nth_error_In _ _ hst)).
  assert (hbl : length lo = p_dim p /\ length up = p_dim p).
  { apply prepare_inv in hp as [_ [_ [hsb _]]]. destruct sb as [b |]; [| congruence]. destruct hsb as [lh [e1 e2]]. assert (lh = (lo, up)) by congruence. subst lh.
    unfold normalize_box in e1. destruct (_ && _)%bool eqn:e3 in e1; [| discriminate]. apply andb_true_iff in e3 as [l1 l2]. apply Nat.eqb_eq in l1, l2.
    assert (elo : lo = flat_side (fst b) (p_dim p)) by congruence. assert (eup : up = flat_side (snd b) (p_dim p)) by congruence. now rewrite elo, eup. }
  destruct hbl as [hlo hup].
  assert (face : forall x, length x = p_dim p -> grad_at (np_grad h) p x <> None -> forall i, (i < p_dim p)%nat -> nth i lo 0 + 2 * h <= nth i x 0 <= nth i up 0 - 2 * h).
  { intros x hlx hg i hi. unfold grad_at in hg. rewrite hb in hg. apply (np_grad_inside h (p_crit p) lo up x); try lia. exact hg. }
  split.
  - intros x hin. destruct (grad_at (np_grad h) p start) as [g |] eqn:eg.
    + destruct (out_of_box (p_box p) start) eqn:eo.
      * left. assert (rows = repeat start S) as ->; [| exact (repeat_spec _ _ _ hin)]. apply hstuck. left. intros [_ hi]. rewrite hb in eo, hi.
        assert (out_of_box (Some (lo, up)) start = false) by (apply out_of_box_spec; [lia | lia | now apply hi]). congruence.
      * destruct (p_crit p start) as [[v | | |] |] eqn:ec;
          try (left; assert (rows = repeat start S) as ->; [apply hstuck; left; intros [[v' hv] _]; congruence | exact (repeat_spec _ _ _ hin)]).
        right. assert (hf : finite_at (p_crit p) (p_box p) start).
        { split; [now exists v |]. intros lo' up' e'. assert (lo' = lo /\ up' = up) as [-> ->] by (split; congruence). rewrite hb in eo. apply out_of_box_spec; [lia | lia | exact eo]. }
        destruct (hfin hf ltac:(congruence) x hin) as [_ hgx]. apply face; [| exact hgx]. apply In_nth_error in hin as [t ht]. exact (proj1 (hx t x ht)).
    + left. rewrite hstuck in hin by now right. exact (repeat_spec _ _ _ hin).
  - intros [i [hi hclose]]. apply hstuck. right. destruct (grad_at (np_grad h) p start) as [g |] eqn:eg; [| reflexivity].
    exfalso. assert (k := face start hd ltac:(congruence) i hi). lra.
Qed.

(** options: without an options object the arguments are used; with one, an argument is used only if it differs from
    its default, so a default value given explicitly does not override the object *)
Theorem C102_options {A} (options : option (nopts A)) (args : nopts A) : let r := resolve_nuts_options options args in
  (options = None -> r = args) /\
  forall op, options = Some op ->
    (no_warmup args = 1000%Z -> no_warmup r = no_warmup op) /\ (no_warmup args <> 1000%Z -> no_warmup r = no_warmup args) /\
    (no_target args = 8 / 10 -> no_target r = no_target op) /\ (no_target args <> 8 / 10 -> no_target r = no_target args) /\
    (no_depth args = 10%Z -> no_depth r = no_depth op) /\ (no_depth args <> 10%Z -> no_depth r = no_depth args) /\
    (no_delta args = 1000 -> no_delta r = no_delta op) /\ (no_delta args <> 1000 -> no_delta r = no_delta args) /\
    (no_jitter args = 1 / 10000 -> no_jitter r = no_jitter op) /\ (no_jitter args <> 1 / 10000 -> no_jitter r = no_jitter args) /\
    (no_step args = None -> no_step r = no_step op) /\ (no_step args <> None -> no_step r = no_step args) /\
    (no_mass args = None -> no_mass r = no_mass op) /\ (no_mass args <> None -> no_mass r = no_mass args) /\
    (no_seed args = None -> no_seed r = no_seed op) /\ (no_seed args <> None -> no_seed r = no_seed args).
Proof.
  intro r. split; [intro h; unfold r; rewrite h; destruct args; reflexivity |]. intros op h. unfold r. rewrite h. clear r h.
  destruct op as [w1 t1 d1 e1 j1 s1 m1 z1], args as [w2 t2 d2 e2 j2 s2 m2 z2]. unfold resolve_nuts_options, resolve, reqb. cbn [option_map no_warmup no_target no_depth no_delta no_jitter no_step no_mass no_seed].
  destruct (Z.eqb_spec w2 1000), (Z.eqb_spec d2 10).
  all: repeat match goal with |- context [if (if Req_EM_T ?a ?b then true else false) then _ else _] => destruct (Req_EM_T a b) end.
  all: destruct s2, m2, z2; cbn [is_none]; repeat split; intro; (reflexivity || contradiction || discriminate || congruence).
Qed.

(** ** cases *)
Definition ex_lp (q : vec) : fl := Fin (- (q 0%nat * q 0%nat) / 2).
Definition ex_run (q_init : list vec) := nuts_sample 1 ex_lp (fun q => Some q) (fun _ _ _ => 1) 3 1000 default_opts default_policy None (Fin 1) q_init 2 2.
Lemma always_exists {A} (m : rnd A) P : always m P -> exists a, possible m a /\ P a.
Proof.
  induction m as [a | k ih]; cbn [always possible]; [intro h; exists a; now split |]. intro h. assert (h0 : 0 <= 0 < 1) by lra.
  destruct (ih 0 (h 0 h0)) as [a [h1 h2]]. exists a. split; [now exists 0 | exact h2].
Qed.
(** two chains, two warm-up and two sampling iterations *)
Example C101_case : exists n, possible (ex_run [(fun _ => 0); (fun _ => 1)]) (Some n) /\ length (n_warm n) = 2%nat /\ length (n_rows n) = 2%nat /\
  forall t c, (t < 4)%nat -> (c < 2)%nat -> exists r v, entry n t c = Some r /\ c_lp r = Fin v /\ (o_nlf (c_out r) <= 7)%nat.
Proof.
  set (qs := [(fun _ : nat => 0); (fun _ : nat => 1)]).
  assert (h1 : always (ex_run qs) (fun r => r <> None)).
  { apply C101_no_overflow; try (cbn; lra); try discriminate.
    cbn [default_opts a_factor a_max a_target a_gamma]. assert (h0 : ln (10 * 100) < 10 * ln 2).
    { replace (10 * ln 2) with (ln (2 ^ 10)) by (rewrite ln_pow by lra; cbn [INR]; ring). apply ln_increasing; [lra |]. cbn [pow]. lra. }
    assert (hs : sqrt (INR 2) <= 2) by (apply Rsqr_incr_0_var; [rewrite Rsqr_sqrt by (cbn; lra); unfold Rsqr; cbn; lra | lra]).
    pose proof ln_lt_2. replace ((1 - 8 / 10) / (5 / 100)) with 4 by field. lra. }
  assert (h2 := C101_transitions 1 ex_lp (fun q => Some q) (fun _ _ _ => 1) 3 1000 default_opts default_policy None (Fin 1) qs 2 2). fold (ex_run qs) in h2.
  assert (h3 := C101_finite_start 1 ex_lp (fun q => Some q) (fun _ _ _ => 1) 3 1000 default_opts default_policy None (Fin 1) qs 2 2 0 _ _ _ eq_refl eq_refl eq_refl). fold (ex_run qs) in h3.
  assert (h4 := C101_finite_start 1 ex_lp (fun q => Some q) (fun _ _ _ => 1) 3 1000 default_opts default_policy None (Fin 1) qs 2 2 1 _ _ _ eq_refl eq_refl eq_refl). fold (ex_run qs) in h4.
  destruct (always_exists _ _ (always_and _ _ _ h1 (always_and _ _ _ h2 (always_and _ _ _ h3 h4)))) as [[n |] [hp [k1 [k2 [k3 k4]]]]]; [| congruence].
  exists n. split; [exact hp |]. destruct (k2 n eq_refl) as [l1 [l2 [l3 _]]]. split; [exact l1 |]. split; [exact l2 |]. intros t c ht hc.
  destruct (nth_error (n_warm n ++ n_rows n) t) as [rows |] eqn:er; [| apply nth_error_None in er; rewrite app_length in er; lia].
  assert (hl : length rows = 2%nat) by exact (l3 rows (nth_error_In _ _ er)). destruct (nth_error rows c) as [r |] eqn:ec; [| apply nth_error_None in ec; lia].
  assert (he : entry n t c = Some r) by (unfold entry; now rewrite er).
  assert (k : exists v, c_lp r = Fin v /\ (o_depth (c_out r) <= 3)%nat /\ (o_nlf (c_out r) <= 2 ^ o_depth (c_out r) - 1)%nat).
  { destruct c as [| [| c]]; [destruct (k3 n eq_refl t r he) as [[v [a _]] [_ [b [e _]]]] | destruct (k4 n eq_refl t r he) as [[v [a _]] [_ [b [e _]]]] | lia]; now exists v. }
  destruct k as [v [a [b e]]]. exists r, v. split; [exact he |]. split; [exact a |]. assert ((2 ^ o_depth (c_out r) <= 2 ^ 3)%nat) by (apply Nat.pow_le_mono_r; lia). change (2 ^ 3)%nat with 8%nat in *. lia.
Qed.
(** a starting point one step of the difference stencil from the face of the box [0,1]: every returned sample is the
    starting point, while a starting point in the middle is accepted with a finite gradient *)
Definition ex_crit (x : list R) : option fl := Some (Fin (nth 0 x 0)).
Definition ex_entry (h a : R) := sample_nuts (np_grad h) (fun _ _ _ => 1) None (Some ex_crit) (Some (A1 [a])) false None (Some (Bnum 0, Bnum 1))
  default_opts default_policy None (Fin 1) 10 1000 3 0 1 [[0]].
Example C102_numpy_gradient_case : np_grad (1 / 100000) (fun y => Fin (nth 0 y 0 ^ 2 + 3 * nth 1 y 0)) [5; 7] = Some [10; 3].
Proof.
  rewrite (C102_numpy_gradient _ _ [5; 7] (fun i => nth i [10; 3] 0)); [reflexivity | lra |].
  intros [| [| i]] hi; cbn in hi; [| | lia].
  - exists 1, 0, 0, 46. intro s. cbn. f_equal. ring.
  - exists 0, 0, 0, 46. intro s. cbn. f_equal. ring.
Qed.
Example C102_case : exists samples n, possible (ex_entry (1 / 100000) (1 / 100000)) (Some (samples, n)) /\ samples = [[[1 / 100000]; [1 / 100000]; [1 / 100000]]] /\
  np_grad (1 / 100000) (fun y => fl_opp (target_lp ex_crit (Some ([0], [1])) y)) [1 / 2] <> None.
Proof.
  assert (hprep : prepare _ true None (Some ex_crit) (Some (A1 [1 / 100000])) false None (Some (Bnum 0, Bnum 1)) 1 [[0]] = Some (mkPrep ex_crit 1 (Some ([0], [1])) [[1 / 100000]])) by reflexivity.
  assert (h1 : always (ex_entry (1 / 100000) (1 / 100000)) (fun r => r <> None)).
  { unfold ex_entry, sample_nuts. rewrite hprep. destruct (make_log_prob_one ex_crit (Some ([0], [1]))) as [f [hf _]]. cbn [p_crit p_box p_dim p_states]. rewrite hf. cbv zeta.
    eapply always_bind; [apply C101_no_overflow; try (cbn; lra); try discriminate |].
    - cbn [default_opts a_factor a_max a_target a_gamma INR]. rewrite sqrt_0. assert (h0 : ln (10 * 100) < 10 * ln 2).
      { replace (10 * ln 2) with (ln (2 ^ 10)) by (rewrite ln_pow by lra; cbn [INR]; ring). apply ln_increasing; [lra |]. cbn [pow]. lra. }
      pose proof ln_lt_2. lra.
    - intros [n |] hn; [| congruence]. cbn [always option_map]. discriminate. }
  assert (h2 := C102_numpy_faces (1 / 100000) (fun _ _ _ => 1) None (Some ex_crit) (Some (A1 [1 / 100000])) false None (Some (Bnum 0, Bnum 1)) default_opts default_policy None (Fin 1) 10 1000 3 0 1 [[0]]).
  assert (h3 := C102_samples (np_grad (1 / 100000)) (fun _ _ _ => 1) None (Some ex_crit) (Some (A1 [1 / 100000])) false None (Some (Bnum 0, Bnum 1)) default_opts default_policy None (Fin 1) 10 1000 3 0 1 [[0]]).
  assert (a1 : forall a, Some (A1 [1 / 100000]) = Some a -> array_ok a) by (intros a e; injection e as <-; exact I).
  assert (a2 : forall p, prepare _ true None (Some ex_crit) (Some (A1 [1 / 100000])) false None (Some (Bnum 0, Bnum 1)) 1 [[0]] = Some p -> forall r, In r [[0]] -> length r = p_dim p).
  { intros p e. rewrite hprep in e. injection e as <-. intros r [<- | []]. reflexivity. }
  specialize (h2 a1 eq_refl a2). specialize (h3 a1 eq_refl a2).
  destruct (always_exists _ _ (always_and _ _ _ h1 (always_and _ _ _ h2 h3))) as [[[samples n] |] [hp [k1 [k2 k3]]]]; [| congruence].
  exists samples, n. split; [exact hp |]. split.
  - destruct (k2 samples n eq_refl) as [p [ep hk]]. destruct (k3 samples n eq_refl) as [p' [_ [hl _]]]. rewrite hprep in ep. injection ep as <-.
    destruct samples as [| rows [| r2 rest]]; try discriminate. f_equal. cbn [p_box p_dim p_states] in hk.
    apply (hk [0] [1] 0%nat rows [1 / 100000] eq_refl eq_refl eq_refl). exists 0%nat. split; [lia |]. cbn [nth]. left. lra.
  - unfold np_grad, np_partial, set_coord, target_lp, out_of_box, ex_crit. cbn [map seq length collect firstn skipn nth app zip2 existsb]. unfold rltb.
    repeat match goal with |- context [Rlt_dec ?a ?b] => destruct (Rlt_dec a b); [exfalso; lra |] end. cbn. discriminate.
Qed.
Example C102_options_case : no_warmup (resolve_nuts_options (Some (NOpts (M := vec) 200 (9 / 10) 10 1000 (1 / 10000) None None None)) (nopts_default (M := vec))) = 200%Z.
Proof. reflexivity. Qed.
Print Assumptions C101_transitions.
Print Assumptions C101_finite_start.
Print Assumptions C101_stuck.
Print Assumptions C101_depth_zero.
Print Assumptions C101_steps_and_masses.
Print Assumptions C101_no_overflow.
Print Assumptions C101_no_chains.
Print Assumptions C102_samples.
Print Assumptions C102_numpy_faces.
Print Assumptions C102_options.
Print Assumptions C102_numpy_gradient.
