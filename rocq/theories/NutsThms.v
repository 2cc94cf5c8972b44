(** No-U-Turn sampler: theorems for C61-C65, C81 and C82. *)
From Coq Require Import List Arith ZArith Reals Bool Lra Lia FunctionalExtensionality.
From Coquelicot Require Import Coquelicot.
From Verif Require Import ConfigModel FlModel PriorModel SelectProofs SmcModel SmcProofs NutsModel NutsProofs NutsProofs2 NutsProofs3 NutsProofs4 NutsProofs5 NutsProofs6.
Import ListNotations.
Local Open Scope R_scope.

(** * C61 *)
Theorem C61_leapfrog_reversible (pot : vec -> option (R * vec)) im z e z1 U U1 :
  pot (pq z) = Some (U, pg z) -> leapfrog pot im z e = Some (z1, U1) -> leapfrog pot im z1 (- e) = Some (z, U).
Proof. intros h1 h2. exact (leapfrog_reverse pot im z e z1 U1 U h1 h2). Qed.
Theorem C61_composition_of_shears (U : vec -> R) grad im e q p :
  leapfrog (fun x => Some (U x, grad x)) im (Phase q p (grad q)) e =
    (let qp := kick grad (1 / 2 * e) (drift im e (kick grad (1 / 2 * e) (q, p))) in Some (Phase (fst qp) (snd qp) (grad (fst qp)), U (fst qp))) /\
  (forall h qp, kick grad (- h) (kick grad h qp) = qp /\ fst (kick grad h qp) = fst qp) /\
  (forall qp, drift im (- e) (drift im e qp) = qp /\ snd (drift im e qp) = snd qp).
Proof.
  split; [apply leapfrog_shears |]. split; [intros h qp; split; [apply kick_inv | reflexivity] | intro qp; split; [apply drift_inv | reflexivity]].
Qed.
(** one dimension: position and momentum after the step as functions of those before *)
Definition flow1 (grad : R -> R) (im e : R) (q p : R) : R * R :=
  match leapfrog (fun x => Some (0, fun _ => grad (x 0%nat))) (fun _ => im) (Phase (fun _ => q) (fun _ => p) (fun _ => grad q)) e with
  | Some (z, _) => (pq z 0%nat, pp z 0%nat)
  | None => (q, p)
  end.
Theorem C61_volume_preserving (grad grad' : R -> R) im e q p : (forall x, is_derive grad x (grad' x)) ->
  exists a b c d, is_derive (fun x => fst (flow1 grad im e x p)) q a /\ is_derive (fun y => fst (flow1 grad im e q y)) p b /\
    is_derive (fun x => snd (flow1 grad im e x p)) q c /\ is_derive (fun y => snd (flow1 grad im e q y)) p d /\ a * d - b * c = 1.
Proof.
  intro hg.
  assert (eQ : forall x y, fst (flow1 grad im e x y) = x + e * ((y - 1 / 2 * e * grad x) * im)) by reflexivity.
  assert (eP : forall x y, snd (flow1 grad im e x y) = y - 1 / 2 * e * grad x - 1 / 2 * e * grad (x + e * ((y - 1 / 2 * e * grad x) * im))) by reflexivity.
  assert (hex : forall x, ex_derive grad x) by (intro x; eexists; apply hg). assert (hD : forall x, Derive grad x = grad' x) by (intro x; apply is_derive_unique, hg).
  set (Q := q + e * ((p - 1 / 2 * e * grad q) * im)).
  exists (1 - e * (1 / 2 * e * grad' q) * im), (e * im),
    (- (1 / 2 * e * grad' q) - 1 / 2 * e * (grad' Q * (1 - e * (1 / 2 * e * grad' q) * im))), (1 - 1 / 2 * e * (grad' Q * (e * im))).
  split; [| split; [| split; [| split]]].
  - eapply is_derive_ext; [intro x; symmetry; apply eQ |]. auto_derive; [auto |]. rewrite hD. ring.
  - eapply is_derive_ext; [intro x; symmetry; apply eQ |]. auto_derive; [auto |]. ring.
  - eapply is_derive_ext; [intro x; symmetry; apply eP |]. auto_derive; [repeat split; auto |]. rewrite !hD.
    replace (q + e * ((p + - (1 / 2 * e * grad q)) * im)) with Q by (unfold Q; field). field.
  - eapply is_derive_ext; [intro x; symmetry; apply eP |]. auto_derive; [repeat split; auto |]. rewrite !hD.
    replace (q + e * ((p + - (1 / 2 * e * grad q)) * im)) with Q by (unfold Q; field). field.
  - unfold Rdiv. ring.
Qed.
Theorem C61_modified_energy d lam im e z z1 U1 : (forall i, pg z i = lam i * pq z i) -> leapfrog (quad_pot d lam) im z e = Some (z1, U1) ->
  forall i, im i * (pp z1 i * pp z1 i) + lam i * (1 - e * e * (im i * lam i) / 4) * (pq z1 i * pq z1 i) =
            im i * (pp z i * pp z i) + lam i * (1 - e * e * (im i * lam i) / 4) * (pq z i * pq z i).
Proof.
  intros hg h i. assert (hs : step (quad_pot d lam) im e true z = Some z1) by (unfold step; now rewrite h).
  exact (proj2 (quad_conserved d lam im e z z1 hg hs) i).
Qed.
Example C61_ex : exists z1 U1, leapfrog (quad_pot 1 one_v) one_v (quad_state one_v one_v (fun _ => 0)) 1 = Some (z1, U1) /\
  pq z1 0%nat = 1 / 2 /\ pp z1 0%nat = - 3 / 4.
Proof. eexists. eexists. split; [reflexivity |]. cbn [pq pp]. unfold quad_state, one_v. cbn. split; field. Qed.
Print Assumptions C61_leapfrog_reversible.
Print Assumptions C61_composition_of_shears.
Print Assumptions C61_volume_preserving.
Print Assumptions C61_modified_energy.

(** * C62 *)
Theorem C62_tree_counts d pot im eps delta_max j z log_u fwd H0 :
  always (build_tree d pot im eps delta_max j z log_u fwd H0) (fun t =>
    (1 <= t_nlf t <= 2 ^ j)%nat /\ (t_n t <= t_nalpha t <= t_nlf t)%nat /\ 0 <= t_alpha t <= INR (t_nalpha t) /\
    (t_div t = true -> t_s t = false) /\ (t_s t = true -> t_nlf t = (2 ^ j)%nat)).
Proof.
  eapply always_mono; [| apply build_counts]. intros t [h1 [h2 [h3 h4]]]. split; [exact h1 |]. split; [exact h2 |]. split; [exact h3 |].
  split; [| intro h; exact (proj2 (h4 h))]. intro hd. destruct (t_s t) eqn:e; [| reflexivity]. destruct (h4 eq_refl); congruence.
Qed.
(** the proposal is the position of a state of the trajectory through z, at most 2^j steps in the direction of growth *)
Theorem C62_tree_proposal d pot im eps delta_max j z log_u (fwd : bool) H0 : consistent pot z ->
  always (build_tree d pot im eps delta_max j z log_u fwd H0) (fun t => (0 < t_n t)%nat ->
    exists k z1, (1 <= k <= 2 ^ j)%nat /\ steps pot im eps k fwd z = Some z1 /\ log_u <= - energy d pot im z1 /\ t_prop t = pq z1).
Proof.
  intro hc. assert (hs := fun i z' v h => orbit_step pot im eps z i z' v hc h).
  eapply always_mono; [| exact (build_from d pot im eps delta_max log_u H0 _ hs j 0%Z z fwd eq_refl)].
  intros t h hn. destruct (h hn) as [k [z1 [hk [ho [hv hq]]]]]. exists (Z.to_nat (Z.abs k)), z1.
  assert (hP : P j = Z.of_nat (2 ^ j)) by reflexivity. unfold valid in hv. rewrite ho in hv. apply rleb_iff in hv.
  unfold lo in hk. unfold orbit in ho. destruct fwd.
  - split; [lia |]. destruct (Z.leb_spec 0 k); [| lia]. rewrite Z.abs_eq by lia. now repeat split.
  - split; [lia |]. destruct (Z.leb_spec 0 k); [lia |]. rewrite Z.abs_neq by lia. now repeat split.
Qed.
Theorem C62_transition d pot im eps delta_max vfin M q0 p0 log_u U0 g0 : pot q0 = Some (U0, g0) ->
  always (nuts_slice d pot im eps delta_max vfin M q0 p0 log_u) (fun r =>
    (o_depth r <= M)%nat /\ (o_nlf r <= 2 ^ o_depth r - 1)%nat /\ 0 <= o_accept r <= 1 /\
    (o_q r = q0 \/ exists k z, (Z.abs k < Z.of_nat (2 ^ M))%Z /\ orbit pot im eps (Phase q0 p0 g0) k = Some z /\
       log_u <= - energy d pot im z /\ o_q r = pq z)).
Proof.
  intro hp. unfold nuts_slice. rewrite hp. set (z0 := Phase q0 p0 g0). assert (hc : consistent pot z0) by (exists U0; exact hp).
  assert (hs := fun i z' v h => orbit_step pot im eps z0 i z' v hc h).
  set (H0 := U0 + kinetic d im p0).
  assert (h1 : walk_counts (start_walk z0)) by (unfold walk_counts, start_walk; cbn; repeat split; try lia; lra).
  assert (c := loop_counts d pot im eps delta_max log_u H0 M (start_walk z0) h1).
  assert (f := loop_from d pot im eps delta_max log_u H0 (orbit pot im eps z0) hs q0 (- (Z.of_nat (2 ^ M) - 1)) (Z.of_nat (2 ^ M)) M 0 (start_walk z0)).
  eapply always_bind; [apply always_and; [exact c | apply f] |]; clear c f; try (unfold start_walk; cbn [w_minus w_plus w_depth w_n w_prop]; rewrite ?P_0; unfold P; (reflexivity || lia || (now left))).
  intros w [[hcount hdep] hfrom]. cbn [always]. unfold finish. cbn [o_depth o_nlf o_accept o_q]. destruct hcount as [a1 [a2 a3]].
  cbn [start_walk w_depth] in hdep. split; [lia |]. split; [exact a1 |]. split.
  - assert (hm : 1 <= INR (Nat.max 1 (w_nalpha w))) by (change 1 with (INR 1) at 1; apply le_INR; lia).
    assert (hm2 : INR (w_nalpha w) <= INR (Nat.max 1 (w_nalpha w))) by (apply le_INR; lia).
    split; apply Rmult_le_reg_r with (INR (Nat.max 1 (w_nalpha w))); try lra; unfold Rdiv; rewrite Rmult_assoc, Rinv_l by lra; lra.
  - destruct hfrom as [h | [k [z [hk [ho [hv hq]]]]]]; [now left | right]. exists k, z. split; [lia |]. split; [exact ho |].
    unfold valid in hv. rewrite ho in hv. apply rleb_iff in hv. now split.
Qed.
(** whatever the slice level drawn, the new position is finite: the starting one or one whose energy is at most
    the starting energy minus the logarithm of the uniform number *)
Theorem C62_transition_finite d pot im eps delta_max vfin M q0 p0 U0 g0 : pot q0 = Some (U0, g0) ->
  always (nuts_transition d pot im eps delta_max vfin M q0 p0) (fun r =>
    (o_nlf r <= 2 ^ M - 1)%nat /\ 0 <= o_accept r <= 1 /\ exists U g, pot (o_q r) = Some (U, g)).
Proof.
  intro hp. unfold nuts_transition. rewrite hp. cbn [always]. intros u hu.
  eapply always_mono; [| apply (C62_transition d pot im eps delta_max vfin M q0 p0 _ U0 g0 hp)].
  intros r [h1 [h2 [h3 h4]]]. split.
  - assert ((2 ^ o_depth r <= 2 ^ M)%nat) by (apply Nat.pow_le_mono_r; lia). lia.
  - split; [exact h3 |]. destruct h4 as [-> | [k [z [_ [ho [_ ->]]]]]]; [now exists U0, g0 |].
    assert (hc : consistent pot (Phase q0 p0 g0)) by (exists U0; exact hp).
    destruct (orbit_consistent pot im eps _ k z hc ho) as [U hU]. now exists U, (pg z).
Qed.
(** a subtree that stops, by a turn inside it or by a divergence, contributes no position: if every subtree that the next doubling
    can build stops, the position chosen so far is kept and the loop ends there *)
Theorem C62_stopped_subtree d pot im eps delta_max m log_u H0 w :
  (forall fwd : bool, always (build_tree d pot im eps delta_max (w_depth w) (if fwd then w_plus w else w_minus w) log_u fwd H0) (fun t => t_s t = false)) ->
  always (nuts_loop d pot im eps delta_max (S m) log_u H0 w) (fun w' => w_prop w' = w_prop w /\ w_depth w' = S (w_depth w)).
Proof.
  intro h. cbn [nuts_loop always]. intros u _. cbv zeta. set (fwd := negb (rltb u (1 / 2))).
  eapply always_bind; [apply (h fwd) |]. intros t ht. rewrite ht. cbn [andb]. unfold pick. cbn [andb bind always]. now split.
Qed.
(** a start of non-finite density is returned unchanged and flagged; so is one with a non-finite gradient, after one
    leapfrog step *)
Theorem C62_nonfinite_start d pot im eps delta_max vfin M q0 p0 : pot q0 = None -> (1 <= M)%nat ->
  nuts_transition d pot im eps delta_max vfin M q0 p0 = Ret (NutsOut q0 0 (if vfin q0 then 1 else 0) (if vfin q0 then 1 else 0) true).
Proof. intros h hM. unfold nuts_transition, stuck. rewrite h. destruct M; [lia |]. now destruct (vfin q0). Qed.
Example C62_ex : four_pot (fun _ => 0) = Some (- 1 / 2, fun _ => 0) /\
  exists z1, steps four_pot one_v 1 3 true (four_state 0) = Some z1 /\ pq z1 0%nat = 3.
Proof.
  split; [unfold four_pot; cbv zeta; rl; reflexivity |].
  assert (h : forall i, (0 <= i < 3)%Z -> step four_pot one_v 1 true (four_state i) = Some (four_state (i + 1))).
  { intros i hi. assert (ho : four_orbit i = Some (four_state i)) by (unfold four_orbit; destruct (Z.leb_spec 0 i), (Z.leb_spec i 3); (reflexivity || lia)).
    rewrite (four_step i (four_state i) true ho). unfold four_orbit. destruct (Z.leb_spec 0 (i + 1)), (Z.leb_spec (i + 1) 3); (reflexivity || lia). }
  exists (four_state 3). split; [| reflexivity]. cbn [steps]. rewrite (h 0%Z) by lia. cbn [Z.add]. rewrite (h 1%Z) by lia. exact (h 2%Z ltac:(lia)).
Qed.
Print Assumptions C62_tree_counts.
Print Assumptions C62_tree_proposal.
Print Assumptions C62_transition.
Print Assumptions C62_transition_finite.
Print Assumptions C62_stopped_subtree.
Print Assumptions C62_nonfinite_start.

(** * C63 *)
Theorem C63_windows_tile init_buffer term_buffer base_window num_warmup : (1 <= base_window)%Z ->
  exists ws, windows_of init_buffer term_buffer base_window num_warmup = Some ws /\
  if (init_buffer <? num_warmup - term_buffer)%Z
  then ws <> [] /\ tiles init_buffer (num_warmup - term_buffer) ws /\ doubling base_window ws
  else ws = [].
Proof.
  intro h. destruct (Z.ltb_spec init_buffer (num_warmup - term_buffer)) as [h1 | h1].
  - destruct (windows_of_spec init_buffer term_buffer base_window num_warmup h h1) as [ws [a [b [c e]]]]. exists ws. auto.
  - exists []. split; [| reflexivity]. unfold windows_of. cbv zeta. destruct (Z.leb_spec (num_warmup - term_buffer) init_buffer); [reflexivity | lia].
Qed.
(** an iteration is in exactly one window, or in a buffer *)
Theorem C63_windows_partition lo hi ws : tiles lo hi ws -> forall t,
  ((lo <= t < hi)%Z -> exists! w, In w ws /\ (fst w <= t < snd w)%Z) /\ (~ (lo <= t < hi)%Z -> forall w, In w ws -> ~ (fst w <= t < snd w)%Z).
Proof.
  intros h t. split.
  - intro ht. destruct (tiles_cover lo hi ws h t ht) as [a [b [hin hab]]]. exists (a, b). split; [split; [exact hin | exact hab] |].
    intros [a' b'] [hin' hab']. cbn [fst snd] in hab'. destruct (tiles_disjoint lo hi ws h a b a' b' hin hin') as [e | [e | e]]; [exact e | lia | lia].
  - intros hn [a b] hin hab. cbn [fst snd] in hab. destruct (tiles_in lo hi ws h a b hin). lia.
Qed.
Theorem C63_default_policy num_warmup :
  exists ws, make_warmup_windows default_policy num_warmup = Some ws /\
    ((num_warmup <= 20)%Z -> ws = []) /\
    ((20 < num_warmup < 150)%Z -> exists ib tb, (1 <= ib)%Z /\ (1 <= tb)%Z /\ ws <> [] /\ tiles ib (num_warmup - tb) ws) /\
    ((150 <= num_warmup)%Z -> ws <> [] /\ tiles 75 (num_warmup - 50) ws /\ doubling 25 ws).
Proof.
  unfold make_warmup_windows, default_policy. cbn [min_no_window large_threshold large_init large_term large_base init_ratio term_ratio base_divisor].
  destruct (Z.leb_spec num_warmup 20) as [h | h].
  { exists []. split; [reflexivity |]. split; [reflexivity |]. split; intro; lia. }
  destruct (Z.leb_spec 150 num_warmup) as [h1 | h1].
  - destruct (C63_windows_tile 75 50 25 num_warmup ltac:(lia)) as [ws [e hws]]. exists ws. split; [exact e |].
    destruct (Z.ltb_spec 75 (num_warmup - 50)); [| lia]. split; [lia |]. split; [lia |]. intros _. exact hws.
  - cbv zeta. set (ib := Z.max 1 _). set (tb := Z.max 1 (Int_part (10 / 100 * IZR num_warmup))). set (bw := Z.max 1 _).
    assert (hn : 21 <= IZR num_warmup <= 149) by (split; apply IZR_le; lia).
    assert (hib : IZR ib <= 15 / 100 * IZR num_warmup).
    { unfold ib. destruct (Z.max_spec 1 (Int_part (15 / 100 * IZR num_warmup))) as [[_ ->] | [_ ->]]; [| lra].
      destruct (base_Int_part (15 / 100 * IZR num_warmup)). lra. }
    assert (htb : IZR tb <= 10 / 100 * IZR num_warmup).
    { unfold tb. destruct (Z.max_spec 1 (Int_part (10 / 100 * IZR num_warmup))) as [[_ ->] | [_ ->]]; [| lra].
      destruct (base_Int_part (10 / 100 * IZR num_warmup)). lra. }
    assert (hlt : (ib < num_warmup - tb)%Z) by (apply lt_IZR; rewrite minus_IZR; lra).
    destruct (C63_windows_tile ib tb bw num_warmup ltac:(unfold bw; lia)) as [ws [e hws]]. exists ws. split; [exact e |].
    destruct (Z.ltb_spec ib (num_warmup - tb)); [| lia]. split; [lia |]. split; [| lia]. intros _. exists ib, tb.
    split; [unfold ib; lia |]. split; [unfold tb; lia |]. split; [exact (proj1 hws) | exact (proj1 (proj2 hws))].
Qed.
Example C63_ex : make_warmup_windows default_policy 1000 = Some [(75, 100); (100, 150); (150, 250); (250, 450); (450, 850); (850, 950)]%Z.
Proof. reflexivity. Qed.
Print Assumptions C63_windows_tile.
Print Assumptions C63_windows_partition.
Print Assumptions C63_default_policy.

(** * C64 *)
(** pushing any batches in any grouping gives the unbiased sample variance of all vectors pushed *)
Theorem C64_welford (batches : list (list vec)) i : let xs := concat batches in
  let s := fold_left rdv_batch batches rdv_new in
  r_n s = length xs /\ r_mean s i * INR (length xs) = sum_list (map (fun x => x i) xs) /\
  ((length xs < 2)%nat -> rdv_var s i = 1) /\
  ((2 <= length xs)%nat -> exists m, m * INR (length xs) = sum_list (map (fun x => x i) xs) /\
     rdv_var s i * (INR (length xs) - 1) = sum_list (map (fun x => (x i - m) * (x i - m)) xs)).
Proof.
  intros xs s. assert (e : s = rdv_batch rdv_new xs).
  { unfold s, xs. generalize rdv_new. clear. induction batches as [| b bs ih]; intro s; [reflexivity |]. cbn [fold_left concat]. now rewrite ih, rdv_batch_app. }
  clearbody s. subst s. destruct (rdv_batch_spec xs i) as [h1 [h2 _]]. split; [exact h1 |]. split; [exact h2 |].
  split; [apply rdv_var_small |]. intro h. destruct (rdv_var_spec xs i h) as [m [h3 h4]]. exists m. split; [exact h3 |]. rewrite h4.
  unfold col. rewrite map_map. assert (1 < INR (length xs)) by (change 1 with (INR 1); apply lt_INR; lia). field. lra.
Qed.
Example C64_ex : rdv_var (fold_left rdv_batch [[(fun _ => 1); (fun _ => 2)]; [(fun _ => 6)]] rdv_new) 0%nat = 7.
Proof. cbn. field. Qed.
Print Assumptions C64_welford.

(** * C65 *)
(** the bounds used, whatever find_eps_min and find_eps_max are *)
Theorem C65_bounds (min_opt max_opt : fl) : let emin := eps_min_of min_opt in let emax := eps_max_of emin max_opt in
  0 < emin < emax /\ (forall e, emin <= clamp emin emax e <= emax) /\ (forall v, emin <= v <= emax -> clamp emin emax (Fin v) = v).
Proof.
  intros emin emax. assert (h1 : 0 < emin) by apply eps_min_pos. assert (h2 : emin < emax) by now apply eps_max_gt.
  split; [lra |]. split; [intro e; apply clamp_range; lra | intros v hv; now apply clamp_id].
Qed.
(** every step size and mass used during warm-up and after it *)
Theorem C65_steps_and_masses (o : adapt_opts) ws mass eps0 outs s : 0 < a_min o <= a_max o ->
  warm_loop o ws 0 (warm_init o mass eps0) outs = Some s ->
  length (m_used s) = length outs /\
  (forall e m, In (e, m) (m_used s) -> a_min o <= e <= a_max o /\ forall i, Rmin 1 (a_jitter o) <= m i) /\
  (forall i, Rmin 1 (a_jitter o) <= m_mass s i) /\
  (forall e, final_step o s = Some e -> a_min o <= e <= a_max o).
Proof.
  intros hb h. assert (h0 : params_ok o (m_step (warm_init o mass eps0)) (m_mass (warm_init o mass eps0))).
  { unfold warm_init, params_ok. cbn [m_step m_mass]. split; [apply clamp_range; lra |]. destruct mass as [m |]; intro i; [apply clip_ge | apply Rmin_l]. }
  destruct (warm_loop_ok o ws outs hb 0 _ s h h0) as [h1 [h2 h3]]; [intros em [] |].
  split; [exact h3 |]. split; [intros e m hin; exact (h2 (e, m) hin) |]. split; [exact (proj2 h1) |].
  intros e he. unfold final_step in he. destruct (math_exp _) as [v |]; [| discriminate]. cbn [option_map] in he.
  assert (ee : e = clamp (a_min o) (a_max o) (Fin v)) by congruence. rewrite ee. apply clamp_range. lra.
Qed.
(** dual averaging after n updates *)
Theorem C65_dual_averaging s accs target gamma t0 kappa : da_t s = 0%nat -> da_h s = 0 -> 0 <= t0 -> 0 <= target <= 1 ->
  (forall a, In a accs -> 0 <= a <= 1) ->
  let r := da_run s accs target gamma t0 kappa in
  (INR (length accs) + t0) * da_h r = sum_list (map (fun a => target - a) accs) /\ target - 1 <= da_h r <= target /\
  (accs <> [] -> da_log_eps r = da_mu s - sqrt (INR (length accs)) / gamma * da_h r).
Proof.
  intros h1 h2 h3 h4 h5 r. destruct (da_run_closed s accs target gamma t0 kappa h1 h2 h3) as [_ [_ [h6 h7]]].
  split; [exact h6 |]. split; [now apply da_h_bounds | exact h7].
Qed.
(** the averaged log step size lies between the extreme log step sizes produced *)
Theorem C65_averaged_step s accs target gamma t0 kappa A B : da_t s = 0%nat -> 0 <= kappa -> accs <> [] ->
  (forall k, (0 < k <= length accs)%nat -> A <= da_log_eps (da_run s (firstn k accs) target gamma t0 kappa) <= B) ->
  A <= da_log_bar (da_run s accs target gamma t0 kappa) <= B.
Proof. apply da_bar_range. Qed.
(** warm-up does not raise while the largest possible log step size is below the overflow level of math.exp *)
Theorem C65_no_overflow (o : adapt_opts) ws mass eps0 outs : 0 < a_min o <= a_max o -> 0 <= a_target o <= 1 -> 0 < a_gamma o -> 0 <= a_t0 o ->
  0 <= a_kappa o -> 1 <= a_factor o -> (forall out, In out outs -> out <> [] /\ forall x, In x out -> 0 <= snd x <= 1) ->
  ln (a_factor o * a_max o) + sqrt (INR (length outs)) * ((1 - a_target o) / a_gamma o) < 1024 * ln 2 ->
  exists s e, warm_loop o ws 0 (warm_init o mass eps0) outs = Some s /\ final_step o s = Some e.
Proof.
  intros h1 h2 h3 h4 h5 h6 h7 h8.
  destruct (warm_no_overflow o ws (length outs) h1 h2 h3 h4 h5 h6 h8 outs 0 0%Z (warm_init o mass eps0)) as [s [e1 e2]]; [lia | exact h7 | |].
  - unfold warm_init. cbn [m_da]. apply da_start_inv; try assumption. apply clamp_range. lra.
  - destruct (final_no_overflow o (length outs) h1 h8 s e2) as [e [e3 _]]. now exists s, e.
Qed.
(** and can raise for long warm-ups: 90000 iterations with full acceptance *)
(** the default settings, nuts.py 173-176, 200-203, 217-220 *)
Definition default_opts : adapt_opts := AdaptOpts (8 / 10) (5 / 100) 10 (75 / 100) 10 (/ 10000) (/ 1000000) 100.
Theorem C65_overflow_possible : warm_loop default_opts [] 0 (warm_init default_opts None (Fin 1)) (repeat [(one_v, 1)] (Z.to_nat 90000)) = None.
Proof.
  assert (hn : INR (Z.to_nat 90000) = 90000) by (rewrite INR_IZR_INZ, Z2Nat.id by lia; reflexivity).
  apply warm_overflows; try reflexivity; try (cbn; lra); [| lia |].
  - unfold warm_init. cbn [m_da da_mu da_start]. unfold da_start. cbn [da_mu default_opts a_min a_max a_factor].
    assert (e : clamp (/ 1000000) 100 (Fin 1) = 1) by (apply clamp_id; lra). rewrite e. rewrite <- ln_1. apply ln_le; [lra |].
    apply Rle_trans with (10 * 1); [lra | apply Rmax_r].
  - rewrite hn. cbn [default_opts a_gamma a_target a_t0]. replace 90000 with (300 * 300) at 1 by ring. rewrite sqrt_square by lra. lra.
Qed.
(** the search for the initial step size *)
Theorem C65_search_terminates a init target base mn mx : 1 < base -> 0 < mn -> mn <= init <= mx ->
  exists n r, (forall fuel, (n <= fuel)%nat -> find_step fuel a init target base mn mx = Some r) /\ mn / base <= r <= mx * base /\
   ((alpha_gt (a init) target = true /\ init < r /\ (alpha_lt (a r) target = true \/ mx < r)) \/
    (alpha_gt (a init) target = false /\ r < init /\ (alpha_gt (a r) target = true \/ r < mn))).
Proof.
  intros h1 h2 h3. destruct (find_step_total a init target base mn mx h1 h2 h3) as [n [r [e h]]]. exists n, r. split; [| exact h].
  intros fuel hf. unfold find_step in *. replace fuel with (n + (fuel - n))%nat by lia. now apply search_more.
Qed.
Theorem C65_search_needs_base init target mn mx fuel : mn <= init <= mx -> target < 1 -> find_step fuel (fun _ => Some 1) init target 1 mn mx = None.
Proof.
  intros h ht. unfold find_step. assert (e : alpha_gt (Some 1) target = true) by (cbn; now apply rltb_iff). rewrite e.
  apply search_stuck; [exact h |]. intros _. cbn. apply rltb_false. lra.
Qed.
Example C65_ex : a_min default_opts = / 1000000 /\ find_step 5 (fun e => Some (1 - e / 4)) 1 (1 / 2) 2 (/ 1000000) 1000 = Some 4.
Proof.
  split; [reflexivity |]. unfold find_step, alpha_gt. rl. cbn [search_loop]. unfold alpha_gt, alpha_lt. rl. cbn [andb orb negb]. f_equal. ring.
Qed.
Print Assumptions C65_bounds.
Print Assumptions C65_steps_and_masses.
Print Assumptions C65_dual_averaging.
Print Assumptions C65_averaged_step.
Print Assumptions C65_no_overflow.
Print Assumptions C65_overflow_possible.
Print Assumptions C65_search_terminates.
Print Assumptions C65_search_needs_base.

(** * C81 *)
Theorem C81_reversible_on_slice d pot im eps delta_max vfin log_u M z0 : consistent pot z0 -> 0 < delta_max -> log_u <= - energy d pot im z0 ->
  (forall i z s zs, orbit pot im eps z0 i = Some z -> orbit pot im eps z0 s = Some zs -> log_u <= - energy d pot im zs ->
     log_u < delta_max - energy d pot im z -> energy d pot im z - energy d pot im zs <= delta_max) ->
  exists K : Z -> Z -> R,
    (forall s zs, orbit pot im eps z0 s = Some zs -> log_u <= - energy d pot im zs ->
       (forall x, 0 <= K s x) /\
       (forall x, K s x <> 0 -> (Z.abs (x - s) < Z.of_nat (2 ^ M))%Z /\ in_slice d pot im eps log_u z0 x) /\
       zsum (2 * 2 ^ M) (s - Z.of_nat (2 ^ M)) (K s) = 1 /\
       (forall E, expects (nuts_slice d pot im eps delta_max vfin M (pq zs) (pp zs) log_u) (fun r => E (o_q r))
          (zsum (2 * 2 ^ M) (s - Z.of_nat (2 ^ M)) (fun x => K s x * match orbit pot im eps z0 x with Some z => E (pq z) | None => 0 end)))) /\
    (forall s x, in_slice d pot im eps log_u z0 s -> in_slice d pot im eps log_u z0 x -> K s x = K x s) /\
    (forall x, in_slice d pot im eps log_u z0 x ->
       zsum (2 * 2 ^ M) (x - Z.of_nat (2 ^ M))
         (fun s => if valid d pot im log_u (orbit pot im eps z0) s then K s x else 0) = 1).
Proof.
  intros hc hd h0 hsame. exists (ker d pot im eps delta_max log_u z0 M). split; [| split].
  - intros s zs hs hl. assert (hsl : in_slice d pot im eps log_u z0 s) by (exists zs; auto). split; [intro x; now apply ker_pos |].
    split; [| split; [now apply ker_one | intro E; now apply ker_expects]].
    intros x hx. assert (hr : (Z.abs (x - s) < Z.of_nat (2 ^ M))%Z).
    { destruct (Z_lt_le_dec (Z.abs (x - s)) (Z.of_nat (2 ^ M))); [assumption |]. elim hx. now apply ker_range. }
    split; [exact hr |]. apply in_slice_valid. destruct (valid _ _ _ _ _ x) eqn:e; [reflexivity |]. elim hx. apply ker_support; [exact hsl |].
    rewrite in_slice_valid. congruence.
  - intros s x hs hx. now apply ker_sym.
  - intros x hx. now apply ker_column.
Qed.
(** expectations are well defined: the symmetric kernel is the law of the transition *)
Theorem C81_law_unique {A} (m : rnd A) E p p' : expects m E p -> expects m E p' -> p = p'.
Proof. apply expects_unique. Qed.
(** without the hypothesis symmetry fails: the divergence test compares with the starting energy *)
Theorem C81_divergence_test_asymmetric :
  let run := fun q0 : Z => nuts_slice 1 four_pot one_v 1 10 (fun _ => true) 2 (fun _ => IZR q0) one_v (- 6) in
  expects (run 0%Z) (fun r => at_pos 1 (o_q r)) (3 / 16) /\ expects (run 1%Z) (fun r => at_pos 0 (o_q r)) (1 / 4) /\
  forall i, (0 <= i <= 3)%Z -> - 6 <= - energy 1 four_pot one_v (four_state i).
Proof.
  cbv zeta. assert (V : forall i, (0 <= i <= 3)%Z -> valid 1 four_pot one_v (- 6) four_orbit i = true).
  { intros i hi. rewrite four_valid. unfold in03. apply andb_true_iff. rewrite !Z.leb_le. lia. }
  assert (C : forall i, (0 <= i <= 3)%Z -> consistent four_pot (four_state i)).
  { intros i hi. exists (four_energy i - 1 / 2). rewrite (four_pot_at i) by reflexivity.
    replace ((0 <=? i)%Z && (i <=? 3)%Z) with true by (symmetry; apply andb_true_iff; rewrite !Z.leb_le; lia). reflexivity. }
  split; [| split].
  - assert (h := slice_expects 1 four_pot one_v 1 10 (- 6) four_orbit four_step (fun _ => true) (at_pos 1) 2 0 (four_state 0) (C 0%Z ltac:(lia)) eq_refl (V 0%Z ltac:(lia))).
    rewrite four_en, (four_at 1) in h by lia. unfold four_energy in h. cbn [Z.eqb] in h.
    rewrite (proj1 (four_g false 0 1 0 (or_intror (conj eq_refl eq_refl))) eq_refl eq_refl eq_refl) in h. exact h.
  - assert (h := slice_expects 1 four_pot one_v 1 10 (- 6) four_orbit four_step (fun _ => true) (at_pos 0) 2 1 (four_state 1) (C 1%Z ltac:(lia)) eq_refl (V 1%Z ltac:(lia))).
    rewrite four_en, (four_at 0) in h by lia. unfold four_energy in h. cbn [Z.eqb Pos.eqb] in h.
    rewrite (proj2 (four_g true (- 8) 0 1 (or_introl (conj eq_refl eq_refl))) eq_refl eq_refl eq_refl) in h. exact h.
  - intros i hi. specialize (V i hi). unfold valid in V. unfold four_orbit in V. destruct ((0 <=? i)%Z && (i <=? 3)%Z); [| discriminate]. now apply rleb_iff.
Qed.
(** free motion has constant energy and meets the hypotheses *)
Example C81_ex : let pot := fun _ : vec => Some (0, fun _ : nat => 0) in let z0 := Phase one_v one_v (fun _ => 0) in
  consistent pot z0 /\ - 1 <= - energy 1 pot one_v z0 /\ forall i z, orbit pot one_v 1 z0 i = Some z -> energy 1 pot one_v z = 1 / 2.
Proof.
  cbv zeta. split; [now exists 0 |]. assert (e0 : energy 1 (fun _ => Some (0, fun _ => 0)) one_v (Phase one_v one_v (fun _ => 0)) = 1 / 2) by (unfold energy; cbn [pq pp]; rewrite four_kin; ring).
  split; [rewrite e0; lra |].
  assert (G : forall n v z, steps (fun _ => Some (0, fun _ => 0)) one_v 1 n v (Phase one_v one_v (fun _ => 0)) = Some z -> pp z = one_v /\ pg z = fun _ => 0).
  { induction n as [| n ih]; intros v z h; cbn [steps] in h; [assert (e : z = Phase one_v one_v (fun _ => 0)) by congruence; subst z; now split |].
    destruct (steps _ one_v 1 n v _) as [z' |] eqn:e; [| discriminate]. destruct (ih v z' e) as [h1 h2]. unfold step, leapfrog in h. cbn [option_map fst] in h.
    assert (ez : z = _) by (symmetry; injection h; intro hh; exact hh). rewrite ez. cbn [pp pg]. split; [| reflexivity]. rewrite h1, h2.
    apply functional_extensionality. intro i. unfold one_v. destruct v; ring. }
  intros i z h. unfold energy. unfold orbit in h. destruct (0 <=? i)%Z; destruct (G _ _ _ h) as [-> _]; rewrite four_kin; ring.
Qed.
Print Assumptions C81_reversible_on_slice.
Print Assumptions C81_divergence_test_asymmetric.

(** * C82 *)
(** after warm-up the mass of coordinate i is the unbiased sample variance, clipped below at the jitter, of the
    positions of all chains over the last window completed *)
Theorem C82_mass_is_variance (o : adapt_opts) ws lo hi mass eps0 outs s a b i : (0 <= lo)%Z -> tiles lo hi ws ->
  warm_loop o ws 0 (warm_init o mass eps0) outs = Some s ->
  In (a, b) ws -> (b <= Z.of_nat (length outs))%Z -> (forall a' b', In (a', b') ws -> (b' <= Z.of_nat (length outs))%Z -> (b' <= b)%Z) ->
  let xs := concat (map (map fst) (firstn (Z.to_nat (b - a)) (skipn (Z.to_nat a) outs))) in (2 <= length xs)%nat ->
  exists m, m * INR (length xs) = sum_list (map (fun x => x i) xs) /\
    m_mass s i = Rmax (sum_list (map (fun v => (v - m) * (v - m)) (map (fun x => x i) xs)) / (INR (length xs) - 1)) (a_jitter o).
Proof.
  intros hlo ht h hin hb hlast xs hxs.
  destruct (warm_mass o ws (ex_intro _ lo (ex_intro _ hi (conj hlo ht))) (warm_init o mass eps0) outs s eq_refl h) as [_ [_ [h3 _]]].
  rewrite (h3 a b hin hb hlast). fold xs. destruct (rdv_var_spec xs i hxs) as [m [h4 h5]]. exists m. split; [exact h4 |].
  unfold clip_min. unfold visited. fold xs. now rewrite h5.
Qed.
(** before any window is completed the mass is the initial one *)
Theorem C82_mass_before (o : adapt_opts) ws lo hi mass eps0 outs s : (0 <= lo)%Z -> tiles lo hi ws ->
  warm_loop o ws 0 (warm_init o mass eps0) outs = Some s -> (forall a b, In (a, b) ws -> (Z.of_nat (length outs) < b)%Z) ->
  m_mass s = m_mass (warm_init o mass eps0).
Proof.
  intros hlo ht h hno. destruct (warm_mass o ws (ex_intro _ lo (ex_intro _ hi (conj hlo ht))) (warm_init o mass eps0) outs s eq_refl h) as [_ [_ [_ h4]]]. now apply h4.
Qed.
(** a Gaussian coordinate with variance s^2 (lam = 1/s^2) and mass equal to its variance is integrated stably exactly
    for steps below 2 s^2; with mass equal to the inverse variance the limit would be 2 *)
Theorem C82_stability_limit d (sd im : vec) e i : let lam := fun k => / (sd k * sd k) in 0 < sd i -> 0 < e -> 0 < im i ->
  (e * e * (im i * lam i) < 4 -> forall z, (forall k, pg z k = lam k * pq z k) -> exists B, forall n zn, quad_run d lam im e n z = Some zn -> pq zn i * pq zn i <= B) /\
  (4 < e * e * (im i * lam i) -> forall z, (forall k, pg z k = lam k * pq z k) -> pp z i = 0 -> pq z i <> 0 ->
     forall B, exists n zn, quad_run d lam im e n z = Some zn /\ B < Rabs (pq zn i)) /\
  (im i = / (sd i * sd i) -> (e * e * (im i * lam i) < 4 <-> e < 2 * (sd i * sd i))) /\
  (im i = sd i * sd i -> (e * e * (im i * lam i) < 4 <-> e < 2)).
Proof.
  intros lam hs he hi. assert (hl : 0 < lam i) by (unfold lam; apply Rinv_0_lt_compat, Rmult_lt_0_compat; lra).
  assert (h2 : 0 < sd i * sd i) by (apply Rmult_lt_0_compat; lra). split; [| split; [| split]].
  - intros hc z hg. eexists. intros n zn hn. exact (quad_bounded d lam im e z i hg hi hl hc n zn hn).
  - intros hc z hg hp hq B. set (c := (e * e * (im i * lam i) - 4) / 2). assert (hcp : 0 < c) by (unfold c; lra).
    assert (ha : 0 < Rabs (pq z i)) by now apply Rabs_pos_lt. destruct (archimed_cor1 (Rabs (pq z i) * c / (Rabs B + 1))) as [N [hN hN0]].
    { apply Rmult_lt_0_compat; [nra |]. apply Rinv_0_lt_compat. pose proof (Rabs_pos B). lra. }
    exists N. destruct (quad_unstable d lam im e z i hg hp hc N) as [zn [h1 h3]]. exists zn. split; [exact h1 |]. fold c in h3.
    assert (hn : 0 < INR N) by now apply lt_0_INR. pose proof (Rabs_pos B). pose proof (Rle_abs B).
    assert (hB : Rabs B + 1 < Rabs (pq z i) * c * INR N).
    { apply Rmult_lt_compat_r with (r := INR N * (Rabs B + 1)) in hN; [| nra]. replace (/ INR N * (INR N * (Rabs B + 1))) with (Rabs B + 1) in hN by (field; lra).
      replace (Rabs (pq z i) * c / (Rabs B + 1) * (INR N * (Rabs B + 1))) with (Rabs (pq z i) * c * INR N) in hN by (field; lra). exact hN. }
    nra.
  - intros ->. unfold lam. set (v := sd i * sd i) in *. replace (e * e * (/ v * / v)) with ((e / v) * (e / v)) by (field; lra).
    assert (hev : 0 < e / v) by (apply Rmult_lt_0_compat; [lra | now apply Rinv_0_lt_compat]). assert (ee : e = e / v * v) by (field; lra). split; intro h.
    + assert (e / v < 2) by nra. rewrite ee. nra.
    + assert (e / v < 2) by (apply Rmult_lt_reg_r with v; lra). nra.
  - intros ->. unfold lam. set (v := sd i * sd i) in *. replace (e * e * (v * / v)) with (e * e) by (field; lra). split; intro h; nra.
Qed.
Example C82_ex : tiles 0 2 [(0, 2)]%Z /\ exists s, warm_loop default_opts [(0, 2)]%Z 0 (warm_init default_opts None (Fin 1)) [[(one_v, 1)]; [((fun _ => 3), 1)]] = Some s /\
  m_mass s 0%nat = 2.
Proof.
  split; [cbn; lia |].
  destruct (C65_no_overflow default_opts [(0, 2)]%Z None (Fin 1) [[(one_v, 1)]; [((fun _ => 3), 1)]]) as [s [e [h _]]]; cbn [default_opts a_min a_max a_target a_gamma a_t0 a_kappa a_factor]; try lra.
  - intros out [<- | [<- | []]]; (split; [discriminate |]); intros x [<- | []]; cbn; lra.
  - assert (ln (10 * 100) < 20).
    { replace (10 * 100) with (10 ^ 3) by ring. rewrite ln_pow by lra. assert (ln 10 < 4); [| cbn; lra]. rewrite <- (ln_exp 4). apply ln_increasing; [lra |].
      replace 4 with (1 + 1 + 1 + 1) by ring. rewrite !exp_plus. assert (h := exp_ineq1 1 ltac:(lra)). assert (4 < exp 1 * exp 1) by nra. nra. }
    assert (sqrt (INR 2) < 2). { rewrite <- (sqrt_square 2) by lra. apply sqrt_lt_1_alt. cbn. lra. }
    cbn [length]. assert (1 / 2 < ln 2).
    { rewrite <- (ln_exp (1 / 2)). apply ln_increasing; [apply exp_pos |]. assert (hh : exp (1 / 2) * exp (1 / 2) = exp 1) by (rewrite <- exp_plus; f_equal; field).
      assert (h3 := exp_le_3). pose proof (exp_pos (1 / 2)). nra. }
    lra.
  - exists s. split; [exact h |]. destruct (C82_mass_is_variance default_opts [(0, 2)]%Z 0 2 None (Fin 1) _ s 0 2 0%nat ltac:(lia) ltac:(cbn; lia) h) as [m [h1 h2]]; try (cbn; lia); [now left | |].
    { change (2 <= 2)%nat. lia. }
    rewrite h2. change (Z.to_nat (2 - 0)) with 2%nat in *. unfold sum_list in *. cbn in *. unfold one_v in *. assert (em : m = 2) by lra. rewrite em.
    replace ((0 + (1 - 2) * (1 - 2) + (3 - 2) * (3 - 2)) / (1 + 1 - 1)) with 2 by field. apply Rmax_left. lra.
Qed.
Print Assumptions C82_mass_is_variance.
Print Assumptions C82_mass_before.
Print Assumptions C82_stability_limit.
