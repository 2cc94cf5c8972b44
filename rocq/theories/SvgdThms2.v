(** Whole SVGD steps and runs (C72, C88). *)
From Coq Require Import Reals Lra Lia List Bool Arith.
From Coquelicot Require Import Coquelicot.
From Verif Require Import ConfigModel FlModel PriorModel ParamModel SvgdModel SelectProofs NutsProofs SvgdProofs SvgdThms.
Import List ListNotations.
Notation length := List.length.
Local Open Scope R_scope.

(** the bounds a step works with *)
Definition bounds_of (o : options) (dim : nat) (bounds : option (vec * vec)) : Prop :=
  match o_box o with None => bounds = None | Some b => exists lo hi, normalize_bounds b dim = Some (lo, hi) /\ bounds = Some (lo, hi) end.
(** a box that is not empty *)
Definition proper (bounds : option (vec * vec)) : Prop :=
  match bounds with None => True | Some (lo, hi) => forall c, (c < length lo)%nat -> nth c lo 0 <= nth c hi 0 end.
Definition inside (bounds : option (vec * vec)) (x : vec) : Prop := match bounds with None => True | Some (lo, hi) => in_box lo hi x end.
Definition rows (dim : nat) (xs : list vec) : Prop := forall x, In x xs -> length x = dim.
Section Vag.
Context (vg : (vec -> option fl) -> vec -> option (fl * list fl)).
Lemma step_inv lp xs dim o t r : svgd_step vg lp xs dim o t = Some r ->
  exists bounds, bounds_of o dim bounds /\ 0 < o_step_size o /\ 0 < t /\ xs <> [] /\
    sr_cloud r = map (evaluate vg (tempered lp bounds t) dim) (project bounds xs) /\
    resolve_preconditioner (o_precond o) dim (o_jitter o) = Some (sr_precond r) /\
    effective_bandwidth (project bounds xs) (o_bandwidth o) (o_scale o) (o_bmin o) (o_jitter o) = Some (sr_bandwidth r) /\
    sr_next r = project bounds (map (move (sr_bandwidth r) (o_step_size o) (sr_precond r) (sr_cloud r) dim) (sr_cloud r)).
Proof.
  unfold svgd_step. destruct (rleb (o_step_size o) 0) eqn:e0; [discriminate |]. destruct (rleb t 0) eqn:e1; [discriminate |]. apply rleb_false in e0, e1. cbn [orb].
  assert (G : forall bounds, bounds_of o dim bounds -> (let xs := project bounds xs in
        match resolve_preconditioner (o_precond o) dim (o_jitter o) with
        | None => None
        | Some precond =>
            match xs with
            | [] => None
            | _ =>
              let ps := map (evaluate vg (tempered lp bounds t) dim) xs in
              match effective_bandwidth xs (o_bandwidth o) (o_scale o) (o_bmin o) (o_jitter o) with
              | None => None
              | Some h => Some (mkStep (project bounds (map (move h (o_step_size o) precond ps dim) ps)) h ps precond)
              end
            end
        end) = Some r -> exists bounds, bounds_of o dim bounds /\ 0 < o_step_size o /\ 0 < t /\ xs <> [] /\
    sr_cloud r = map (evaluate vg (tempered lp bounds t) dim) (project bounds xs) /\
    resolve_preconditioner (o_precond o) dim (o_jitter o) = Some (sr_precond r) /\
    effective_bandwidth (project bounds xs) (o_bandwidth o) (o_scale o) (o_bmin o) (o_jitter o) = Some (sr_bandwidth r) /\
    sr_next r = project bounds (map (move (sr_bandwidth r) (o_step_size o) (sr_precond r) (sr_cloud r) dim) (sr_cloud r))).
  { intros bounds hb h. cbv zeta in h. exists bounds. split; [exact hb |]. split; [lra |]. split; [lra |].
    destruct (resolve_preconditioner (o_precond o) dim (o_jitter o)) as [pr |]; [| discriminate].
    destruct (project bounds xs) as [| y ys] eqn:ep; [discriminate |]. rewrite <- ep in *. split; [intros ->; destruct bounds as [[? ?] |]; discriminate |].
    destruct (effective_bandwidth (project bounds xs) (o_bandwidth o) (o_scale o) (o_bmin o) (o_jitter o)) as [hh |]; [| discriminate].
    assert (er : r = mkStep (project bounds (map (move hh (o_step_size o) pr (map (evaluate vg (tempered lp bounds t) dim) (project bounds xs)) dim) (map (evaluate vg (tempered lp bounds t) dim) (project bounds xs)))) hh (map (evaluate vg (tempered lp bounds t) dim) (project bounds xs)) pr) by congruence.
    subst r. cbn. auto. }
  unfold bounds_of in *. destruct (o_box o) as [b |].
  - destruct (normalize_bounds b dim) as [[lo hi] |] eqn:eb; [| discriminate]. apply (G (Some (lo, hi))). now exists lo, hi.
  - now apply (G None).
Qed.
Lemma bounds_len o dim lo hi : bounds_of o dim (Some (lo, hi)) -> length lo = dim /\ length hi = dim.
Proof. unfold bounds_of. destruct (o_box o) as [b |]; [| discriminate]. intros [l [h [e q]]]. assert (l = lo) by congruence. assert (h = hi) by congruence. subst. now apply (normalize_bounds_len b). Qed.
Lemma project_length bounds xs : length (project bounds xs) = length xs.
Proof. destruct bounds as [[lo hi] |]; [apply map_length | reflexivity]. Qed.
Lemma project_rows o dim bounds xs : bounds_of o dim bounds -> rows dim xs -> rows dim (project bounds xs).
Proof.
  intros hb hr. destruct bounds as [[lo hi] |]; [| exact hr]. destruct (bounds_len _ _ _ _ hb). intros x hx. apply in_map_iff in hx as [y [<- hy]]. specialize (hr y hy). rewrite clip_length; lia.
Qed.
Lemma project_inside o dim bounds xs x : bounds_of o dim bounds -> proper bounds -> rows dim xs -> In x (project bounds xs) -> inside bounds x.
Proof.
  intros hb hp hr hx. destruct bounds as [[lo hi] |]; [| exact I]. destruct (bounds_len _ _ _ _ hb). apply in_map_iff in hx as [y [<- hy]]. specialize (hr y hy). apply clip_in_box; [lia | lia |]. intros c hc. apply hp. lia.
Qed.
Lemma move_length h eps pr ps dim p : length (move h eps pr ps dim p) = dim.
Proof. unfold move. now rewrite map_length, seq_length. Qed.
Lemma move_nth h eps pr ps dim p c : (c < dim)%nat -> nth c (move h eps pr ps dim p) 0 = nth c (px p) 0 + eps * velocity h pr ps p c.
Proof. intro hc. unfold move. rewrite (nth_indep _ 0 ((fun c => nth c (px p) 0 + eps * velocity h pr ps p c) 0%nat)) by now rewrite map_length, seq_length. rewrite (map_nth (fun c => nth c (px p) 0 + eps * velocity h pr ps p c)), seq_nth by exact hc. reflexivity. Qed.

(** a step keeps the shape of the cloud and, with a box, puts every particle in it *)
Theorem C72_step_shape_and_box lp xs dim o t r : rows dim xs -> svgd_step vg lp xs dim o t = Some r ->
  length (sr_next r) = length xs /\ rows dim (sr_next r) /\
  forall bounds, bounds_of o dim bounds -> proper bounds -> forall x, In x (sr_next r) -> inside bounds x.
Proof.
  intros hr h. destruct (step_inv _ _ _ _ _ _ h) as [bounds [hb [_ [_ [_ [ec [_ [_ en]]]]]]]].
  assert (rm : rows dim (map (move (sr_bandwidth r) (o_step_size o) (sr_precond r) (sr_cloud r) dim) (sr_cloud r))) by (intros x hx; apply in_map_iff in hx as [p [<- _]]; apply move_length).
  split; [rewrite en, project_length, map_length, ec, map_length, project_length; reflexivity |]. split; [rewrite en; now apply (project_rows o) |].
  intros b' hb' hp x hx. assert (b' = bounds).
  { unfold bounds_of in hb, hb'. destruct (o_box o); [destruct hb as [? [? [? ?]]]; destruct hb' as [? [? [? ?]]]; congruence | congruence]. }
  subst b'. rewrite en in hx. now apply (project_inside o dim bounds _ x hb hp rm).
Qed.
(** particles whose tempered log density is not a finite number do not move *)
Lemma clip1_idem a l h : clip1 (clip1 a l h) l h = clip1 a l h.
Proof.
  destruct (Rle_dec l h) as [q | q]; [apply clip1_id, clip1_in, q |]. assert (E : forall z, clip1 z l h = h) by (intro z; unfold clip1; apply Rmin_right; pose proof (Rmax_r z l); lra). now rewrite !E.
Qed.
Lemma project_idem o dim bounds xs x : bounds_of o dim bounds -> rows dim xs -> In x (project bounds xs) -> match bounds with None => x | Some (lo, hi) => clip x lo hi end = x.
Proof.
  intros hb hr hx. destruct bounds as [[lo hi] |]; [| reflexivity]. destruct (bounds_len _ _ _ _ hb). apply in_map_iff in hx as [y [<- hy]]. specialize (hr y hy).
  apply (nth_ext _ _ 0 0); [rewrite !clip_length; rewrite ?clip_length; lia |]. intros c hc. rewrite !clip_length in hc by (rewrite ?clip_length; lia). rewrite !clip_nth by (rewrite ?clip_length; lia). apply clip1_idem.
Qed.
Theorem C72_dead_particles_stay lp xs dim o t r bounds i : rows dim xs -> svgd_step vg lp xs dim o t = Some r -> bounds_of o dim bounds -> (i < length xs)%nat ->
  let x := nth i (project bounds xs) [] in
  (vg (tempered lp bounds t) x = None \/ exists v g, vg (tempered lp bounds t) x = Some (v, g) /\ fl_is_finite v = false) ->
  nth i (sr_next r) [] = x.
Proof.
  intros hr h hb' hi x hd. destruct (step_inv _ _ _ _ _ _ h) as [b [hb [_ [_ [_ [ec [_ [_ en]]]]]]]].
  assert (b = bounds) by (unfold bounds_of in hb, hb'; destruct (o_box o); [destruct hb as [? [? [? ?]]]; destruct hb' as [? [? [? ?]]]; congruence | congruence]). subst b.
  assert (hx : In x (project bounds xs)) by (apply nth_In; now rewrite project_length). assert (rp := project_rows o dim bounds xs hb hr).
  set (ev := evaluate vg (tempered lp bounds t) dim) in *. set (mv := move (sr_bandwidth r) (o_step_size o) (sr_precond r) (sr_cloud r) dim) in *.
  assert (e1 : nth i (map mv (sr_cloud r)) [] = mv (ev x)).
  { rewrite ec, map_map. rewrite (nth_indep _ [] (mv (ev []))) by (rewrite map_length, project_length; exact hi). exact (map_nth (fun x => mv (ev x)) (project bounds xs) [] i). }
  assert (e2 : mv (ev x) = x).
  { apply (nth_ext _ _ 0 0); [unfold mv; rewrite move_length; symmetry; now apply rp |]. intros c hc. unfold mv in *. rewrite move_length in hc. rewrite move_nth by exact hc. unfold velocity.
    assert (d : alive (ev x) = false) by (unfold ev, evaluate, alive; cbn; destruct hd as [-> | [v [g [-> q]]]]; cbn; [reflexivity | now rewrite q]).
    rewrite d. cbn. ring. }
  rewrite en. destruct bounds as [[lo up] |]; cbn [project]; [| now rewrite e1].
  rewrite (nth_indep _ [] ((fun x => clip x lo up) [])) by (rewrite map_length; fold mv; rewrite map_length, ec, map_length, project_length; exact hi).
  rewrite (map_nth (fun x => clip x lo up)). fold mv. rewrite e1, e2. exact (project_idem o dim (Some (lo, up)) xs x hb hr hx).
Qed.
(** on a flat target without a box the centre of the cloud does not move, whatever the preconditioner *)
Lemma sum_nth_move (ps : list particle) h eps pr dim c : (c < dim)%nat ->
  sum_list (map (fun x => nth c x 0) (map (move h eps pr ps dim) ps)) = sum_list (map (fun p => nth c (px p) 0) ps) + eps * sum_list (map (fun p => velocity h pr ps p c) ps).
Proof.
  intro hc. rewrite map_map, <- sum_scal, <- sum_plus. apply sum_ext. intros p _. now apply move_nth.
Qed.
Theorem C72_flat_target_keeps_centre lp xs dim o t r c : svgd_step vg lp xs dim o t = Some r -> o_box o = None -> (c < dim)%nat ->
  (forall f x v g, vg f x = Some (v, g) -> forall a, In a g -> a = Fin 0) ->
  sum_list (map (fun x => nth c x 0) (sr_next r)) = sum_list (map (fun x => nth c x 0) xs).
Proof.
  intros h hbox hc hflat. destruct (step_inv _ _ _ _ _ _ h) as [b [hb [_ [_ [_ [ec [_ [_ en]]]]]]]]. unfold bounds_of in hb. rewrite hbox in hb. subst b. cbn [project] in *. rewrite en, sum_nth_move by exact hc.
  rewrite C72_repulsion_cancels.
  assert (z : forall q, In q (sr_cloud r) -> nth c (pscore q) 0 = 0).
  { intros q hq. rewrite ec in hq. apply in_map_iff in hq as [x [<- _]]. unfold evaluate, safe_value_and_grad. cbn.
    assert (R0 : forall k, nth c (repeat 0 k) 0 = 0) by (intro k; revert c hc; induction k as [| k IH]; intros [| c'] hc; cbn; try reflexivity; apply (IH c'); lia).
    destruct (vg (tempered lp None t) x) as [[v g] |] eqn:e; [| apply R0]. destruct (fl_is_finite v); [| apply R0]. cbn.
    assert (hz := hflat _ _ _ _ e). clear - hz. revert c. induction g as [| a g IH]; intros [| c]; cbn; try reflexivity; [rewrite (hz a (or_introl eq_refl)); reflexivity |]. apply IH. intros; apply hz; now right. }
  rewrite (sum_ext _ (fun p => sum_list (map (fun q => masked (sr_bandwidth r) p q * nth c (pscore q) 0) (sr_cloud r))) (fun _ => 0)).
  - rewrite sum_0. rewrite ec, map_map. cbn. unfold Rdiv. rewrite Rmult_0_l, !Rmult_0_r, Rplus_0_r. reflexivity.
  - intros p _. rewrite (sum_ext _ _ (fun _ => 0)); [apply sum_0 |]. intros q hq. rewrite z by exact hq. ring.
Qed.
(** a single particle follows the preconditioned gradient of the tempered log density *)
Lemma velocity_single h pr p c : alive p = true -> velocity h pr [p] p c = nth c (pscore p) 0 * nth c pr 0.
Proof.
  intro hp. unfold velocity, denom, masked. cbn [filter map]. rewrite hp. cbn [andb length]. rewrite !sum_cons. unfold kernel. rewrite (proj2 (sq_dist_0 (px p) (px p) eq_refl) eq_refl).
  unfold sum_list. cbn. replace (- 0 / h) with 0 by (unfold Rdiv; ring). rewrite exp_0. unfold Rdiv. replace (nth c (px p) 0 - nth c (px p) 0) with 0 by ring. rewrite Rinv_1. ring.
Qed.
Theorem C72_single_particle lp x dim o t r v g : svgd_step vg lp [x] dim o t = Some r -> o_box o = None -> vg (tempered lp None t) x = Some (Fin v, g) ->
  exists y, sr_next r = [y] /\ length y = dim /\ forall c, (c < dim)%nat -> nth c y 0 = nth c x 0 + o_step_size o * (nan_to_num (nth c g NaN) * nth c (sr_precond r) 0).
Proof.
  intros h hbox hv. destruct (step_inv _ _ _ _ _ _ h) as [b [hb [_ [_ [_ [ec [_ [_ en]]]]]]]]. unfold bounds_of in hb. rewrite hbox in hb. subst b. cbn [project map] in *. rewrite ec in en. cbn [map] in en.
  eexists. split; [exact en |]. split; [apply move_length |]. intros c hc. rewrite move_nth by exact hc. rewrite velocity_single.
  - unfold evaluate. rewrite hv. cbn. do 3 f_equal. change 0 with (nan_to_num NaN) at 1. apply map_nth.
  - unfold evaluate, alive. rewrite hv. reflexivity.
Qed.

(** * whole runs *)
Lemma loop_spec lp dim o temps : forall xs ys ts hist, rows dim xs -> svgd_loop vg lp dim o temps xs = Some (ys, ts, hist) ->
  map Some ts = temps /\ length hist = length temps /\ ys = last hist xs /\
  (forall k, (k < length temps)%nat -> exists t r, nth_error ts k = Some t /\ svgd_step vg lp (nth k (xs :: hist) []) dim o t = Some r /\ nth k hist [] = sr_next r) /\
  forall zs, In zs hist -> length zs = length xs /\ rows dim zs /\ forall bounds, bounds_of o dim bounds -> proper bounds -> forall x, In x zs -> inside bounds x.
Proof.
  induction temps as [| [t |] temps IH]; intros xs ys ts hist hr h; cbn [svgd_loop] in h; [| | discriminate].
  - assert (ys = xs) by congruence. assert (ts = []) by congruence. assert (hist = []) by congruence. subst. split; [reflexivity |]. split; [reflexivity |]. split; [reflexivity |]. split; [cbn; intros; lia | intros zs []].
  - destruct (svgd_step vg lp xs dim o t) as [r |] eqn:e; [| discriminate]. destruct (svgd_loop vg lp dim o temps (sr_next r)) as [[[ys' ts'] hist'] |] eqn:e2; [| discriminate].
    assert (ys = ys') by congruence. assert (ts = t :: ts') by congruence. assert (hist = sr_next r :: hist') by congruence. subst.
    destruct (C72_step_shape_and_box _ _ _ _ _ _ hr e) as [l1 [r1 b1]]. destruct (IH _ _ _ _ r1 e2) as [h1 [h2 [h3 [h4 h5]]]].
    split; [cbn; now rewrite h1 |]. split; [cbn; now rewrite h2 |]. split; [rewrite h3; destruct hist' as [| z zl]; [reflexivity |]; change (last (sr_next r :: z :: zl) xs) with (last (z :: zl) xs); clear; revert z; induction zl as [| w zl IHz]; intro z; [reflexivity |]; change (last (z :: w :: zl) (sr_next r)) with (last (w :: zl) (sr_next r)); change (last (z :: w :: zl) xs) with (last (w :: zl) xs); apply IHz |].
    split.
    + intros [| k] hk; [exists t, r; cbn; auto |]. cbn [length] in hk. destruct (h4 k ltac:(lia)) as [t' [r' [q1 [q2 q3]]]]. exists t', r'. cbn [nth_error nth]. auto.
    + intros zs [<- | hz]; [auto |]. destruct (h5 zs hz) as [q1 [q2 q3]]. split; [lia | auto].
Qed.
Theorem C72_run lp dim o n t0 t1 s xs ys ts hist : rows dim xs -> svgd_sample vg lp dim o n t0 t1 s xs = Some (ys, ts, hist) ->
  (forall k, (k < n)%nat -> annealed_temperature k n t0 t1 s = nth_error ts k) /\ length ts = n /\ length hist = n /\ ys = last hist xs /\
  (forall k, (k < n)%nat -> exists t r, nth_error ts k = Some t /\ svgd_step vg lp (nth k (xs :: hist) []) dim o t = Some r /\ nth k hist [] = sr_next r) /\
  forall zs, In zs hist -> length zs = length xs /\ rows dim zs /\ forall bounds, bounds_of o dim bounds -> proper bounds -> forall x, In x zs -> inside bounds x.
Proof.
  intros hr h. unfold svgd_sample in h. destruct (loop_spec _ _ _ _ _ _ _ _ hr h) as [h1 [h2 [h3 [h4 h5]]]]. rewrite map_length, seq_length in *.
  assert (lt : length ts = n). { apply (f_equal (@List.length _)) in h1. now rewrite !map_length, seq_length in h1. }
  split; [| auto]. intros k hk. assert (q : nth_error (map Some ts) k = nth_error (map (fun k => annealed_temperature k n t0 t1 s) (seq 0 n)) k) by now rewrite h1.
  assert (sq : nth_error (seq 0 n) k = Some k) by (rewrite (nth_error_nth' _ 0%nat) by (rewrite seq_length; exact hk); now rewrite seq_nth). rewrite (map_nth_error _ _ _ sq) in q.
  destruct (nth_error ts k) as [t |] eqn:e; [rewrite (map_nth_error _ _ _ e) in q; congruence |]. apply nth_error_None in e. lia.
Qed.
(** no step, no projection: with n_steps = 0 the initial particles are returned even if they lie outside the box *)
Theorem C72_zero_steps lp dim o t0 t1 s xs : svgd_sample vg lp dim o 0 t0 t1 s xs = Some (xs, [], []).
Proof. reflexivity. Qed.
(** a particle of the box with a target value that is not finite keeps its position through the whole run *)
Theorem C72_dead_forever lp dim o n t0 t1 s xs ys ts hist bounds i x : rows dim xs -> svgd_sample vg lp dim o n t0 t1 s xs = Some (ys, ts, hist) ->
  bounds_of o dim bounds -> (i < length xs)%nat -> nth i xs [] = x -> inside bounds x ->
  (forall f x v g, vg f x = Some (v, g) -> f x = Some v) -> (forall v, lp x <> Some (Fin v)) ->
  forall zs, In zs hist -> nth i zs [] = x.
Proof.
  intros hr h hb hi ex hin hvg hlp zs hz. destruct (C72_run _ _ _ _ _ _ _ _ _ _ _ hr h) as [_ [lt [lh [_ [hs hsh]]]]].
  apply (In_nth _ _ []) in hz as [k [hk <-]]. rewrite lh in hk. induction k as [k IH] using lt_wf_ind.
  destruct (hs k hk) as [t [r [e1 [e2 ->]]]].
  assert (prev : nth i (nth k (xs :: hist) []) [] = x /\ rows dim (nth k (xs :: hist) []) /\ length (nth k (xs :: hist) []) = length xs).
  { destruct k as [| k]; cbn [nth]; [auto |]. assert (hin' : In (nth k hist []) hist) by (apply nth_In; lia). destruct (hsh _ hin') as [q1 [q2 _]]. split; [apply IH; lia | auto]. }
  destruct prev as [p1 [p2 p3]]. set (zs := nth k (xs :: hist) []) in *.
  assert (px : nth i (project bounds zs) [] = x).
  { destruct bounds as [[lo up] |]; cbn [project]; [| exact p1]. rewrite (nth_indep _ [] ((fun x => clip x lo up) [])) by (rewrite map_length; lia). rewrite (map_nth (fun x => clip x lo up)), p1. now apply clip_id. }
  assert (D := C72_dead_particles_stay lp zs dim o t r bounds i p2 e2 hb ltac:(lia)). cbv zeta in D. rewrite px in D. apply D.
  destruct (vg (tempered lp bounds t) x) as [[v g] |] eqn:ev; [right; exists v, g; split; [reflexivity |] | now left].
  apply hvg in ev. unfold tempered in ev. destruct (outside bounds x); [assert (v = NInf) by congruence; now subst |]. destruct (lp x) as [w |] eqn:el; [| discriminate].
  assert (v = fl_div w (Fin t)) by congruence. subst v. destruct w as [w | | |]; [exfalso; now apply (hlp w) | | |]; cbn; try reflexivity; now destruct (rltb t 0).
Qed.
(** the preconditioner of an accepted step: ones by default, else the given diagonal (or its single entry repeated), which is
    positive, floored at the jitter *)
Theorem C72_preconditioner lp xs dim o t r : svgd_step vg lp xs dim o t = Some r ->
  length (sr_precond r) = dim /\ forall c, (c < dim)%nat ->
    match o_precond o with
    | None => nth c (sr_precond r) 0 = 1
    | Some d => exists a, 0 < a /\ (nth_error d c = Some a \/ d = [a]) /\ o_jitter o <= nth c (sr_precond r) 0 /\ a <= nth c (sr_precond r) 0 /\
        (nth c (sr_precond r) 0 = a \/ nth c (sr_precond r) 0 = o_jitter o)
    end.
Proof.
  intro h. destruct (step_inv _ _ _ _ _ _ h) as (bounds & _ & _ & _ & _ & _ & hp & _). clear h. unfold resolve_preconditioner in hp.
  destruct (o_precond o) as [d |].
  - cbv zeta in hp. set (d' := match d with [a] => repeat a dim | _ => d end) in *. destruct (Nat.eqb (length d') dim) eqn:e1; [| discriminate].
    destruct (existsb (fun a => rleb a 0) d') eqn:e2; [discriminate |]. injection hp as <-. apply Nat.eqb_eq in e1. rewrite map_length. split; [exact e1 |].
    intros c hc. exists (nth c d' 0). assert (hin : In (nth c d' 0) d') by (apply nth_In; lia).
    assert (q : 0 < nth c d' 0). { destruct (rleb (nth c d' 0) 0) eqn:q; [| apply rleb_false in q; lra]. rewrite (proj2 (existsb_exists _ _)) in e2; [discriminate |]. eauto. }
    split; [exact q |]. split.
    + subst d'. destruct d as [| a [| b d]]; [left; apply nth_error_nth'; cbn [length] in *; lia | right | left; apply nth_error_nth'; cbn [length] in *; lia]. f_equal. symmetry. rewrite (nth_indep _ 0 a) by (rewrite repeat_length; lia). apply nth_repeat.
    + rewrite (nth_indep _ 0 ((fun a => Rmax a (o_jitter o)) 0)) by (rewrite map_length; lia). rewrite (map_nth (fun a => Rmax a (o_jitter o))).
      split; [apply Rmax_r |]. split; [apply Rmax_l |]. unfold Rmax. destruct (Rle_dec _ _); auto.
  - injection hp as <-. rewrite repeat_length. split; [reflexivity |]. intros c hc. rewrite (nth_indep _ 0 1) by (rewrite repeat_length; lia). apply nth_repeat.
Qed.
End Vag.
Print Assumptions C72_step_shape_and_box.
Print Assumptions C72_dead_particles_stay.
Print Assumptions C72_flat_target_keeps_centre.
Print Assumptions C72_single_particle.
Print Assumptions C72_run.
Print Assumptions C72_zero_steps.
Print Assumptions C72_dead_forever.
Print Assumptions C72_preconditioner.
