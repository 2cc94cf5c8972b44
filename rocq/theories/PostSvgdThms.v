(** Posterior sampling by SVGD from a selection criterion (C92). *)
From Coq Require Import Reals Lra Lia List Bool Arith.
From Verif Require Import ConfigModel FlModel PriorModel ParamModel SmcModel MhModel DesignModel PostModel PostSvgdModel.
From Verif Require SvgdModel SvgdProofs SvgdThms2 SvgdThms3.
From Verif Require Import MhProofs3 PostThms.
Import List ListNotations.
Notation length := List.length.
Local Open Scope R_scope.

Definition start_box (b : option box) (dim : nat) (sb : option (list R * list R)) : Prop :=
  match b with None => sb = None | Some b => exists lu, normalize_box b dim = Some lu /\ sb = Some lu end.
Lemma map_repeat {A B} (g : A -> B) x k : map g (repeat x k) = repeat (g x) k.
Proof. induction k as [| k ih]; [reflexivity |]. cbn. now rewrite ih. Qed.
Section C92.
Variables (vg : (list R -> option fl) -> list R -> option (fl * list fl)).
Variables (inf : option (info (list R -> option fl))) (crit : option (list R -> option fl)) (states : option arr).
Variables (sampling_box : option box) (n : nat) (init_jitter : R) (noise rand : list (list R)) (args : svgd_options).

Lemma sample_svgd_inv random_init init_box given ys ts hist :
  sample_svgd vg inf crit states random_init init_box sampling_box n init_jitter noise rand args given = Some (ys, ts, hist) ->
  exists f dim sb cloud ib log_prob xs, resolve_criterion _ inf crit true = Some f /\
    infer_dim _ inf states (match init_box with Some b => Some b | None => sampling_box end) = Some dim /\ start_box sampling_box dim sb /\
    svgd_cloud inf states random_init init_box n init_jitter noise dim = Some (cloud, ib) /\ make_log_prob_nuts f sb 1 = Some log_prob /\
    (forall zs, cloud = Some zs -> xs = clip_cloud sb zs) /\
    (cloud = None -> exists b lu, ib = Some b /\ n <> 0%nat /\ SvgdModel.normalize_bounds (to_box b) dim = Some lu /\ randunif dim rand (fst lu) (snd lu) = Some xs) /\
    let o := match given with Some o => o | None => own_options args sampling_box end in
    SvgdModel.svgd_sample vg log_prob dim (so_step o) (so_n_steps o) (so_t0 o) (so_t1 o) (so_schedule o) xs = Some (ys, ts, hist).
Proof.
  unfold sample_svgd. destruct (resolve_criterion _ _ _ _) as [f |]; [| discriminate]. destruct (infer_dim _ _ _ _) as [dim |]; [| discriminate].
  destruct (match sampling_box with None => Some None | Some b => option_map Some (normalize_box b dim) end) as [sb |] eqn:eb; [| discriminate].
  destruct (svgd_cloud _ _ _ _ _ _ _ _) as [[cloud ib] |] eqn:ec; [| discriminate]. destruct (make_log_prob_nuts f sb 1) as [lp |] eqn:el; [| discriminate]. cbv zeta.
  set (st := match cloud with Some _ => _ | None => _ end). destruct st as [xs |] eqn:es; [| discriminate]. unfold st in es. intro h.
  exists f, dim, sb, cloud, ib, lp, xs. split; [reflexivity |]. split; [reflexivity |]. split.
  { unfold start_box. destruct sampling_box as [b |]; [| congruence]. destruct (normalize_box b dim) as [lu |]; [| discriminate]. exists lu. split; [reflexivity | cbn in eb; congruence]. }
  split; [exact ec |]. split; [exact el |]. split; [intros zs ->; congruence |]. split; [| exact h].
  intros ->. destruct ib as [b |]; [| discriminate]. destruct (n =? 0)%nat eqn:en; [discriminate |]. apply Nat.eqb_neq in en.
  destruct (SvgdModel.normalize_bounds (to_box b) dim) as [[lo up] |] eqn:e2; [| discriminate]. exists b, (lo, up). auto.
Qed.

(** particles_initial takes precedence: random_init and init_box are then not read at all *)
Theorem C92_random_init_ignored a r r' ib ib' given : states = Some a ->
  sample_svgd vg inf crit states r ib sampling_box n init_jitter noise rand args given =
  sample_svgd vg inf crit states r' ib' sampling_box n init_jitter noise rand args given.
Proof. intros ->. reflexivity. Qed.

Lemma spread_shape dim x : length x = dim -> length noise = n -> matrix dim noise ->
  length (spread n init_jitter noise x) = n /\ matrix dim (spread n init_jitter noise x).
Proof.
  intros hx hn hm. unfold spread. destruct (_ && _)%bool.
  - assert (q : forall k (ns : list (list R)), length ns = k -> matrix dim ns ->
      length (zip2 (fun x e => zip2 (fun a b => a + init_jitter * b) x e) (repeat x k) ns) = k /\
      matrix dim (zip2 (fun x e => zip2 (fun a b => a + init_jitter * b) x e) (repeat x k) ns)).
    { induction k as [| k ih]; intros ns h1 h2; [split; [reflexivity | intros r []] |]. destruct ns as [| e ns]; [discriminate |]. cbn [repeat zip2].
      destruct (ih ns) as [i1 i2]; [now injection h1 | intros r hr; apply h2; now right |]. split; [cbn; now rewrite i1 |].
      intros r [<- | hr]; [| now apply i2]. assert (le : length e = length x) by (rewrite hx; apply h2; now left). rewrite <- hx. clear - le.
      revert e le. induction x as [| a x ih]; intros [| b e] le; try discriminate; [reflexivity |]. cbn. f_equal. apply ih. now injection le. }
    apply q; assumption.
  - split; [apply repeat_length |]. intros r hr. apply repeat_spec in hr. now subst.
Qed.
Lemma box_len b dim lu : normalize_box b dim = Some lu -> length (fst lu) = dim /\ length (snd lu) = dim.
Proof.
  unfold normalize_box. destruct (_ && _)%bool eqn:e; [| discriminate]. apply andb_true_iff in e as [h1 h2]. apply Nat.eqb_eq in h1, h2. intro h. injection h as <-. auto.
Qed.
Lemma box_same b dim : SvgdModel.normalize_bounds (to_box b) dim = normalize_box b dim.
Proof.
  destruct b as [[l | l] [u | u]]; unfold SvgdModel.normalize_bounds, normalize_box, to_box, to_side, flat_side; cbn [fst snd SvgdModel.flatten]; try reflexivity.
  now rewrite !repeat_length, Nat.eqb_refl.
Qed.
Lemma randunif_shape dim lo up xs : randunif dim rand lo up = Some xs -> length lo = dim -> length up = dim -> matrix dim rand -> length xs = length rand /\ matrix dim xs.
Proof.
  intros h l1 l2 hm. unfold randunif, scale, broadcast in h. rewrite l1, l2, Nat.eqb_refl in h. destruct (all_lt lo up); [| discriminate].
  destruct rand as [| r0 rs]; [discriminate |]. set (rr := r0 :: rs) in *. destruct (forallb (forallb unit_entry) rr); [| discriminate].
  assert (e : xs = map (scale_row lo up) rr) by congruence. subst xs. split; [apply map_length |]. intros x hx. apply in_map_iff in hx as [r [<- hr]].
  specialize (hm r hr). clear - hm l1 l2. revert lo up r l1 l2 hm. induction dim as [| d ih]; intros [| a lo] [| b up] [| c r] h1 h2 h3; try discriminate; [reflexivity |].
  cbn. f_equal. apply ih; [now injection h1 | now injection h2 | now injection h3].
Qed.

(** the number of particles moved: the size of an explicit cloud of more than one point, n_particles otherwise *)
Definition expected_size : nat :=
  match states with Some (A2 _ [x]) => Nat.max 1 n | Some (A2 _ rows) => length rows | _ => n end.
Lemma cloud_shape random_init init_box dim zs ib : (forall a, states = Some a -> array_ok a) -> length noise = n -> matrix dim noise ->
  svgd_cloud inf states random_init init_box n init_jitter noise dim = Some (Some zs, ib) -> length zs = expected_size /\ matrix dim zs.
Proof.
  intros hok hn hm hc.
    assert (S1 : forall x, length x = dim -> zs = spread n init_jitter noise x -> length zs = n /\ matrix dim zs) by (intros x hx ->; now apply spread_shape).
    unfold svgd_cloud in hc. unfold expected_size. destruct states as [[v | l | c rs |] |]; try discriminate.
    + destruct (dim =? 1)%nat eqn:e in hc; [| discriminate]. apply Nat.eqb_eq in e. apply (S1 [v]); [now rewrite e | congruence].
    + destruct (length l =? dim)%nat eqn:e in hc; [| discriminate]. apply Nat.eqb_eq in e. apply (S1 l); [exact e | congruence].
    + destruct (c =? dim)%nat eqn:e in hc; [| discriminate]. apply Nat.eqb_eq in e. subst c. specialize (hok _ eq_refl). cbn in hok.
      destruct rs as [| x [| y rs]].
      * assert (q : zs = []) by congruence. subst zs. auto.
      * destruct (1 <? n)%nat eqn:e1 in hc; [apply Nat.ltb_lt in e1 | apply Nat.ltb_ge in e1].
        -- destruct (S1 x) as [q1 q2]; [apply hok; now left | congruence |]. split; [lia | exact q2].
        -- assert (q : zs = [x]) by congruence. subst zs. split; [rewrite Nat.max_l by exact e1; reflexivity | exact hok].
      * assert (q : zs = x :: y :: rs) by congruence. subst zs. auto.
    + destruct random_init; [destruct init_box; discriminate |]. destruct inf as [i |]; [| discriminate]. destruct (i_covparam i) as [| x0 | |]; try discriminate.
      destruct (length x0 =? dim)%nat eqn:e in hc; [| discriminate]. apply Nat.eqb_eq in e. apply (S1 x0); [exact e | congruence].
Qed.
Lemma start_shape random_init init_box dim sb cloud ib xs : (forall a, states = Some a -> array_ok a) -> length noise = n -> matrix dim noise -> length rand = n -> matrix dim rand ->
  start_box sampling_box dim sb -> svgd_cloud inf states random_init init_box n init_jitter noise dim = Some (cloud, ib) ->
  (forall zs, cloud = Some zs -> xs = clip_cloud sb zs) ->
  (cloud = None -> exists b lu, ib = Some b /\ n <> 0%nat /\ SvgdModel.normalize_bounds (to_box b) dim = Some lu /\ randunif dim rand (fst lu) (snd lu) = Some xs) ->
  length xs = expected_size /\ matrix dim xs.
Proof.
  intros hok hn hm hrn hrm hb hc h1 h2.
  assert (C : forall zs, length zs = expected_size -> matrix dim zs -> length (clip_cloud sb zs) = expected_size /\ matrix dim (clip_cloud sb zs)).
  { intros zs l m. unfold start_box in hb. destruct sampling_box as [b |]; [destruct hb as [[lo up] [e ->]] | subst sb; auto]. apply box_len in e as [l1 l2]. cbn [fst snd] in *. split; [cbn; now rewrite map_length |].
    intros x hx. apply in_map_iff in hx as [z [<- hz]]. specialize (m z hz). rewrite SvgdProofs.clip_length; congruence. }
  destruct cloud as [zs |].
  - rewrite (h1 zs eq_refl). apply (cloud_shape _ _ _ _ _ hok hn hm) in hc as [w1 w2]. now apply C.
  - destruct (h2 eq_refl) as [b [[lo up] [-> [h0 [e3 e4]]]]]. rewrite box_same in e3. apply box_len in e3 as [l1 l2]. cbn [fst snd] in *.
    destruct (randunif_shape dim lo up xs e4 l1 l2 hrm) as [q1 q2]. split; [| exact q2]. rewrite q1, hrn. unfold expected_size. unfold svgd_cloud in hc.
    destruct states as [[v | l | c rs |] |]; try reflexivity. destruct (c =? dim)%nat; [| discriminate]. destruct rs as [| x [| y rs]]; try discriminate. destruct (1 <? n)%nat; discriminate.
Qed.
Theorem C92_shape random_init init_box given ys ts hist dim : (forall a, states = Some a -> array_ok a) ->
  infer_dim _ inf states (match init_box with Some b => Some b | None => sampling_box end) = Some dim ->
  length noise = n -> matrix dim noise -> length rand = n -> matrix dim rand ->
  sample_svgd vg inf crit states random_init init_box sampling_box n init_jitter noise rand args given = Some (ys, ts, hist) ->
  forall zs, In zs (ys :: hist) -> length zs = expected_size /\ matrix dim zs.
Proof.
  intros hok hd hn hm hrn hrm h zs hz. apply sample_svgd_inv in h as [f [d [sb [cloud [ib [lp [xs [_ [hd' [hb [hc [_ [h1 [h2 h3]]]]]]]]]]]]]].
  assert (d = dim) by congruence. subst d. destruct (start_shape _ _ _ _ _ _ _ hok hn hm hrn hrm hb hc h1 h2) as [q1 q2]. cbv zeta in h3.
  destruct (SvgdThms2.C72_run _ _ _ _ _ _ _ _ _ _ _ _ q2 h3) as [_ [_ [_ [hl [_ hs]]]]].
  assert (q : forall zs, In zs (xs :: hist) -> length zs = expected_size /\ matrix dim zs).
  { intros us [<- | hu]; [auto |]. destruct (hs us hu) as [e1 [e2 _]]. split; [exact (eq_trans e1 q1) | exact e2]. }
  destruct hz as [<- | hz]; [| apply q; now right]. apply q. rewrite hl. clear. revert xs. induction hist as [| a l ih]; intros xs; [now left |]. destruct l as [| b l]; [right; now left |].
  destruct (ih xs) as [e | e]; [| right; right; exact e]. right. right. cbn in e. cbn. clear ih. revert b e. induction l as [| c l ih]; intros b e; [now left |]. right. apply (ih c). exact e.
Qed.

(** with the options built from the arguments every particle, at every step, is in the sampling box; the only exception
    is a random start followed by no step at all *)
Theorem C92_in_box random_init init_box ys ts hist dim lo up b : (forall a, states = Some a -> array_ok a) ->
  infer_dim _ inf states (match init_box with Some b => Some b | None => sampling_box end) = Some dim ->
  length noise = n -> matrix dim noise -> length rand = n -> matrix dim rand ->
  sampling_box = Some b -> normalize_box b dim = Some (lo, up) -> (forall c, (c < dim)%nat -> nth c lo 0 <= nth c up 0) ->
  sample_svgd vg inf crit states random_init init_box sampling_box n init_jitter noise rand args None = Some (ys, ts, hist) ->
  (states <> None \/ random_init = false \/ so_n_steps args <> 0%nat) ->
  forall zs x, In zs (ys :: hist) -> In x zs -> inside lo up x.
Proof.
  intros hok hd hn hm hrn hrm hsb hnb hp h hone. pose proof h as h'. apply sample_svgd_inv in h' as [f [d [sb [cloud [ib [lp [xs [_ [hd' [hb [hc [_ [h1 [h2 h3]]]]]]]]]]]]]].
  assert (d = dim) by congruence. subst d. destruct (start_shape _ _ _ _ _ _ _ hok hn hm hrn hrm hb hc h1 h2) as [q1 q2]. cbv zeta in h3.
  assert (esb : sb = Some (lo, up)). { unfold start_box in hb. rewrite hsb in hb. destruct hb as [lu [e ->]]. congruence. } subst sb.
  destruct (box_len _ _ _ hnb) as [l1 l2]. cbn [fst snd] in l1, l2.
  destruct (SvgdThms2.C72_run _ _ _ _ _ _ _ _ _ _ _ _ q2 h3) as [_ [_ [hlh [hl [_ hs]]]]].
  assert (B : SvgdThms2.bounds_of (so_step (own_options args sampling_box)) dim (Some (lo, up))).
  { unfold SvgdThms2.bounds_of, own_options. cbn. rewrite hsb. cbn [option_map]. exists lo, up. split; [| reflexivity]. now rewrite box_same. }
  assert (P : SvgdThms2.proper (Some (lo, up))) by (intros c hc'; apply hp; now rewrite <- l1).
  assert (T : forall y, SvgdProofs.in_box lo up y -> inside lo up y).
  { intros y [e1 [e2 e3]]. unfold inside. split; [congruence |]. split; [congruence |]. exact e3. }
  assert (H : forall zs x, In zs hist -> In x zs -> inside lo up x) by (intros zs x hz hx; apply T; destruct (hs zs hz) as [_ [_ q]]; exact (q _ B P x hx)).
  assert (K : forall zs x, In zs hist -> In x zs -> inside lo up x) by exact H.
  intros zs x [<- | hz] hx; [| now apply (H zs)].
  destruct (Nat.eq_dec (length hist) 0) as [e0 | e0].
  - apply length_zero_iff_nil in e0. subst hist. cbn in hl. subst ys.
    destruct cloud as [cs |].
    + rewrite (h1 cs eq_refl) in hx. cbn in hx. apply in_map_iff in hx as [y [<- hy]]. apply T.
      assert (hlen : length y = dim).
      { apply (cloud_shape _ _ _ _ _ hok hn hm) in hc as [_ w]. now apply w. }
      apply SvgdProofs.clip_in_box; [congruence | congruence |]. intros c hcc. apply hp. now rewrite <- hlen.
    + exfalso. cbn in hlh. assert (e0 : so_n_steps args = 0%nat) by (cbn in hlh; congruence).
      unfold svgd_cloud in hc. destruct hone as [hone | [hone | hone]]; [| | contradiction].
      * destruct states as [[v | l | c rs |] |]; try congruence.
        -- destruct (dim =? 1)%nat; discriminate. -- destruct (length l =? dim)%nat; discriminate.
        -- destruct (c =? dim)%nat; [| discriminate]. destruct rs as [| x0 [| y rs]]; try discriminate. destruct (1 <? n)%nat; discriminate.
      * subst random_init. destruct states as [[v | l | c rs |] |]; try discriminate.
        -- destruct (dim =? 1)%nat; discriminate. -- destruct (length l =? dim)%nat; discriminate.
        -- destruct (c =? dim)%nat; [| discriminate]. destruct rs as [| x0 [| y rs]]; try discriminate. destruct (1 <? n)%nat; discriminate.
        -- destruct inf as [i |]; [| discriminate]. destruct (i_covparam i); try discriminate. destruct (_ =? _)%nat; discriminate.
  - apply (H ys); [| exact hx]. rewrite hl. clear - e0. destruct hist as [| a l]; [now destruct e0 |]. clear e0. revert a xs. induction l as [| c l ih]; intros a xs; [now left |]. right. apply (ih c xs).
Qed.

(** without jitter a replicated starting point never spreads: the particles stay equal to each other at every step,
    and the run is one particle moved by plain gradient ascent *)
Lemma step_collapsed lp dim o t x k r : SvgdModel.svgd_step vg lp (repeat x k) dim o t = Some r -> exists y, SvgdModel.sr_next r = repeat y k.
Proof.
  intro h. apply SvgdThms2.step_inv in h as [b [_ [_ [_ [_ [ec [_ [_ en]]]]]]]]. rewrite en, ec. clear en ec.
  assert (P : forall ys z, ys = repeat z k -> exists w, SvgdModel.project b ys = repeat w k).
  { intros ys z ->. destruct b as [[lo up] |]; [exists (SvgdModel.clip z lo up); exact (map_repeat (fun x => SvgdModel.clip x lo up) z k) | now exists z]. }
  destruct (P (repeat x k) x eq_refl) as [w ->]. rewrite map_repeat. eapply P. apply map_repeat.
Qed.
Lemma loop_collapsed lp dim o temps : forall x k ys ts hist, SvgdModel.svgd_loop vg lp dim o temps (repeat x k) = Some (ys, ts, hist) ->
  forall zs, In zs (ys :: hist) -> exists y, zs = repeat y k.
Proof.
  induction temps as [| [t |] temps ih]; intros x k ys ts hist h zs hz; cbn in h; [| | discriminate].
  - injection h as <- <- <-. destruct hz as [<- | []]. now exists x.
  - destruct (SvgdModel.svgd_step vg lp (repeat x k) dim o t) as [r |] eqn:e; [| discriminate]. apply step_collapsed in e as [y e].
    rewrite e in h. destruct (SvgdModel.svgd_loop vg lp dim o temps (repeat y k)) as [[[ys' ts'] hist'] |] eqn:e2; [| discriminate].
    injection h as <- <- <-. destruct hz as [<- | [<- | hz]]; [eapply ih; [exact e2 | now left] | now exists y | eapply ih; [exact e2 | now right]].
Qed.
Theorem C92_collapsed random_init init_box given ys ts hist : init_jitter <= 0 ->
  (match states with Some (A2 _ rows) => length rows = 1%nat | None => random_init = false | _ => True end) ->
  sample_svgd vg inf crit states random_init init_box sampling_box n init_jitter noise rand args given = Some (ys, ts, hist) ->
  forall zs, In zs (ys :: hist) -> exists y, zs = repeat y expected_size.
Proof.
  intros hj hst h. apply sample_svgd_inv in h as [f [dim [sb [cloud [ib [lp [xs [_ [_ [_ [hc [_ [h1 [h2 h3]]]]]]]]]]]]]]. cbv zeta in h3.
  assert (J : rltb 0 init_jitter = false) by (unfold rltb; destruct (Rlt_dec 0 init_jitter); [lra | reflexivity]).
  assert (S1 : forall x, spread n init_jitter noise x = repeat x n) by (intro x; unfold spread; now rewrite J, andb_false_r).
  assert (E : exists x, xs = repeat x expected_size).
  { assert (G : forall x, cloud = Some (repeat x expected_size) -> exists x, xs = repeat x expected_size).
    { intros x e. rewrite (h1 _ e). destruct sb as [[lo up] |]; [exists (SvgdModel.clip x lo up); exact (map_repeat (fun x => SvgdModel.clip x lo up) x _) | now exists x]. }
    unfold svgd_cloud in hc. unfold expected_size in G |- *. destruct states as [[v | l | c rs |] |]; try discriminate.
    - destruct (dim =? 1)%nat; [| discriminate]. apply (G [v]). rewrite S1 in hc. congruence.
    - destruct (length l =? dim)%nat; [| discriminate]. apply (G l). rewrite S1 in hc. congruence.
    - destruct (c =? dim)%nat; [| discriminate]. destruct rs as [| x [| y rs]]; try discriminate. rewrite S1 in hc. apply (G x).
      destruct (1 <? n)%nat eqn:e1 in hc; [apply Nat.ltb_lt in e1; rewrite Nat.max_r by lia; congruence | apply Nat.ltb_ge in e1; rewrite Nat.max_l by lia; cbn; congruence].
    - subst random_init. destruct inf as [i |]; [| discriminate]. destruct (i_covparam i) as [| x0 | |]; try discriminate.
      destruct (length x0 =? dim)%nat; [| discriminate]. apply (G x0). rewrite S1 in hc. congruence. }
  destruct E as [x ->]. unfold SvgdModel.svgd_sample in h3. eapply loop_collapsed. exact h3.
Qed.
End C92.
Print Assumptions C92_random_init_ignored.
Print Assumptions C92_shape.
Print Assumptions C92_in_box.
Print Assumptions C92_collapsed.

(** a concrete target: criterion -x, differentiated exactly, one step of size 1 at temperature 1 from x = 1/2 *)
Definition ex_vg (f : list R -> option fl) (x : list R) : option (fl * list fl) := option_map (fun v => (v, [Fin 1])) (f x).
Definition ex_crit (x : list R) : option fl := Some (Fin (- nth 0 x 0)).
Definition ex_args := mkSvgdOptions (SvgdModel.mkOptions 1 (Some (Fin 1)) 1 None None None (1 / 1000)) 1 1 1 SvgdModel.Linear.
Definition ex_call (given : option svgd_options) :=
  sample_svgd ex_vg None (Some ex_crit) (Some (A1 [1 / 2])) false None (Some (Bnum 0, Bnum 1)) 1 0 [[0]] [[0]] ex_args given.
Definition ex_lp (p : list R) : option fl := if out_of_box (Some ([0], [1])) p then Some NInf else Some (fl_div (fl_opp (Fin (- nth 0 p 0))) (Fin 1)).
Lemma ex_call_eq given : let o := match given with Some o => o | None => own_options ex_args (Some (Bnum 0, Bnum 1)) end in
  ex_call given = SvgdModel.svgd_sample ex_vg ex_lp 1 (so_step o) (so_n_steps o) (so_t0 o) (so_t1 o) (so_schedule o) [[1 / 2]].
Proof.
  cbv zeta. unfold ex_call, sample_svgd. cbn [resolve_criterion infer_dim length normalize_box flat_side fst snd repeat Nat.eqb andb option_map svgd_cloud].
  unfold make_log_prob_nuts, make_log_prob_mh, rleb. destruct (Rle_dec 1 0); [lra |]. unfold spread. cbn [Nat.ltb Nat.leb andb repeat clip_cloud map SvgdModel.clip].
  replace (SvgdModel.clip1 (1 / 2) 0 1) with (1 / 2); [reflexivity |]. unfold SvgdModel.clip1. rewrite Rmax_left by lra. rewrite Rmin_left by lra. reflexivity.
Qed.
Lemma ex_lp_half : ex_lp [1 / 2] = Some (Fin (1 / 2)).
Proof.
  unfold ex_lp, out_of_box. cbn [zip2 existsb orb]. unfold rltb. destruct (Rlt_dec (1 / 2) 0); [lra |]. destruct (Rlt_dec 1 (1 / 2)); [lra |]. cbn.
  unfold reqb. destruct (Req_EM_T 1 0); [lra |]. do 2 f_equal. field.
Qed.
(** options passed explicitly replace the sampling box too: the particle leaves the box the caller asked for *)
Theorem C92_explicit_options_drop_the_box_refuted : exists ts hist, ex_call (Some ex_args) = Some ([[3 / 2]], ts, hist).
Proof.
  rewrite ex_call_eq. cbv zeta. cbn [so_step so_n_steps so_t0 so_t1 so_schedule ex_args].
  assert (A : exists r, SvgdModel.svgd_step ex_vg ex_lp [[1 / 2]] 1 (so_step ex_args) 1 = Some r).
  { apply SvgdThms3.C72_step_accepts. cbn. repeat split; try lra; try discriminate. }
  destruct A as [r e]. unfold SvgdModel.svgd_sample. cbn [seq map]. unfold SvgdModel.annealed_temperature, rleb. destruct (Rle_dec 1 0); [lra |]. cbn [orb Nat.leb SvgdModel.svgd_loop].
  change (SvgdModel.mkOptions 1 (Some (Fin 1)) 1 None None None (1 / 1000)) with (so_step ex_args). rewrite e. eexists. eexists. do 3 f_equal.
  assert (V : ex_vg (SvgdModel.tempered ex_lp None 1) [1 / 2] = Some (Fin (1 / 2), [Fin 1])).
  { unfold ex_vg, SvgdModel.tempered. cbn [SvgdModel.outside]. rewrite ex_lp_half. cbn. unfold reqb. destruct (Req_EM_T 1 0); [lra |]. cbn. do 3 f_equal. field. }
  destruct (SvgdThms2.C72_single_particle ex_vg ex_lp [1 / 2] 1 (so_step ex_args) 1 r (1 / 2) [Fin 1] e eq_refl V) as [y [e1 [e2 e3]]]. rewrite e1. f_equal.
  destruct y as [| a [| b y]]; try discriminate. f_equal. specialize (e3 0%nat Nat.lt_0_1). cbn [nth SvgdModel.nan_to_num] in e3. rewrite e3.
  apply SvgdThms2.step_inv in e as [b [_ [_ [_ [_ [_ [ep _]]]]]]]. cbn in ep. injection ep as <-. cbn. field.
Qed.
Print Assumptions C92_explicit_options_drop_the_box_refuted.
(** the same call with the options built from the arguments stays in the box *)
Example C92_in_box_ex : exists ys ts hist, ex_call None = Some (ys, ts, hist) /\ length ys = 1%nat /\ forall x, In x ys -> inside [0] [1] x.
Proof.
  assert (A : exists r, SvgdModel.svgd_step ex_vg ex_lp [[1 / 2]] 1 (so_step (own_options ex_args (Some (Bnum 0, Bnum 1)))) 1 = Some r).
  { apply SvgdThms3.C72_step_accepts. cbn. repeat split; try lra; try discriminate.
    all: unfold to_box in H; cbn in H; injection H as <- <-; exact I. }
  destruct A as [r e]. assert (H : exists ys ts hist, ex_call None = Some (ys, ts, hist)).
  { rewrite ex_call_eq. cbv zeta. cbn [so_n_steps so_t0 so_t1 so_schedule own_options ex_args]. unfold SvgdModel.svgd_sample. cbn [seq map]. unfold SvgdModel.annealed_temperature, rleb.
    destruct (Rle_dec 1 0); [lra |]. cbn [orb Nat.leb SvgdModel.svgd_loop]. rewrite e. do 3 eexists. reflexivity. }
  destruct H as [ys [ts [hist H]]]. exists ys, ts, hist. split; [exact H |].
  assert (m0 : matrix 1 [[0]]) by (intros x [<- | []]; reflexivity). assert (ok : forall a : arr, Some (A1 [1 / 2]) = Some a -> array_ok a) by (intros a q; injection q as <-; exact I). split.
  - destruct (C92_shape _ _ _ _ _ _ _ _ _ _ _ _ _ _ _ _ 1%nat ok eq_refl eq_refl m0 eq_refl m0 H ys (or_introl eq_refl)) as [q _]. exact q.
  - intros x hx. refine (C92_in_box _ _ _ _ _ _ _ _ _ _ _ _ _ _ _ 1%nat [0] [1] (Bnum 0, Bnum 1) ok eq_refl eq_refl m0 eq_refl m0 eq_refl eq_refl _ H _ ys x (or_introl eq_refl) hx); [| left; discriminate].
    intros [| c] hc; [cbn; lra | lia].
Qed.
(** random start, no step: the particles are where init_box put them *)
Example C92_random_start_outside_ex : exists hist ts x,
  sample_svgd ex_vg None (Some ex_crit) None true (Some (Bvec [2], Bvec [3])) (Some (Bnum 0, Bnum 1)) 1 0 [[0]] [[1 / 2]]
    (mkSvgdOptions (so_step ex_args) 0 1 1 SvgdModel.Linear) None = Some ([[x]], ts, hist) /\ 1 < x.
Proof.
  unfold sample_svgd. cbn [resolve_criterion infer_dim length normalize_box flat_side fst snd repeat Nat.eqb andb option_map svgd_cloud].
  unfold make_log_prob_nuts, make_log_prob_mh, rleb at 1. destruct (Rle_dec 1 0); [lra |]. cbn [to_box to_side fst snd SvgdModel.normalize_bounds SvgdModel.flatten repeat length Nat.eqb andb].
  unfold randunif, scale, broadcast. cbn [length Nat.eqb all_lt andb]. unfold rltb. destruct (Rlt_dec 2 3); [| lra]. cbn [forallb andb]. unfold unit_entry, rleb. destruct (Rle_dec 0 (1 / 2)), (Rle_dec (1 / 2) 1); try lra. cbn.
  do 3 eexists. split; [reflexivity | lra].
Qed.
(** a single starting point replicated without jitter *)
Example C92_collapsed_ex : exists ys ts hist y,
  sample_svgd ex_vg None (Some ex_crit) (Some (A1 [1 / 2])) false None None 5 0 [] [] (mkSvgdOptions (so_step ex_args) 0 1 1 SvgdModel.Linear) None = Some (ys, ts, hist) /\ ys = repeat y 5.
Proof.
  unfold sample_svgd. cbn [resolve_criterion infer_dim length option_map svgd_cloud Nat.eqb]. unfold make_log_prob_nuts, make_log_prob_mh, rleb. destruct (Rle_dec 1 0); [lra |].
  unfold spread, rltb. destruct (Rlt_dec 0 0); [lra |]. cbn. do 4 eexists. split; reflexivity.
Qed.
