(** SVGD with the NumPy backend: scores near the faces of the box (C88). *)
From Coq Require Import Reals Lra Lia List Bool Arith.
From Coquelicot Require Import Coquelicot.
From Verif Require Import ConfigModel FlModel PriorModel ParamModel SvgdModel SelectProofs NutsProofs SvgdProofs SvgdThms SvgdThms2.
Import List ListNotations.
Notation length := List.length.
Local Open Scope R_scope.

Lemma upd_other (u : vec) c d t : c <> d -> nth d (upd u c t) 0 = nth d u 0.
Proof. revert c d. induction u as [| a u IH]; intros [| c] [| d] h; cbn; try reflexivity; try lia. apply IH. lia. Qed.
Lemma outside_coord lo hi x c : length lo = length x -> length hi = length x -> (c < length x)%nat -> (nth c x 0 < nth c lo 0 \/ nth c hi 0 < nth c x 0) -> outside (Some (lo, hi)) x = true.
Proof.
  intros l1 l2 hc h. cbn [outside]. apply orb_true_iff. destruct h as [h | h]; [left | right].
  - clear l2 hi. revert lo c l1 hc h. induction x as [| a x IH]; intros [| l lo] [| c] l1 hc h; cbn in *; try lia; apply orb_true_iff; [left; now apply rltb_iff | right; apply (IH lo c); [lia | lia | exact h]].
  - clear l1 lo. revert hi c l2 hc h. induction x as [| a x IH]; intros [| l hi] [| c] l2 hc h; cbn in *; try lia; apply orb_true_iff; [left; now apply rltb_iff | right; apply (IH hi c); [lia | lia | exact h]].
Qed.
Lemma inside_coord lo hi x : in_box lo hi x -> outside (Some (lo, hi)) x = false.
Proof.
  intros [l1 [l2 h]]. cbn [outside]. apply orb_false_iff. split.
  - assert (h' : forall c, (c < length x)%nat -> nth c lo 0 <= nth c x 0) by (intros c hc; apply h, hc). clear h l2 hi. revert lo l1 h'. induction x as [| a x IH]; intros [| l lo] l1 h; cbn in *; try lia; try reflexivity. apply orb_false_iff. split; [apply rltb_false; apply (h 0%nat); lia |]. apply IH; [lia |]. intros c hc. apply (h (S c)). lia.
  - assert (h' : forall c, (c < length x)%nat -> nth c x 0 <= nth c hi 0) by (intros c hc; apply h, hc). assert (l3 : length x = length hi) by lia. clear h l1 l2 lo. revert hi l3 h'. induction x as [| a x IH]; intros [| l hi] l3 h; cbn in *; try lia; try reflexivity. apply orb_false_iff. split; [apply rltb_false; apply (h 0%nat); lia |]. apply IH; [lia |]. intros c hc. apply (h (S c)). lia.
Qed.

(** a stencil point at -inf makes the difference quotient not finite *)
Lemma five_point_inf f x h g : 0 < h -> five_point f x h = Some g -> (f (x - 2 * h) = Some NInf \/ f (x + 2 * h) = Some NInf) -> nan_to_num g = 0.
Proof.
  intros hh e hi. unfold five_point in e. destruct (f (x - 2 * h)) as [a |]; [| discriminate]. destruct (f (x - h)) as [b |]; [| discriminate]. destruct (f (x + h)) as [c |]; [| discriminate]. destruct (f (x + 2 * h)) as [d |]; [| discriminate].
  assert (eg : g = fl_div (fl_add (fl_sub (fl_add (fl_opp d) (fl_mul (Fin 8) c)) (fl_mul (Fin 8) b)) a) (Fin (12 * h))) by congruence. clear e.
  assert (D : forall z, fl_is_finite z = false -> nan_to_num (fl_div z (Fin (12 * h))) = 0).
  { intros z hz. assert (q : rltb (12 * h) 0 = false) by (apply rltb_false; lra). destruct z as [z | | |]; [discriminate | | |]; unfold fl_div; rewrite ?q; reflexivity. }
  rewrite eg. apply D. clear eg D. destruct hi as [hi | hi].
  - assert (a = NInf) by congruence. subst a. destruct (fl_sub (fl_add (fl_opp d) (fl_mul (Fin 8) c)) (fl_mul (Fin 8) b)); reflexivity.
  - assert (d = NInf) by congruence. subst d. cbn [fl_opp]. destruct (fl_mul (Fin 8) c), (fl_mul (Fin 8) b), a; reflexivity.
Qed.
Lemma all_some_nth (A : Type) (l : list (option A)) r d k : all_some l = Some r -> length r = length l /\ ((k < length l)%nat -> nth_error l k = Some (Some (nth k r d))).
Proof.
  revert r k. induction l as [| [a |] l IH]; intros r k e; cbn in e; [assert (r = []) by congruence; subst; split; [reflexivity | cbn; lia] | | discriminate].
  destruct (all_some l) as [r' |] eqn:e'; [| discriminate]. assert (r = a :: r') by congruence. subst. destruct (IH r' (pred k) eq_refl) as [h1 h2]. split; [cbn; now rewrite h1 |].
  intro hk. destruct k as [| k]; [reflexivity |]. cbn in *. apply h2. lia.
Qed.
Lemma all_some_total (A : Type) (l : list (option A)) : (forall a, In a l -> a <> None) -> exists r, all_some l = Some r.
Proof.
  induction l as [| [a |] l IH]; intro h; [now exists [] | | exfalso; now apply (h None (or_introl eq_refl))]. destruct IH as [r e]; [intros b hb; apply h; now right |]. exists (a :: r). cbn. now rewrite e.
Qed.
Lemma numpy_nth h f x v g c : numpy_value_and_grad h f x = Some (v, g) -> length g = length x /\ ((c < length x)%nat -> five_point (fun v => f (upd x c v)) (nth c x 0) h = Some (nth c g NaN)).
Proof.
  unfold numpy_value_and_grad. destruct (f x) as [y |]; [| discriminate]. destruct (all_some (map (fun i => five_point (fun v => f (upd x i v)) (nth i x 0) h) (seq 0 (length x)))) as [g' |] eqn:e; [| discriminate].
  intro q. assert (g' = g) by congruence. subst g'. destruct (all_some_nth _ _ _ NaN c e) as [h1 h2]. rewrite map_length, seq_length in h1, h2. split; [exact h1 |]. intro hc. specialize (h2 hc).
  assert (sq : nth_error (seq 0 (length x)) c = Some c) by (rewrite (nth_error_nth' _ 0%nat) by (rewrite seq_length; exact hc); now rewrite seq_nth).
  rewrite (map_nth_error _ _ _ sq) in h2. congruence.
Qed.
Lemma nth_repeat0 c k : nth c (repeat 0 k) 0 = 0.
Proof. revert c; induction k as [| k IH]; intros [| c]; cbn; try reflexivity; apply IH. Qed.

(** * C88 *)
(** within two difference steps of a face the score across that face is 0, whatever the target *)
Theorem C88_no_score_near_a_face h lp lo hi t dim x c : 0 < h -> length lo = length x -> length hi = length x -> (c < length x)%nat ->
  (nth c x 0 - 2 * h < nth c lo 0 \/ nth c hi 0 < nth c x 0 + 2 * h) ->
  nth c (pscore (evaluate (numpy_value_and_grad h) (tempered lp (Some (lo, hi)) t) dim x)) 0 = 0.
Proof.
  intros hh l1 l2 hc hn. unfold evaluate, safe_value_and_grad. cbn [pscore]. destruct (numpy_value_and_grad h (tempered lp (Some (lo, hi)) t) x) as [[v g] |] eqn:e; [| apply nth_repeat0]. destruct (fl_is_finite v); [| apply nth_repeat0].
  cbn [snd]. destruct (numpy_nth _ _ _ _ _ c e) as [_ n]. specialize (n hc). change 0 with (nan_to_num NaN). rewrite map_nth. cbn [nan_to_num]. apply (five_point_inf _ _ _ _ hh n). unfold tempered.
  destruct hn as [hn | hn]; [left | right]; rewrite (outside_coord lo hi _ c); rewrite ?upd_length; auto; rewrite upd_nth by exact hc; auto.
Qed.
(** deeper inside, where the log density is a real function g, the score is the five-point difference of g divided by the temperature *)
Theorem C88_score_inside h (g : vec -> R) lp lo hi t dim x c : 0 < h -> 0 < t -> dim = length x -> length lo = dim -> length hi = dim -> (c < dim)%nat ->
  (forall y, length y = dim -> lp y = Some (Fin (g y))) ->
  (forall k, (k < dim)%nat -> nth k lo 0 + 2 * h <= nth k x 0 <= nth k hi 0 - 2 * h) ->
  nth c (pscore (evaluate (numpy_value_and_grad h) (tempered lp (Some (lo, hi)) t) dim x)) 0 =
  (- g (upd x c (nth c x 0 + 2 * h)) + 8 * g (upd x c (nth c x 0 + h)) - 8 * g (upd x c (nth c x 0 - h)) + g (upd x c (nth c x 0 - 2 * h))) / (12 * h) / t.
Proof.
  intros hh ht hd l1 l2 hc hlp hin. set (f := tempered lp (Some (lo, hi)) t).
  assert (F : forall k d, (k < dim)%nat -> - (2 * h) <= d <= 2 * h -> f (upd x k (nth k x 0 + d)) = Some (Fin (g (upd x k (nth k x 0 + d)) / t))).
  { intros k d hk hd2. unfold f, tempered. rewrite inside_coord.
    - rewrite hlp by (rewrite upd_length; now symmetry). cbn. assert (q : reqb t 0 = false) by (unfold reqb; destruct (Req_EM_T t 0); [lra | reflexivity]). now rewrite q.
    - unfold in_box. rewrite upd_length. split; [lia |]. split; [lia |]. intros j hj. destruct (Nat.eq_dec j k) as [-> | nj]; [rewrite upd_nth by lia; specialize (hin k hk); lra |]. rewrite upd_other by auto. specialize (hin j ltac:(lia)). lra. }
  assert (P : forall k, (k < dim)%nat -> five_point (fun v => f (upd x k v)) (nth k x 0) h = Some (Fin ((- g (upd x k (nth k x 0 + 2 * h)) + 8 * g (upd x k (nth k x 0 + h)) - 8 * g (upd x k (nth k x 0 - h)) + g (upd x k (nth k x 0 - 2 * h))) / (12 * h) / t))).
  { intros k hk. unfold five_point. unfold Rminus at 1 2. rewrite !F by (try exact hk; lra). cbn. assert (q : reqb (12 * h) 0 = false) by (unfold reqb; destruct (Req_EM_T (12 * h) 0); [lra | reflexivity]). rewrite q. do 2 f_equal. unfold Rminus. field. lra. }
  assert (F0 : f x = Some (Fin (g x / t))). { assert (E : upd x c (nth c x 0 + 0) = x) by (rewrite Rplus_0_r; apply upd_same). generalize (F c 0 hc ltac:(lra)). now rewrite E. }
  unfold evaluate, safe_value_and_grad. fold f. destruct (all_some_total _ (map (fun i => five_point (fun v => f (upd x i v)) (nth i x 0) h) (seq 0 (length x)))) as [r er].
  { intros a ha. apply in_map_iff in ha as [k [<- hk]]. apply in_seq in hk. rewrite P by lia. discriminate. }
  assert (en : numpy_value_and_grad h f x = Some (Fin (g x / t), r)) by (unfold numpy_value_and_grad; now rewrite F0, er).
  rewrite en. cbn [pscore snd fl_is_finite]. change 0 with (nan_to_num NaN) at 1. rewrite map_nth. destruct (numpy_nth _ _ _ _ _ c en) as [_ n]. specialize (n ltac:(lia)). rewrite P in n by exact hc.
  assert (q : nth c r NaN = Fin ((- g (upd x c (nth c x 0 + 2 * h)) + 8 * g (upd x c (nth c x 0 + h)) - 8 * g (upd x c (nth c x 0 - h)) + g (upd x c (nth c x 0 - 2 * h))) / (12 * h) / t)) by congruence. rewrite q. reflexivity.
Qed.
(** so a lone particle on a face never leaves it *)
Theorem C88_lone_particle_sticks h lp dim o n t0 t1 s (x : vec) ys ts hist lo hi c : 0 < h -> length x = dim -> svgd_sample (numpy_value_and_grad h) lp dim o n t0 t1 s [x] = Some (ys, ts, hist) ->
  bounds_of o dim (Some (lo, hi)) -> proper (Some (lo, hi)) -> (c < dim)%nat -> nth c lo 0 <= nth c x 0 <= nth c hi 0 ->
  (nth c x 0 - 2 * h < nth c lo 0 \/ nth c hi 0 < nth c x 0 + 2 * h) ->
  forall zs, In zs hist -> exists z, zs = [z] /\ nth c z 0 = nth c x 0.
Proof.
  intros hh hx hrun hb hp hc hin hn zs hz. assert (hr : rows dim [x]) by (intros y [<- | []]; exact hx). destruct (bounds_len _ _ _ _ hb) as [bl1 bl2].
  destruct (C72_run _ _ _ _ _ _ _ _ _ _ _ _ hr hrun) as [_ [lt [lh [_ [hs hsh]]]]]. apply (In_nth _ _ []) in hz as [k [hk <-]]. rewrite lh in hk. induction k as [k IH] using lt_wf_ind.
  destruct (hs k hk) as [t [r [e1 [e2 ->]]]].
  assert (prev : exists z : vec, nth k ([x] :: hist) [] = [z] /\ nth c z 0 = nth c x 0 /\ length z = dim).
  { destruct k as [| k]; cbn [nth]; [now exists x |]. destruct (IH k ltac:(lia) ltac:(lia)) as [z [ez hzc]]. exists z. split; [exact ez |]. split; [exact hzc |]. assert (hin' : In (nth k hist []) hist) by (apply nth_In; lia). destruct (hsh _ hin') as [_ [q _]]. rewrite ez in q. apply q. now left. }
  destruct prev as [z [ez [zc zl]]]. rewrite ez in e2. clear ez.
  destruct (step_inv _ _ _ _ _ _ _ e2) as [b [hb' [_ [_ [_ [ec [_ [_ en]]]]]]]].
  assert (b = Some (lo, hi)) by (unfold bounds_of in hb, hb'; destruct (o_box o); [destruct hb as [? [? [? ?]]]; destruct hb' as [? [? [? ?]]]; congruence | congruence]). subst b.
  cbn [project map] in *. set (y := clip z lo hi) in *. assert (yl : length y = dim) by (unfold y; rewrite clip_length; lia).
  assert (yc : nth c y 0 = nth c x 0) by (unfold y; rewrite clip_nth by lia; rewrite zc; apply clip1_id; exact hin).
  set (p := evaluate (numpy_value_and_grad h) (tempered lp (Some (lo, hi)) t) dim y) in *. rewrite ec in en. cbn [map] in en.
  eexists. split; [exact en |]. assert (cp : nth c (move (sr_bandwidth r) (o_step_size o) (sr_precond r) [p] dim p) 0 = nth c x 0).
  { rewrite move_nth by exact hc. assert (px p = y) by reflexivity. rewrite H, yc. assert (V : velocity (sr_bandwidth r) (sr_precond r) [p] p c = 0); [| rewrite V; ring]. destruct (alive p) eqn:ap; [| unfold velocity; now rewrite ap].
    rewrite velocity_single by exact ap. assert (S : nth c (pscore p) 0 = 0); [| rewrite S; ring]. unfold p. apply C88_no_score_near_a_face; [exact hh | lia | lia | lia |]. rewrite yc. exact hn. }
  rewrite clip_nth by (rewrite move_length; lia). rewrite cp. apply clip1_id. exact hin.
Qed.

(** * the inputs a step accepts *)
(** a bound is usable in dimension dim: a number, an array of one entry, or one entry per dimension *)
Definition side_ok (dim : nat) (s : side) : Prop := match s with Scalar _ => True | Array l => length l = 1%nat \/ length l = dim end.
Lemma flatten_len s dim : length (flatten s dim) = dim <-> side_ok dim s.
Proof. destruct s as [a | [| a [| b l]]]; cbn [flatten side_ok length]; rewrite ?repeat_length; intuition lia. Qed.
Lemma normalize_ok lo hi dim : (exists r, normalize_bounds (lo, hi) dim = Some r) <-> side_ok dim lo /\ side_ok dim hi.
Proof.
  rewrite <- !flatten_len. assert (G : (exists r, (if Nat.eqb (length (flatten lo dim)) dim && Nat.eqb (length (flatten hi dim)) dim then Some (flatten lo dim, flatten hi dim) else None) = Some r) <-> length (flatten lo dim) = dim /\ length (flatten hi dim) = dim).
  { destruct (Nat.eqb_spec (length (flatten lo dim)) dim), (Nat.eqb_spec (length (flatten hi dim)) dim); cbn [andb]; (split; [intros [? ?]; try discriminate; tauto | intros [? ?]; try tauto; eauto]). }
  destruct lo as [a | l], hi as [b | k]; try exact G. cbn. rewrite !repeat_length. split; [auto | eauto].
Qed.
Theorem C72_step_accepts vg lp xs dim o t : (exists r, svgd_step vg lp xs dim o t = Some r) <->
  0 < o_step_size o /\ 0 < t /\ xs <> [] /\ 0 < o_scale o /\ (forall b, o_bmin o = Some b -> 0 < b) /\
  (forall lo hi, o_box o = Some (lo, hi) -> side_ok dim lo /\ side_ok dim hi) /\
  (forall d, o_precond o = Some d -> side_ok dim (Array d) /\ (forall a, In a d -> 0 < a \/ dim = 0%nat)).
Proof.
  assert (PR : (exists p, resolve_preconditioner (o_precond o) dim (o_jitter o) = Some p) <-> (forall d, o_precond o = Some d -> side_ok dim (Array d) /\ (forall a, In a d -> 0 < a \/ dim = 0%nat))).
  { unfold resolve_preconditioner. destruct (o_precond o) as [d |]; [| split; [discriminate | eauto]].
    set (d' := match d with [a] => repeat a dim | _ => d end). assert (e' : d' = flatten (Array d) dim) by (unfold d'; destruct d as [| a [| b l]]; reflexivity).
    assert (X : existsb (fun a => rleb a 0) d' = false <-> forall a, In a d' -> 0 < a). { split; [intros h a ha; destruct (Rlt_dec 0 a) as [q | q]; [exact q |]; exfalso; assert (existsb (fun a => rleb a 0) d' = true) by (apply existsb_exists; exists a; split; [exact ha | apply rleb_iff; lra]); congruence |]. intro h. destruct (existsb (fun a => rleb a 0) d') eqn:e; [| reflexivity]. apply existsb_exists in e as [a [ha q]]. apply rleb_iff in q. specialize (h a ha). lra. }
    assert (Y : length d' = dim -> ((forall a, In a d' -> 0 < a) <-> (forall a, In a d -> 0 < a \/ dim = 0%nat))).
    { intro hl. unfold d' in *. destruct d as [| a [| b l]]; [cbn; tauto | |].
      - split; [intros h z [<- | []]; destruct dim; [now right | left; apply h; now left] |]. intros h z hz. apply repeat_spec in hz as e. subst z. destruct (h a (or_introl eq_refl)) as [q | q]; [exact q |]. rewrite q in hz. destruct hz.
      - cbn [length] in hl. split; [intros h z hz; left; auto |]. intros h z hz. destruct (h z hz); [assumption | lia]. }
    destruct (Nat.eqb_spec (length d') dim) as [q | q].
    - specialize (Y q). destruct (existsb (fun a => rleb a 0) d') eqn:ex.
      + split; [intros [p e]; discriminate |]. intro h. destruct (h d eq_refl) as [_ h2]. exfalso. assert (h3 := proj2 X (proj2 Y h2)). discriminate.
      + split; [| eauto]. intros _ d0 ed. assert (d0 = d) by congruence. subst d0. split; [apply flatten_len; now rewrite <- e' | exact (proj1 Y (proj1 X eq_refl))].
    - split; [intros [p e]; discriminate |]. intro h. destruct (h d eq_refl) as [h1 _]. apply flatten_len in h1. rewrite <- e' in h1. contradiction. }
  assert (BW : forall ys, (exists h, effective_bandwidth ys (o_bandwidth o) (o_scale o) (o_bmin o) (o_jitter o) = Some h) <-> 0 < o_scale o /\ (forall b, o_bmin o = Some b -> 0 < b)).
  { intro ys. unfold effective_bandwidth. destruct (rleb (o_scale o) 0) eqn:e1; [apply rleb_iff in e1; split; [intros [h e]; discriminate | intros [h _]; lra] |]. apply rleb_false in e1.
    destruct (o_bmin o) as [b |]; [| split; [intros _; split; [lra | discriminate] | eauto]]. destruct (rleb b 0) eqn:e2; [apply rleb_iff in e2; split; [intros [h e]; discriminate | intros [_ h]; specialize (h b eq_refl); lra] |]. apply rleb_false in e2. split; [intros _; split; [lra | intros b' eb; assert (b' = b) by congruence; subst; lra] | eauto]. }
  assert (BX : (exists b, bounds_of o dim b) <-> (forall lo hi, o_box o = Some (lo, hi) -> side_ok dim lo /\ side_ok dim hi)).
  { unfold bounds_of. destruct (o_box o) as [[lo hi] |]; [| split; [discriminate | eauto]]. split; [intros [b [l [h [e _]]]] l' h' q; assert (l' = lo) by congruence; assert (h' = hi) by congruence; subst; apply normalize_ok; eauto |]. intro h. destruct (proj2 (normalize_ok lo hi dim) (h lo hi eq_refl)) as [[l u] e]. eauto 6. }
  split.
  - intros [r h]. destruct (step_inv _ _ _ _ _ _ _ h) as [b [hb [h1 [h2 [h3 [_ [h4 [h5 _]]]]]]]]. destruct (proj1 (BW _) (ex_intro _ _ h5)) as [q1 q2]. split; [exact h1 |]. split; [exact h2 |]. split; [exact h3 |]. split; [exact q1 |]. split; [exact q2 |]. split; [apply BX; eauto | apply PR; eauto].
  - intros [h1 [h2 [h3 [h4 [h5 [h6 h7]]]]]]. apply PR in h7 as [p ep]. apply BX in h6 as [b hb]. unfold svgd_step. assert (e1 : rleb (o_step_size o) 0 = false) by (apply rleb_false; lra). assert (e2 : rleb t 0 = false) by (apply rleb_false; lra). rewrite e1, e2. cbn [orb].
    assert (G : forall b, exists r, (let xs := project b xs in match resolve_preconditioner (o_precond o) dim (o_jitter o) with None => None | Some precond => match xs with [] => None | _ => let ps := map (evaluate vg (tempered lp b t) dim) xs in match effective_bandwidth xs (o_bandwidth o) (o_scale o) (o_bmin o) (o_jitter o) with None => None | Some h => Some (mkStep (project b (map (move h (o_step_size o) precond ps dim) ps)) h ps precond) end end end) = Some r).
    { intro b'. cbv zeta. rewrite ep. destruct (project b' xs) as [| y yl] eqn:ey; [exfalso; apply h3; apply length_zero_iff_nil; rewrite <- (project_length b' xs), ey; reflexivity |]. destruct (proj2 (BW (y :: yl)) (conj h4 h5)) as [h eh]. rewrite eh. eauto. }
    unfold bounds_of in hb. destruct (o_box o) as [bx |]; [destruct hb as [l [u [e _]]]; rewrite e |]; apply G.
Qed.
(** two particles in the unit interval, a flat target: a step is possible, so the theorems above apply *)
Definition ex_opts : options := mkOptions 1 None 1 None None (Some (Scalar 0, Scalar 1)) 0.
Example C72_step_example vg lp : exists r, svgd_step vg lp [[0]; [1]] 1 ex_opts 1 = Some r /\ rows 1 [[0]; [1]] /\ bounds_of ex_opts 1 (Some ([0], [1])) /\ proper (Some ([0], [1])).
Proof.
  destruct (proj2 (C72_step_accepts vg lp [[0]; [1]] 1 ex_opts 1)) as [r e].
  - cbn. split; [lra |]. split; [lra |]. split; [discriminate |]. split; [lra |]. split; [discriminate |]. split; [| discriminate]. intros lo hi e0. injection e0 as <- <-. cbn. tauto.
  - exists r. split; [exact e |]. split; [intros x [<- | [<- | []]]; reflexivity |]. split; [exists [0], [1]; split; reflexivity |]. intros [| c] hc; cbn in *; [lra | lia].
Qed.
(** the log density 5 x on the unit interval: a particle at 0 stays there although the density grows to the right *)
Example C88_example : exists ys hist, svgd_sample (numpy_value_and_grad (1 / 100000)) (fun x => Some (Fin (5 * nth 0 x 0))) 1 ex_opts 1 1 1 Linear [[0]] = Some (ys, [1], hist) /\ hist = [[[0]]].
Proof.
  unfold svgd_sample. cbn [seq map]. unfold annealed_temperature. assert (q : rleb 1 0 = false) by (apply rleb_false; lra). rewrite q. cbn [orb Nat.leb].
  destruct (proj2 (C72_step_accepts (numpy_value_and_grad (1 / 100000)) (fun x => Some (Fin (5 * nth 0 x 0))) [[0]] 1 ex_opts 1)) as [r e].
  { cbn. split; [lra |]. split; [lra |]. split; [discriminate |]. split; [lra |]. split; [discriminate |]. split; [| discriminate]. intros lo hi e0. injection e0 as <- <-. cbn. tauto. }
  cbn [svgd_loop]. rewrite e. eexists. eexists. split; [reflexivity |]. f_equal.
  assert (R : rows 1 [[0]]) by (intros x [<- | []]; reflexivity).
  assert (rn : svgd_sample (numpy_value_and_grad (1 / 100000)) (fun x => Some (Fin (5 * nth 0 x 0))) 1 ex_opts 1 1 1 Linear [[0]] = Some (sr_next r, [1], [sr_next r])).
  { unfold svgd_sample. cbn [seq map]. unfold annealed_temperature. rewrite q. cbn [orb Nat.leb svgd_loop]. rewrite e. reflexivity. }
  assert (hp : 0 < 1 / 100000) by lra. destruct (C88_lone_particle_sticks (1 / 100000) _ 1 _ _ _ _ _ [0] _ _ _ [0] [1] 0 hp eq_refl rn) with (zs := sr_next r) as [z [ez zc]].
  - exists [0], [1]. split; reflexivity.
  - intros [| c] hc; cbn in *; [lra | lia].
  - lia.
  - cbn; lra.
  - left. cbn. lra.
  - now left.
  - destruct (C72_step_shape_and_box _ _ _ _ _ _ _ R e) as [_ [rw _]]. rewrite ez in *. specialize (rw z (or_introl eq_refl)). destruct z as [| z0 [| z1 zl]]; cbn in rw; try lia. cbn in zc. now subst.
Qed.
Print Assumptions C88_no_score_near_a_face.
Print Assumptions C88_score_inside.
Print Assumptions C88_lone_particle_sticks.
Print Assumptions C72_step_accepts.
