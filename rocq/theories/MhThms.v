(** Metropolis-Hastings sampler: theorems C53-C60, C79, C80. *)
From Coq Require Import List Arith ZArith Reals Bool Lra Lia.
From Verif Require Import ConfigModel FlModel PriorModel SmcModel SelectProofs SmcProofs MhModel MhProofs MhProofs2 MhProofs3.
Import ListNotations.
Local Open Scope R_scope.

Lemma nth_error_skipn' {A} n (l : list A) : forall j, nth_error (skipn n l) j = nth_error l (n + j).
Proof. revert l. induction n as [| n ih]; intros l j; [reflexivity |]. destruct l; [destruct j; reflexivity | simpl; apply ih]. Qed.
Lemma nth_error_firstn' {A} n (l : list A) : forall j, (j < n)%nat -> nth_error (firstn n l) j = nth_error l j.
Proof. revert l. induction n as [| n ih]; intros l j hj; [lia |]. destruct l; [reflexivity |]. destruct j; [reflexivity | simpl; apply ih; lia]. Qed.
Lemma nth_error_repeat' {A} (a : A) n : forall j, (j < n)%nat -> nth_error (repeat a n) j = Some a.
Proof. induction n as [| n ih]; intros j hj; [lia |]. destruct j; [reflexivity | simpl; apply ih; lia]. Qed.
(** does mhstep accept, for the uniform draw u, the proposal y made from x? *)
Definition moves {X} (log_target : X -> option fl) (x y : X) (cached : fl) (u : R) : bool :=
  st_acc X (mhstep X log_target (fun _ _ => y) (fun _ _ => u) true (fun _ _ _ _ => Fin 0) 0 1 x cached).

(** * C53 *)
Theorem C53_acceptance_probability : forall X (log_target : X -> option fl) x y lx ly cached,
  log_target x = Some (Fin lx) -> log_target y = Some (Fin ly) -> (cached = NaN \/ cached = Fin lx) ->
  exists a, probability (moves log_target x y cached) a /\
    (- (300 * ln 10) < ly - lx -> a = Rmin 1 (exp ly / exp lx)) /\
    (ly - lx <= - (300 * ln 10) -> a = 0).
Proof.
  intros X lt x y lx ly cached hx hy hc. exists (acc_prob (ly - lx)).
  assert (e : forall u, moves lt x y cached u = mh_accept u (Fin (ly - lx))).
  { intro u. unfold moves, mhstep, target. rewrite hx, hy.
    assert (hl : (if fl_is_nan cached then Fin lx else cached) = Fin lx) by (destruct hc as [-> | ->]; reflexivity).
    rewrite hl. cbn [fl_sub fl_add fl_opp]. cbv zeta. fold (ly - lx).
    destruct (mh_accept u (Fin (ly - lx))); reflexivity. }
  split; [| split].
  - destruct (acc_prob_spec (ly - lx)) as [h1 h2]. split; [exact h1 |]. intros u hu. rewrite e. now apply h2.
  - intro h. apply tiny_lt_exp in h. unfold acc_prob. destruct (Rlt_dec tiny (exp (ly - lx))); [| contradiction].
    f_equal. unfold Rminus, Rdiv. now rewrite exp_plus, exp_Ropp.
  - intro h. unfold acc_prob. destruct (Rlt_dec tiny (exp (ly - lx))) as [k |]; [| reflexivity].
    apply tiny_lt_exp in k. lra.
Qed.
Print Assumptions C53_acceptance_probability.

Lemma moves_prob {X} (lt : X -> option fl) x y lx ly cached a :
  lt x = Some (Fin lx) -> lt y = Some (Fin ly) -> (cached = NaN \/ cached = Fin lx) ->
  probability (moves lt x y cached) a -> a = acc_prob (ly - lx).
Proof.
  intros hx hy hc ha. apply (probability_unique (moves lt x y cached)); [exact ha |].
  destruct (C53_acceptance_probability X lt x y lx ly cached hx hy hc) as [a' [h1 [h2 h3]]].
  replace (acc_prob (ly - lx)) with a'; [exact h1 |].
  unfold acc_prob. destruct (Rlt_dec tiny (exp (ly - lx))) as [k | k].
  - rewrite h2 by now apply tiny_lt_exp. f_equal. unfold Rminus, Rdiv. now rewrite exp_plus, exp_Ropp.
  - apply h3. apply Rnot_lt_le. intro k2. apply k. now apply tiny_lt_exp.
Qed.

(** exact detailed balance unless one density is below 1e-300 times the other *)
Theorem C53_detailed_balance : forall X (log_target : X -> option fl) x y lx ly cx cy a a',
  log_target x = Some (Fin lx) -> log_target y = Some (Fin ly) ->
  (cx = NaN \/ cx = Fin lx) -> (cy = NaN \/ cy = Fin ly) ->
  probability (moves log_target x y cx) a -> probability (moves log_target y x cy) a' ->
  (Rabs (ly - lx) < 300 * ln 10 -> exp lx * a = exp ly * a') /\
  Rabs (exp lx * a - exp ly * a') <= / (10 ^ 300) * Rmax (exp lx) (exp ly).
Proof.
  intros X lt x y lx ly cx cy a a' hx hy hcx hcy ha ha'.
  rewrite (moves_prob lt x y lx ly cx a hx hy hcx ha), (moves_prob lt y x ly lx cy a' hy hx hcy ha').
  assert (E : Rabs (ly - lx) < 300 * ln 10 -> exp lx * acc_prob (ly - lx) = exp ly * acc_prob (lx - ly)).
  { intro h. apply balance_core; apply tiny_lt_exp; unfold Rabs in h; destruct (Rcase_abs (ly - lx)); lra. }
  split; [exact E |]. pose proof tiny_pos as tp. fold tiny. pose proof (exp_pos lx); pose proof (exp_pos ly).
  pose proof (Rmax_l (exp lx) (exp ly)); pose proof (Rmax_r (exp lx) (exp ly)).
  destruct (Rlt_dec tiny (exp (ly - lx))) as [h1 | h1]; [destruct (Rlt_dec tiny (exp (lx - ly))) as [h2 | h2] |].
  - rewrite balance_core by assumption. unfold Rminus. rewrite Rplus_opp_r, Rabs_R0. apply Rmult_le_pos; lra.
  - destruct (balance_defect ly lx) as [e1 [e2 e3]]; [lra |]. rewrite e1, e2. rewrite Rmult_0_r, Rmult_1_r, Rminus_0_r, Rabs_right by lra. nra.
  - destruct (balance_defect lx ly) as [e1 [e2 e3]]; [lra |]. rewrite e1, e2.
    rewrite Rmult_0_r, Rmult_1_r. unfold Rminus. rewrite Rplus_0_l, Rabs_Ropp, Rabs_right by lra. nra.
Qed.
Print Assumptions C53_detailed_balance.
Example C53_detailed_balance_ex : exists a a',
  probability (moves (fun b : bool => Some (Fin (if b then 0 else - ln 2))) true false NaN) a /\
  probability (moves (fun b : bool => Some (Fin (if b then 0 else - ln 2))) false true NaN) a' /\ a = / 2 /\ a' = 1.
Proof.
  set (lt := fun b : bool => Some (Fin (if b then 0 else - ln 2))).
  assert (l2 : 0 < ln 2 < 1) by (split; [rewrite <- ln_1; apply ln_increasing; lra | pose proof exp_ineq1 1; assert (2 < exp 1) by (assert (1 + 1 < exp 1) by (apply exp_ineq1; lra); lra); rewrite <- (ln_exp 1); apply ln_increasing; lra]).
  assert (l10 : 0 < ln 10) by (rewrite <- ln_1; apply ln_increasing; lra).
  assert (l210 : ln 2 < ln 10) by (apply ln_increasing; lra).
  destruct (C53_acceptance_probability bool lt true false 0 (- ln 2) NaN eq_refl eq_refl (or_introl eq_refl)) as [a [h1 [h2 _]]].
  destruct (C53_acceptance_probability bool lt false true (- ln 2) 0 NaN eq_refl eq_refl (or_introl eq_refl)) as [a' [h1' [h2' _]]].
  exists a, a'. split; [exact h1 |]. split; [exact h1' |]. split.
  - rewrite h2 by lra. rewrite exp_0, exp_Ropp, exp_ln by lra. rewrite Rmin_right; lra.
  - rewrite h2' by lra. rewrite exp_0, exp_Ropp, exp_ln by lra. rewrite Rmin_left; lra.
Qed.

(** on a finite state space with a symmetric proposal the target is invariant *)
Theorem C53_target_invariant : forall X (eqd : forall a b : X, {a = b} + {a <> b}) (xs : list X)
    (log_target : X -> option fl) (l : X -> R) (q a : X -> X -> R),
  NoDup xs ->
  (forall x, In x xs -> log_target x = Some (Fin (l x))) ->
  (forall x y, In x xs -> In y xs -> Rabs (l y - l x) < 300 * ln 10) ->
  (forall x y, In x xs -> In y xs -> q x y = q y x) ->
  (forall x, In x xs -> ssum xs (q x) = 1) ->
  (forall x y, In x xs -> In y xs -> probability (moves log_target x y NaN) (a x y)) ->
  forall y, In y xs -> ssum xs (fun x => exp (l x) * kernel X eqd xs q a x y) = exp (l y).
Proof.
  intros X eqd xs lt l q a hd hl hb hq h1 ha y hy.
  apply (kernel_invariant X eqd xs q a (fun x => exp (l x))); auto.
  intros x z hx hz. destruct (C53_detailed_balance X lt x z (l x) (l z) NaN NaN (a x z) (a z x)) as [E _]; auto.
  specialize (E (hb x z hx hz)). rewrite (hq x z hx hz).
  replace (exp (l x) * (q z x * a x z)) with (q z x * (exp (l x) * a x z)) by ring. rewrite E. ring.
Qed.
Print Assumptions C53_target_invariant.

(** the non-symmetric option changes nothing: _log_prop is a Gaussian density in x_new - x *)
Theorem C53_nonsymmetric_correction_zero : forall X (log_target : X -> option fl) Y U logq c t x cached (g : R),
  logq c t (Y c t) x = Fin g -> logq c t x (Y c t) = Fin g ->
  mhstep X log_target Y U false logq c t x cached = mhstep X log_target Y U true logq c t x cached.
Proof.
  intros X lt Y U logq c t x cached g h1 h2. unfold mhstep. rewrite h1, h2.
  assert (e0 : fl_sub (Fin g) (Fin g) = Fin 0) by (cbn [fl_sub fl_opp fl_add]; f_equal; ring).
  assert (e1 : forall d, fl_add d (Fin 0) = d) by (intros [v | | |]; cbn [fl_add]; try reflexivity; f_equal; ring).
  cbv zeta. now rewrite e0, e1.
Qed.
Print Assumptions C53_nonsymmetric_correction_zero.
(** hence a user-supplied asymmetric proposal has the wrong invariant law: two states with equal target, from
    true always propose false, from false propose true with probability 1/2 *)
Theorem C53_asymmetric_proposal_refuted :
  let eqd := Bool.bool_dec in
  let lt := fun _ : bool => Some (Fin 0) in
  let q := fun x y : bool => if x then (if y then 0 else 1) else 1 / 2 in
  exists a, (forall x y, probability (fun u => st_acc bool
      (mhstep bool lt (fun _ _ => y) (fun _ _ => u) false (fun _ _ _ _ => Fin 0) 0 1 x NaN)) (a x y)) /\
    ssum [true; false] (q true) = 1 /\ ssum [true; false] (q false) = 1 /\
    ssum [true; false] (fun x => exp 0 * kernel bool eqd [true; false] q a x false) <> exp 0.
Proof.
  intros eqd lt q. exists (fun _ _ => 1). repeat split; try lra.
  - intros _. unfold mhstep, target, lt. cbn [fl_is_nan fl_sub fl_add fl_opp]. cbv zeta.
    replace (0 + - 0 + (0 + - 0)) with 0 by ring.
    assert (hacc : mh_accept u (Fin 0) = true).
    { apply accept_fin. rewrite exp_0. pose proof tiny_lt1. lra. }
    rewrite hacc. reflexivity.
  - unfold ssum, q, sum_list. simpl. ring.
  - unfold ssum, q, sum_list. simpl. field.
  - rewrite exp_0. unfold ssum, kernel, q, sum_list, ssum, sum_list. simpl. lra.
Qed.
Print Assumptions C53_asymmetric_proposal_refuted.

(** * C54 *)
Section Run.
Variable X : Type.
Variable log_target : X -> option fl.
Variable Y : nat -> nat -> X.
Variable U : nat -> nat -> R.
Variable symmetric : bool.
Variable logq : nat -> nat -> X -> X -> fl.
Variable interval : nat.
Variable haario_pool : option nat.
Variable acceptance_min acceptance_max : R.
Variable sliding_width : Z.
Variable dim : nat.
Variable coord : nat -> X -> R.
Notation scheduler := (scheduler X log_target Y U symmetric logq interval haario_pool acceptance_min acceptance_max sliding_width dim coord).
Notation target := (target X log_target).

Theorem C54_trace : forall freeze n_total b x0 s, scheduler freeze n_total b x0 = Some s ->
  length (traces X s) = length x0 /\
  forall c tr, nth_error (traces X s) c = Some tr ->
    length tr = S (global_iter X s) /\
    (exists x, nth_error x0 c = Some x /\ nth_error tr 0 = Some (x, true, NaN)) /\
    forall t x a l x' a' l', nth_error tr t = Some (x, a, l) -> nth_error tr (S t) = Some (x', a', l') ->
      l' = target x' /\
      ((a' = true /\ x' = Y c (S t) /\ target x' <> NaN /\ target x' <> NInf) \/ (a' = false /\ x' = x)).
Proof.
  intros freeze n_total b x0 s h. destruct (scheduler_spec _ _ _ _ _ _ _ _ _ _ _ _ _ _ _ _ _ _ h) as [_ [ha _]].
  destruct (after_ok _ _ _ _ _ _ _ _ _ _ ha) as [hl hok]. split; [exact hl |]. intros c tr htr.
  destruct (hok c tr htr) as [x [hx hch]]. split; [apply hch |]. split; [exists x; split; [exact hx | apply hch] |].
  intros t x1 a l x' a' l' h1 h2. split.
  - exact (chain_stored _ _ _ _ _ _ _ _ _ _ hch t _ h2).
  - exact (chain_move _ _ _ _ _ _ _ _ _ _ hch t _ _ h1 h2).
Qed.
(** the decision taken at step t+1 is the Metropolis test on the targets of the stored state and of the proposal *)
Theorem C54_decision : symmetric = true -> forall freeze n_total b x0 s, scheduler freeze n_total b x0 = Some s ->
  forall c tr t x a l x' a' l', nth_error (traces X s) c = Some tr ->
    nth_error tr t = Some (x, a, l) -> nth_error tr (S t) = Some (x', a', l') ->
    a' = mh_accept (U c (S t)) (fl_sub (target (Y c (S t))) (target x)).
Proof.
  intros hsym freeze n_total b x0 s h. destruct (scheduler_spec _ _ _ _ _ _ _ _ _ _ _ _ _ _ _ _ _ _ h) as [_ [ha _]].
  destruct (after_ok _ _ _ _ _ _ _ _ _ _ ha) as [hl hok]. intros c tr t x a l x' a' l' htr h1 h2.
  destruct (hok c tr htr) as [x1 [hx hch]].
  assert (he := chain_effective _ _ _ _ _ _ _ _ _ _ hch t _ h1). destruct hch as [_ [_ hs]].
  destruct (hs t _ h2) as [e [h3 h4]]. rewrite h1 in h3. injection h3 as <-. unfold effective in he.
  unfold mhstep in h4. cbv zeta in h4. rewrite he, hsym in h4. cbn [st_x fst snd] in h4.
  change (fst (fst (x, a, l))) with x in h4.
  destruct (mh_accept (U c (S t)) (fl_sub (target (Y c (S t))) (target x))); congruence.
Qed.
(** a state whose target is NaN, or +inf with a symmetric proposal, is never left *)
Theorem C54_absorbing : forall freeze n_total b x0 s, scheduler freeze n_total b x0 = Some s ->
  forall c tr t x a l, nth_error (traces X s) c = Some tr -> nth_error tr t = Some (x, a, l) ->
    (target x = NaN \/ (symmetric = true /\ target x = PInf)) ->
    forall t' x' a' l', (t < t')%nat -> nth_error tr t' = Some (x', a', l') -> x' = x /\ a' = false.
Proof.
  intros freeze n_total b x0 s h. destruct (scheduler_spec _ _ _ _ _ _ _ _ _ _ _ _ _ _ _ _ _ _ h) as [_ [ha _]].
  destruct (after_ok _ _ _ _ _ _ _ _ _ _ ha) as [hl hok]. intros c tr t x a l htr h1 hb.
  destruct (hok c tr htr) as [x1 [hx hch]].
  induction t' as [| t' ih]; intros x' a' l' hlt h2; [lia |].
  destruct (Nat.eq_dec t t') as [<- | hne].
  - destruct (chain_stuck _ _ _ _ _ _ _ _ _ _ hch t _ _ h1 h2 hb) as [e1 e2]. cbn in e1, e2. split; assumption.
  - destruct (nth_error tr t') as [[[x2 a2] l2] |] eqn:h3.
    + destruct (ih x2 a2 l2) as [-> _]; [lia | reflexivity |].
      destruct (chain_stuck _ _ _ _ _ _ _ _ _ _ hch t' _ _ h3 h2 hb) as [e1 e2]. cbn in e1, e2. split; assumption.
    + apply nth_error_None in h3. assert (S t' < length tr)%nat by (apply nth_error_Some; congruence). lia.
Qed.
(** every state of a chain is its initial state or has a target that is neither NaN nor -inf *)
Theorem C54_support : forall freeze n_total b x0 s, scheduler freeze n_total b x0 = Some s ->
  forall c tr t x a l, nth_error (traces X s) c = Some tr -> nth_error tr t = Some (x, a, l) ->
    nth_error x0 c = Some x \/ (target x <> NaN /\ target x <> NInf).
Proof.
  intros freeze n_total b x0 s h. destruct (scheduler_spec _ _ _ _ _ _ _ _ _ _ _ _ _ _ _ _ _ _ h) as [_ [ha _]].
  destruct (after_ok _ _ _ _ _ _ _ _ _ _ ha) as [hl hok]. intros c tr t x a l htr h1.
  destruct (hok c tr htr) as [x1 [hx hch]].
  destruct (chain_support _ _ _ _ _ _ _ _ _ _ hch t _ h1) as [e | e]; cbn in e; [left; congruence | right; exact e].
Qed.

(** * C57 *)
Theorem C57_returned_samples : forall freeze n_total b x0 s, scheduler freeze n_total b x0 = Some s ->
  (burnin_period X s <= b)%nat /\ (b <= n_total)%nat /\
  global_iter X s = (burnin_period X s + (n_total - b))%nat /\
  length (returned X false s) = length x0 /\ length (samples_post_burnin X s) = length x0 /\
  forall c tr, nth_error (traces X s) c = Some tr ->
    length tr = S (global_iter X s) /\
    nth_error (returned X false s) c = Some (map (st_x X) (firstn (global_iter X s) tr)) /\
    nth_error (samples_post_burnin X s) c = nth_error (returned X true s) c /\
    exists post, nth_error (samples_post_burnin X s) c = Some post /\ length post = (n_total - b)%nat /\
      forall j, (j < n_total - b)%nat -> nth_error post j = x_row X s c (burnin_period X s + j).
Proof.
  intros freeze n_total b x0 s h. destruct (scheduler_spec _ _ _ _ _ _ _ _ _ _ _ _ _ _ _ _ _ _ h) as [hb [ha hcase]].
  destruct (after_ok _ _ _ _ _ _ _ _ _ _ ha) as [hl hok].
  assert (hburn : (burnin_period X s <= b)%nat /\ global_iter X s = (burnin_period X s + (n_total - b))%nat).
  { destruct hcase as [[-> ->] | [k [hk [hbk [h20 [_ [hi _]]]]]]]; [lia |]. split; [| exact hi].
    rewrite hbk. destruct (Nat.eq_dec interval 0) as [-> | hi0]; [lia |].
    pose proof (Nat.mul_div_le b interval hi0). nia. }
  destruct hburn as [hburn hiter]. split; [exact hburn |]. split; [exact hb |]. split; [exact hiter |].
  assert (hlr : length (returned X false s) = length x0) by (unfold returned; rewrite map_length; exact hl).
  split; [exact hlr |]. split; [unfold samples_post_burnin; rewrite map_length; exact hlr |].
  intros c tr htr. destruct (hok c tr htr) as [x [hx hch]].
  assert (hlen : length tr = S (global_iter X s)) by apply hch. split; [exact hlen |].
  assert (hret : nth_error (returned X false s) c = Some (map (st_x X) (firstn (global_iter X s) tr))).
  { unfold returned. rewrite nth_error_map, htr. cbn [option_map]. unfold slice. now rewrite skipn_O, Nat.sub_0_r. }
  split; [exact hret |]. split.
  - unfold samples_post_burnin. rewrite nth_error_map, hret. unfold returned. rewrite nth_error_map, htr. cbn [option_map].
    f_equal. unfold slice. now rewrite skipn_map, skipn_firstn_comm.
  - exists (skipn (burnin_period X s) (map (st_x X) (firstn (global_iter X s) tr))). split; [| split].
    + unfold samples_post_burnin. rewrite nth_error_map, hret. reflexivity.
    + rewrite skipn_length, map_length, firstn_length. lia.
    + intros j hj. unfold x_row. rewrite htr. rewrite skipn_map, nth_error_map. f_equal.
      rewrite nth_error_skipn'. apply nth_error_firstn'. lia.
Qed.
(** early stop: the burn-in that was skipped is never run, and those rows are never written *)
Theorem C57_unvisited_rows : forall freeze n_total b x0 s, scheduler freeze n_total b x0 = Some s ->
  forall c, (c < length x0)%nat ->
  (forall i, (i <= global_iter X s)%nat <-> exists x, x_row X s c i = Some x) /\
  (* what the whole-chain functions read after the (possibly shortened) burn-in *)
  (In None (whole_chain_rows X n_total (burnin_period X s) c s) <-> (burnin_period X s < b)%nat) /\
  (* what ks_statistics reads *)
  (forall n_blocks n_block_size rows, ks_rows X n_total n_blocks n_block_size c s = Some rows ->
     (1 <= n_blocks * n_block_size)%nat -> (In None rows <-> (burnin_period X s < b)%nat)).
Proof.
  intros freeze n_total b x0 s h c hc.
  destruct (C57_returned_samples _ _ _ _ _ h) as [hburn [hb [hiter _]]].
  destruct (scheduler_spec _ _ _ _ _ _ _ _ _ _ _ _ _ _ _ _ _ _ h) as [_ [ha _]].
  destruct (after_ok _ _ _ _ _ _ _ _ _ _ ha) as [hl hok].
  destruct (nth_error (traces X s) c) as [tr |] eqn:htr; [| apply nth_error_None in htr; lia].
  destruct (hok c tr htr) as [x [hx hch]]. assert (hlen : length tr = S (global_iter X s)) by apply hch.
  assert (hrow : forall i, x_row X s c i = None <-> (global_iter X s < i)%nat).
  { intro i. unfold x_row. rewrite htr. destruct (nth_error tr i) eqn:hi; cbn [option_map].
    - split; [discriminate |]. intro k. assert (i < length tr)%nat by (apply nth_error_Some; congruence). lia.
    - apply nth_error_None in hi. split; [lia | reflexivity]. }
  split; [| split].
  - intro i. specialize (hrow i). destruct (x_row X s c i) as [y |].
    + split; [eauto |]. intros _. destruct (Nat.le_gt_cases i (global_iter X s)); [assumption |].
      apply hrow in H. discriminate.
    + split; [| intros [y hy]; discriminate]. intro hle. destruct hrow as [hr _]. specialize (hr eq_refl). lia.
  - unfold whole_chain_rows. rewrite in_map_iff. split.
    + intros [i [hi hin]]. apply in_seq in hin. apply hrow in hi. lia.
    + intro hlt. exists n_total. split; [apply hrow; lia | apply in_seq; lia].
  - intros nb bs rows. unfold ks_rows. destruct (1 + n_total <? nb * bs)%nat eqn:hks; [discriminate |].
    apply Nat.ltb_ge in hks. intros hr hpos.
    assert (hr' : rows = map (x_row X s c) (seq (1 + n_total - nb * bs) (nb * bs))) by congruence. rewrite hr', in_map_iff. split.
    + intros [i [hi hin]]. apply in_seq in hin. apply hrow in hi. lia.
    + intro hlt. exists n_total. split; [apply hrow; lia | apply in_seq; lia].
Qed.
(** a single chain cannot go through a burn-in of 20 blocks or more *)
Theorem C57_single_chain_raises : forall freeze n_total b x0, (length x0 < 2)%nat -> (20 * interval <= b)%nat ->
  scheduler freeze n_total b x0 = None.
Proof.
  intros freeze n_total b x0 hc hb. unfold MhModel.scheduler. destruct (n_total <? b)%nat; [reflexivity |].
  unfold run_burnin. destruct (interval =? 0)%nat eqn:hi; [reflexivity |]. apply Nat.eqb_neq in hi.
  cbv zeta. rewrite burnin_loop_single; [reflexivity | | |].
  - unfold n_chains. simpl. rewrite map_length. exact hc.
  - assert (20 <= b / interval)%nat by (apply Nat.div_le_lower_bound; lia). lia.
  - simpl global_iter. assert (h20 : (20 <= b / interval)%nat) by (apply Nat.div_le_lower_bound; lia). nia.
Qed.
(** the first check can never stop the burn-in: position 0 of the rates is the initial dummy acceptance 1 *)
Theorem C57_no_stop_at_first_check : acceptance_max <= 1 -> forall freeze n_total b x0 s,
  scheduler freeze n_total b x0 = Some s -> (burnin_period X s < b)%nat -> (21 * interval <= burnin_period X s)%nat.
Proof.
  intros hm freeze n_total b x0 s h hlt.
  destruct (scheduler_spec _ _ _ _ _ _ _ _ _ _ _ _ _ _ _ _ _ _ h) as [_ [_ hcase]].
  destruct hcase as [[hb _] | [k [hk [hbk [h20 [hc [hi [s1 [ha1 hr1]]]]]]]]]; [lia |].
  destruct (Nat.eq_dec k 20) as [e | e]; [| rewrite hbk; nia]. exfalso.
  assert (hint : (1 <= interval)%nat).
  { destruct interval; [| lia]. unfold MhModel.scheduler, run_burnin in h. simpl in h. destruct (n_total <? b)%nat; discriminate. }
  destruct (after_ok _ _ _ _ _ _ _ _ _ _ ha1) as [hl hok].
  destruct (traces X s1) as [| tr trs] eqn:htr; [simpl in hl; lia |].
  destruct (hok 0%nat tr eq_refl) as [x [hx hch]].
  rewrite (rates_first_check X acceptance_min acceptance_max sliding_width s1 (20 * interval) tr) in hr1; [discriminate | exact hm | rewrite htr; now left | | lia | |].
  - destruct ha1 as [_ hi1]. simpl in hi1. rewrite hi1, hbk, e. reflexivity.
  - destruct hch as [hl1 _]. rewrite hl1, hbk, e. reflexivity.
  - unfold accept_row. rewrite nth_error_map. destruct hch as [_ [h0 _]]. rewrite h0. reflexivity.
Qed.

(** * C80: get_log_target_values *)
Theorem C80_log_target_values : forall freeze n_total b x0 s, scheduler freeze n_total b x0 = Some s ->
  forall c tr, nth_error (traces X s) c = Some tr -> forall discard,
  let vals := log_target_row X n_total discard s tr in
  let off := if discard then burnin_period X s else 0%nat in
  length vals = (1 + n_total - off)%nat /\
  (length vals > match nth_error (returned X discard s) c with Some l => length l | None => 0 end)%nat /\
  forall j, (j < length vals)%nat ->
    nth_error vals j = Some (if (off + j =? 0)%nat then NaN else
                             match x_row X s c (off + j) with Some x => target x | None => NaN end).
Proof.
  intros freeze n_total b x0 s h c tr htr discard vals off.
  destruct (C57_returned_samples _ _ _ _ _ h) as [hburn [hb [hiter _]]].
  destruct (scheduler_spec _ _ _ _ _ _ _ _ _ _ _ _ _ _ _ _ _ _ h) as [_ [ha _]].
  destruct (after_ok _ _ _ _ _ _ _ _ _ _ ha) as [hl hok].
  destruct (hok c tr htr) as [x [hx hch]]. assert (hlen : length tr = S (global_iter X s)) by apply hch.
  set (full := map (st_lt X) tr ++ repeat NaN (1 + n_total - length tr)).
  assert (hfull : length full = (1 + n_total)%nat) by (unfold full; rewrite app_length, map_length, repeat_length; lia).
  assert (hv : vals = skipn off full) by (unfold vals, log_target_row, off; fold full; destruct discard; [reflexivity | now rewrite skipn_O]).
  assert (hlv : length vals = (1 + n_total - off)%nat) by (rewrite hv, skipn_length, hfull; reflexivity).
  split; [exact hlv |]. split.
  - unfold returned. rewrite nth_error_map, htr. cbn [option_map]. rewrite map_length, slice_length by lia. rewrite hlv.
    unfold off. destruct discard; lia.
  - intros j hj. rewrite hv, nth_error_skipn'. unfold x_row. rewrite htr.
    destruct (Nat.lt_ge_cases (off + j) (length tr)) as [hlt | hge].
    + unfold full. rewrite nth_error_app1 by (rewrite map_length; lia). rewrite nth_error_map.
      destruct (nth_error tr (off + j)) as [e |] eqn:he; [| apply nth_error_None in he; lia]. cbn [option_map]. f_equal.
      destruct (off + j)%nat as [| t] eqn:ht.
      * destruct hch as [_ [h0 _]]. rewrite h0 in he. injection he as <-. reflexivity.
      * cbn [Nat.eqb]. exact (chain_stored _ _ _ _ _ _ _ _ _ _ hch t _ he).
    + unfold full. rewrite nth_error_app2 by (rewrite map_length; lia). rewrite map_length.
      replace (nth_error tr (off + j)) with (@None (X * bool * fl)) by (symmetry; apply nth_error_None; lia).
      cbn [option_map]. replace (if (off + j =? 0)%nat then NaN else NaN) with NaN by (destruct (off + j =? 0)%nat; reflexivity).
      apply nth_error_repeat'. lia.
Qed.
End Run.
Print Assumptions C54_trace.
Print Assumptions C54_decision.
Print Assumptions C54_absorbing.
Print Assumptions C54_support.
Print Assumptions C57_returned_samples.
Print Assumptions C57_unvisited_rows.
Print Assumptions C57_single_chain_raises.
Print Assumptions C57_no_stop_at_first_check.
Print Assumptions C80_log_target_values.

(** * A concrete run that stops early: C54, C57, C80 are not vacuous *)
Section Ex.
(** flat target, every proposal accepted, two chains alternating between 0 and 1 *)
Definition exT : R -> option fl := fun _ => Some (Fin 0).
Definition exY : nat -> nat -> R := fun _ t => if Nat.even t then 0 else 1.
Definition exU : nat -> nat -> R := fun _ _ => 1 / 2.
Definition exQ : nat -> nat -> R -> R -> fl := fun _ _ _ _ => Fin 0.
Notation ex_run := (scheduler R exT exY exU true exQ 1 None (-2) 2 200%Z 1 (fun _ x => x)).
Notation run := (run_samples R exT exY exU true exQ).
Notation loop := (burnin_loop R exT exY exU true exQ 1 None (-2) 2 200%Z 1 (fun _ x => x)).

Lemma ex_skip nd j : forall b s, (global_iter R s + j < nd)%nat -> loop nd (j + b) s = loop nd b (run j s).
Proof.
  induction j as [| j ih]; intros b s h; [reflexivity |]. cbn [Nat.add burnin_loop adapt_block].
  destruct (run_iter R exT exY exU true exQ 1 s) as [h1 _].
  destruct (nd <=? global_iter R (run 1 s))%nat eqn:e; [apply Nat.leb_le in e; lia |].
  rewrite ih by lia. now rewrite run_app.
Qed.
Lemma ex_state k c tr : nth_error (traces R (run k (init_mh R 30 [0; 0]))) c = Some tr ->
  chain_ok R exT exY exU true exQ c 0 k tr /\
  forall t, (t <= k)%nat -> exists e, nth_error tr t = Some e /\ st_x R e = exY 0 t.
Proof.
  intro h. destruct (after_ok R exT exY exU true exQ 30 [0; 0] k _ (after_run _ _ _ _ _ _ k _)) as [hl hok].
  destruct (hok c tr h) as [x [hx hch]].
  assert (x = 0). { destruct c as [| [| c]]; simpl in hx; try congruence. destruct c; discriminate. } subst x.
  split; [exact hch |]. intros t ht. assert (hlen : length tr = S k) by apply hch.
  destruct (nth_error tr t) as [e |] eqn:he; [| apply nth_error_None in he; lia]. exists e. split; [reflexivity |].
  destruct t as [| t].
  - destruct hch as [_ [h0 _]]. rewrite h0 in he. injection he as <-. reflexivity.
  - destruct (nth_error tr t) as [e0 |] eqn:he0; [| apply nth_error_None in he0; lia].
    assert (hef := chain_effective _ _ _ _ _ _ _ _ _ _ hch t _ he0).
    destruct hch as [_ [_ hs]]. destruct (hs t e he) as [e1 [h1 ->]]. rewrite he0 in h1. injection h1 as <-.
    unfold mhstep. cbv zeta. unfold effective in hef. rewrite hef.
    assert (ha : mh_accept (exU c (S t)) (fl_sub (target R exT (exY c (S t))) (target R exT (st_x R e0))) = true).
    { cbn. apply accept_fin. replace (0 + - 0) with 0 by ring. rewrite exp_0. pose proof tiny_lt1. unfold exU. lra. }
    rewrite ha. reflexivity.
Qed.
Lemma ex_column k c tr : nth_error (traces R (run k (init_mh R 30 [0; 0]))) c = Some tr ->
  map (fun e => st_x R e) tr = map (exY 0) (seq 0 (S k)).
Proof.
  intro h. destruct (ex_state k c tr h) as [hch hx]. assert (hlen : length tr = S k) by apply hch.
  apply nth_ext with (d := 0) (d' := 0); rewrite !map_length; [now rewrite seq_length |].
  intros n hn. destruct (hx n ltac:(lia)) as [e [he hxe]].
  rewrite (nth_indep (map (exY 0) (seq 0 (S k))) 0 (exY 0 0)) by (rewrite map_length, seq_length; lia).
  rewrite (map_nth (exY 0)), seq_nth by lia. cbn [Nat.add]. rewrite <- hxe.
  apply nth_error_nth. rewrite nth_error_map, he. reflexivity.
Qed.
Lemma ex_gr : exists rh, gelman_rubin R 1 (fun _ x => x) 0 20 (run 20 (init_mh R 30 [0; 0])) = Some rh /\ gr_ok rh = true.
Proof.
  unfold gelman_rubin. destruct (run_iter R exT exY exU true exQ 20 (init_mh R 30 [0; 0])) as [_ [_ hc]].
  change (n_chains R (init_mh R 30 [0; 0])) with 2%nat in hc. rewrite hc. cbn [Nat.ltb Nat.leb Nat.sub].
  eexists. split; [reflexivity |]. cbn [seq map gr_ok forallb]. rewrite andb_true_r.
  set (s := run 20 (init_mh R 30 [0; 0])) in *.
  set (col := map (exY 0) (seq 0 20)).
  assert (hb : map (fun tr => map (fun e => st_x R e) (slice 0 20 tr)) (traces R s) = [col; col]).
  { assert (hl : length (traces R s) = 2%nat) by (unfold n_chains in hc; exact hc).
    assert (hcol : forall c tr, nth_error (traces R s) c = Some tr -> map (fun e => st_x R e) (slice 0 20 tr) = col).
    { intros c tr h. apply ex_column in h. unfold slice. rewrite skipn_O, Nat.sub_0_r, <- firstn_map, h. reflexivity. }
    clear hc. clearbody s. destruct (traces R s) as [| t1 [| t2 [| t3 r]]]; try discriminate.
    cbn [map]. f_equal; [exact (hcol 0%nat t1 eq_refl) |]. f_equal. exact (hcol 1%nat t2 eq_refl). }
  rewrite hb.
  assert (hbl : forall l, In l [col; col] -> length l = 20%nat).
  { intros l [<- | [<- | []]]; unfold col; now rewrite map_length, seq_length. }
  assert (h2 : (2 <= length [col; col])%nat) by (simpl; lia).
  assert (hB : B_of 20 [col; col] = 0).
  { apply (B_pos 20 [col; col]); auto; [lia |]. intros l l' [<- | [<- | []]] [<- | [<- | []]]; reflexivity. }
  assert (hW : 0 < W_of [col; col]).
  { destruct (W_pos 20 [col; col]) as [h0 h1]; auto; [lia |]. destruct (Req_dec (W_of [col; col]) 0) as [e | e]; [| lra].
    exfalso. rewrite h1 in e.
    assert (e0 : 0 = mean_l col) by (apply (e col 0); [now left | unfold col; now left]).
    assert (e1 : 1 = mean_l col) by (apply (e col 1); [now left | unfold col; right; now left]). lra. }
  destruct (rhat_value 20 [col; col]) as [r [hr [hr0 hr2]]]; auto; [lia |].
  rewrite hr. rewrite hB in hr2. cbn [fl_lt].
  assert (hr3 : r * r <= 1).
  { rewrite hr2. replace (0 / (INR 20 * W_of [col; col])) with 0 by (unfold Rdiv; ring). simpl. lra. }
  destruct (Rlt_dec r (11 / 10)) as [| hn]; [reflexivity | exfalso; nra].
Qed.
Lemma ex_rates : rates_ok R (-2) 2 200 20 (run 20 (init_mh R 30 [0; 0])) = true.
Proof.
  set (s := run 20 (init_mh R 30 [0; 0])). unfold rates_ok.
  assert (hi : global_iter R s = 20%nat) by (apply (run_iter R exT exY exU true exQ 20 (init_mh R 30 [0; 0]))).
  rewrite hi. apply forallb_forall. intros tr htr. apply forallb_forall. intros v hv.
  destruct (In_nth_error _ _ htr) as [c hc]. destruct (ex_state 20 c tr hc) as [hch _].
  assert (hlen : length tr = 21%nat) by apply hch.
  assert (h01 : 0 <= v <= 1).
  { apply (sliding_range 200 20 (accept_row R tr)).
    - unfold accept_row. rewrite map_length, hlen. lia.
    - intros w hw. unfold accept_row in hw. apply in_map_iff in hw. destruct hw as [e [<- _]]. destruct (st_acc R e); lra.
    - exact (slice_in _ _ _ _ hv). }
  unfold rltb. destruct (Rlt_dec (-2) v); [| lra]. destruct (Rlt_dec v 2); [reflexivity | lra].
Qed.
Lemma ex_stop b s rh : global_iter R (run 1 s) = 20%nat ->
  gelman_rubin R 1 (fun _ x => x) 0 20 (run 1 s) = Some rh ->
  rates_ok R (-2) 2 200 20 (run 1 s) = true -> gr_ok rh = true ->
  loop 20 (S b) s = Some (mkMh R (traces R (run 1 s)) 20 20, true).
Proof.
  intros hi hg hr ho. change (loop 20 (S b) s) with
    (if (20 <=? global_iter R (run 1 s))%nat then
       match gelman_rubin R 1 (fun _ x => x) (global_iter R (run 1 s) - 20) (global_iter R (run 1 s)) (run 1 s) with
       | None => None
       | Some rh => if rates_ok R (-2) 2 200 20 (run 1 s) && gr_ok rh
                    then Some (mkMh R (traces R (run 1 s)) (global_iter R (run 1 s)) (global_iter R (run 1 s)), true)
                    else loop 20 b (run 1 s)
       end
     else loop 20 b (run 1 s)).
  rewrite hi, Nat.leb_refl, Nat.sub_diag, hg, hr, ho. reflexivity.
Qed.
Example C57_early_stop_ex : exists s, ex_run true 40 30 [0; 0] = Some s /\ burnin_period R s = 20%nat /\ global_iter R s = 30%nat.
Proof.
  set (s0 := init_mh R 30 [0; 0]).
  destruct ex_gr as [rh [hg hok]]. pose proof ex_rates as hr. fold s0 in hg, hr.
  assert (hi : global_iter R (run 20 s0) = 20%nat) by (destruct (run_iter R exT exY exU true exQ 20 s0) as [hi _]; exact hi).
  assert (h : loop 20 30 s0 = Some (mkMh R (traces R (run 20 s0)) 20 20, true)).
  { change 30%nat with (19 + 11)%nat. rewrite ex_skip by (simpl global_iter; lia).
    assert (e : run 1 (run 19 s0) = run 20 s0) by (rewrite run_app; reflexivity).
    rewrite (ex_stop 10 (run 19 s0) rh); rewrite ?e; auto. }
  set (s1 := mkMh R (traces R (run 20 s0)) 20 20) in *.
  exists (run 10 s1). split.
  - unfold scheduler. change (40 <? 30)%nat with false. unfold run_burnin. fold s0. cbv zeta.
    change (1 =? 0)%nat with false. change (30 / 1)%nat with 30%nat. change (20 * 1)%nat with 20%nat. rewrite h.
    reflexivity.
  - destruct (run_iter R exT exY exU true exQ 10 s1) as [hi1 [hb1 _]]. rewrite hi1, hb1. split; reflexivity.
Qed.
(** ... and its rows 31 to 40 were never written *)
Example C57_unvisited_ex : exists s, ex_run true 40 30 [0; 0] = Some s /\ x_row R s 0 31 = None /\
  In None (whole_chain_rows R 40 20 0 s).
Proof.
  destruct C57_early_stop_ex as [s [h [hb hi]]]. exists s. split; [exact h |].
  assert (hc : (0 < length [0; 0])%nat) by (apply Nat.lt_0_succ).
  destruct (C57_unvisited_rows _ _ _ _ _ _ _ _ _ _ _ _ _ _ _ _ _ _ h 0%nat hc) as [h1 [h2 _]].
  split.
  - destruct (x_row R s 0 31) as [x |] eqn:e; [| reflexivity]. exfalso.
    assert (31 <= global_iter R s)%nat by (apply h1; eauto). lia.
  - rewrite hb in h2. apply h2. lia.
Qed.
End Ex.

(** * C55 *)
Theorem C55_box : forall crit lo up temperature f Y U symmetric logq interval pool amin amax width dim coord freeze n_total b x0 s,
  make_log_prob_mh crit (Some (lo, up)) temperature = Some f ->
  length up = length lo ->
  (forall c t, length (Y c t) = length lo) -> (forall x, In x x0 -> length x = length lo) ->
  scheduler (list R) f Y U symmetric logq interval pool amin amax width dim coord freeze n_total b x0 = Some s ->
  forall c tr start t x a l, nth_error x0 c = Some start -> nth_error (traces (list R) s) c = Some tr ->
    nth_error tr t = Some (x, a, l) ->
    (* every state is the starting point or a point of the box where the criterion has a value other than
       NaN and +inf *)
    (x = start \/ (inside lo up x /\ exists v, crit x = Some v /\ v <> NaN /\ v <> PInf)) /\
    (inside lo up start -> inside lo up x).
Proof.
  intros crit lo up T f Y U sym logq interval pool amin amax width dim coord freeze n_total b x0 s hf hlu hY hx0 h c tr start t x a l hst htr he.
  unfold make_log_prob_mh in hf. destruct (rleb T 0) eqn:hT; [discriminate |].
  assert (hT0 : 0 < T) by (unfold rleb in hT; destruct (Rle_dec T 0); [discriminate | lra]).
  assert (hfp : forall p, f p = if out_of_box (Some (lo, up)) p then Some NInf
      else match crit p with None => Some NInf | Some v => Some (fl_div (fl_opp v) (Fin T)) end).
  { intro p. match type of hf with Some ?g = _ => assert (e : f = g) by congruence end. rewrite e. reflexivity. }
  destruct (C54_trace _ _ _ _ _ _ _ _ _ _ _ _ _ _ _ _ _ _ h) as [_ htrace].
  destruct (htrace c tr htr) as [hlen [[x1 [hx1 h0]] hstep]].
  rewrite hst in hx1. injection hx1 as <-.
  assert (hdim : forall t x a l, nth_error tr t = Some (x, a, l) -> length x = length lo).
  { clear - hY hx0 hst h0 hstep. induction t as [| t ih]; intros x a l he.
    - rewrite h0 in he. injection he as <- _ _. apply hx0. exact (nth_error_In _ _ hst).
    - destruct (nth_error tr t) as [[[x2 a2] l2] |] eqn:h2.
      + destruct (hstep t x2 a2 l2 x a l h2 he) as [_ [[_ [-> _]] | [_ ->]]]; [apply hY | eapply ih; reflexivity].
      + apply nth_error_None in h2. assert (S t < length tr)%nat by (apply nth_error_Some; congruence). lia. }
  assert (hin : target (list R) f x <> NaN -> target (list R) f x <> NInf -> inside lo up x /\ exists v, crit x = Some v /\ v <> NaN /\ v <> PInf).
  { unfold target. rewrite hfp. destruct (out_of_box (Some (lo, up)) x) eqn:ho; [congruence |].
    apply out_of_box_spec in ho; [| exact (hdim t x a l he) | rewrite hlu; exact (hdim t x a l he)].
    destruct (crit x) as [v |]; [| congruence]. intros h1 h2. split; [exact ho |]. exists v. split; [reflexivity |].
    split; intros ->; cbn in h1, h2; [congruence |]. unfold rltb in h2. destruct (Rlt_dec T 0); [lra |]. congruence. }
  destruct (C54_support _ _ _ _ _ _ _ _ _ _ _ _ _ _ _ _ _ _ h c tr t x a l htr he) as [k | [k1 k2]].
  - rewrite hst in k. injection k as ->. split; [now left | auto].
  - split; [right; auto | intros _; exact (proj1 (hin k1 k2))].
Qed.
Print Assumptions C55_box.
(** the hypotheses can be met: one chain in [0,1], criterion x, one proposal outside the box *)
Example C55_box_ex : exists f, make_log_prob_mh (fun p => Some (Fin (nth 0 p 0))) (Some ([0], [1])) 1 = Some f /\
  exists s, scheduler (list R) f (fun _ _ => [2]) (fun _ _ => 1 / 2) true (fun _ _ _ _ => Fin 0) 50 None 0 1 200%Z 1 (fun i x => nth i x 0)
    true 1 1 [[1 / 2]] = Some s /\ x_row (list R) s 0 1 = Some [1 / 2].
Proof.
  unfold make_log_prob_mh, rleb. destruct (Rle_dec 1 0); [lra |]. eexists. split; [reflexivity |].
  unfold scheduler. cbn [Nat.ltb Nat.leb]. unfold run_burnin. cbn [Nat.eqb]. change (1 / 50)%nat with 0%nat. cbn [burnin_loop].
  eexists. split; [reflexivity |]. change (1 - 0 * 50)%nat with 1%nat. cbn [Nat.sub run_samples].
  unfold x_row. cbn [traces init_mh map step_chains global_iter nth_error]. unfold chain_step. cbn [Nat.sub nth_error].
  cbn [app nth_error option_map]. unfold st_x at 1. unfold mhstep. cbv zeta.
  assert (ho : target (list R) (fun p : list R => if out_of_box (Some ([0], [1])) p then Some NInf else Some (fl_div (fl_opp (Fin (nth 0 p 0))) (Fin 1))) [2] = NInf).
  { unfold target, out_of_box, rltb. cbn [zip2 existsb orb].
    destruct (Rlt_dec 2 0); [lra |]. destruct (Rlt_dec 1 2); [| lra]. reflexivity. }
  rewrite ho. match goal with |- context [mh_accept ?u ?a] => assert (hacc : mh_accept u a = false) end.
  { cbn [st_lt snd fl_is_nan]. destruct (accept_special (1 / 2)) as [z1 [z2 _]]. set (d := target _ _ _). destruct d; cbn; assumption. }
  rewrite hacc. reflexivity.
Qed.

(** * C56 *)
Theorem C56_schedule : forall N base f, 0 < N ->
  diminishing 0 N base f = base /\ diminishing N N base f = base * (2 * f - 1) /\
  (0 < base -> f < 1 -> forall m n, 0 <= m -> m < n -> n <= N -> diminishing n N base f < diminishing m N base f) /\
  (0 < base -> f < 1 -> diminishing N N base f < base * f).
Proof.
  intros N base f hN. split; [apply diminishing_start; lra |]. split; [apply diminishing_end; lra |]. split.
  - intros. now apply diminishing_decreasing.
  - intros hb hf. rewrite diminishing_end by lra. nra.
Qed.
Print Assumptions C56_schedule.
(** with the 0.1 used by run_adaptive_RM the gain is positive on the first half of the burn-in and negative on
    the last third, where a too high acceptance rate then shrinks the proposal scale *)
Theorem C56_gain_sign : forall N base n, 0 < N -> 0 < base ->
  (0 <= n <= N / 2 -> 0 < rm_gamma true n N base) /\
  (2 / 3 * N <= n <= N -> rm_gamma true n N base < 0 /\
     forall target rate p, target < rate -> (forall v, In v p -> 0 < v) ->
       forall i, (i < length p)%nat -> nth i (rm_update (rm_gamma true n N base) rate target p) 0 < nth i p 0) /\
  (forall m, rm_gamma false m N base = base).
Proof.
  intros N base n hN hb. unfold rm_gamma. split; [| split].
  - intro h. apply diminishing_positive; lra.
  - intro h. assert (hneg := diminishing_negative N base n hN hb h). split; [exact hneg |].
    intros tg r p hr hp i hi. unfold rm_update. set (g := diminishing n N base (1 / 10)) in *.
    rewrite (nth_indep _ 0 (0 * exp (g * (r - tg)))) by (rewrite map_length; assumption).
    rewrite (map_nth (fun v => v * exp (g * (r - tg)))). assert (h0 : 0 < nth i p 0) by (apply hp, nth_In, hi).
    assert (he : exp (g * (r - tg)) < 1) by (rewrite <- exp_0; apply exp_increasing; nra). nra.
  - reflexivity.
Qed.
Print Assumptions C56_gain_sign.
Example C56_gain_sign_ex : rm_gamma true 100 100 1 = - (8 / 10) /\ 0 < rm_gamma true 50 100 1.
Proof.
  destruct (C56_gain_sign 100 1 50) as [h1 _]; try lra. split; [| apply h1; lra].
  unfold rm_gamma. rewrite diminishing_end; lra.
Qed.

(** * C58: Robbins-Monro *)
Theorem C58_rm_scales_positive : forall target steps p, (forall v, In v p -> 0 < v) ->
  (forall v, In v (rm_run target steps p) -> 0 < v) /\ length (rm_run target steps p) = length p /\
  forall i, (i < length p)%nat -> ln (nth i (rm_run target steps p) 0) =
    ln (nth i p 0) + sum_list (map (fun gr => fst gr * (snd gr - target)) steps).
Proof.
  intros target steps p hp. rewrite rm_run_closed. split; [| split].
  - intros v hv. apply in_map_iff in hv. destruct hv as [w [<- hw]]. apply Rmult_lt_0_compat; [auto | apply exp_pos].
  - apply map_length.
  - intros i hi. set (S := sum_list _).
    rewrite (nth_indep _ 0 (0 * exp S)) by (rewrite map_length; assumption). rewrite (map_nth (fun v => v * exp S)).
    rewrite ln_mult; [now rewrite ln_exp | apply hp, nth_In, hi | apply exp_pos].
Qed.
Print Assumptions C58_rm_scales_positive.
Example C58_rm_ex : rm_run (3 / 10) [(1, 3 / 10 + ln 2); (-1, 3 / 10 + ln 2)] [5] = [5].
Proof. rewrite rm_run_closed. unfold sum_list. simpl. f_equal. replace (0 + 1 * (3 / 10 + ln 2 - 3 / 10) + -1 * (3 / 10 + ln 2 - 3 / 10)) with 0 by ring. rewrite exp_0. ring. Qed.

(** * C59 *)
Theorem C59_sliding_rates : forall b n accept, (n <= length accept)%nat ->
  length (sliding_rates b n accept) = n /\
  forall i, (i < n)%nat ->
    let w := Nat.min (Nat.max 1 (Z.to_nat b)) n in
    let k := Nat.min w (S i) in
    nth i (sliding_rates b n accept) 0 * INR k = sum_list (firstn k (skipn (S i - k) accept)).
Proof.
  intros b n acc h. split; [now apply sliding_length |]. intros i hi w k. rewrite sliding_nth by assumption.
  change (window b n) with w.
  assert (hw : (1 <= w)%nat) by (unfold w; lia). assert (hk : (1 <= k)%nat) by (unfold k; lia).
  replace (S i - w)%nat with (S i - k)%nat by (unfold k; lia).
  unfold mean_l. rewrite slice_length by lia. replace (S i - (S i - k))%nat with k by (unfold k; lia).
  unfold slice. replace (S i - (S i - k))%nat with k by (unfold k; lia). field. apply not_0_INR. lia.
Qed.
Print Assumptions C59_sliding_rates.
Theorem C59_rates_range : forall b n accept, (n <= length accept)%nat -> (forall v, In v accept -> 0 <= v <= 1) ->
  forall v, In v (sliding_rates b n accept) -> 0 <= v <= 1.
Proof. exact sliding_range. Qed.
Print Assumptions C59_rates_range.
(** accept[:, 0] is the dummy 1 set by scheduler: the first rate is always 1 and step n is never included *)
Theorem C59_first_rate_and_shift : forall b n accept a', (1 <= n)%nat -> (n < length accept)%nat -> nth 0 accept 0 = 1 ->
  nth 0 (sliding_rates b n accept) 0 = 1 /\
  sliding_rates b n (firstn n accept ++ a') = sliding_rates b n accept.
Proof.
  intros b n acc a' h1 h2 h0. split; [apply first_rate; [lia | assumption] |].
  assert (e : firstn n (firstn n acc ++ a') = firstn n acc).
  { rewrite firstn_app, firstn_firstn, Nat.min_id, firstn_length, Nat.min_l by lia. rewrite Nat.sub_diag. apply app_nil_r. }
  unfold sliding_rates. now rewrite e.
Qed.
Print Assumptions C59_first_rate_and_shift.
Example C59_ex : sliding_rates 2 4 [1; 0; 1; 1; 0] = [1; 1 / 2; 1 / 2; 1].
Proof. unfold sliding_rates. simpl. repeat (f_equal; [field |]). f_equal. field. Qed.

(** * C60 *)
Theorem C60_lower_bound : forall n blocks, (2 <= n)%nat -> (2 <= length blocks)%nat -> (forall l, In l blocks -> length l = n) ->
  (exists l v w, In l blocks /\ In v l /\ In w l /\ v <> w) ->
  exists r, rhat_blocks n blocks = Fin r /\ 0 <= r /\ (INR n - 1) / INR n <= r * r /\
    (r * r = (INR n - 1) / INR n <-> forall l l', In l blocks -> In l' blocks -> sum_list l = sum_list l').
Proof.
  intros n blocks hn hc hb [l0 [v [w [hl0 [hv [hw hne]]]]]].
  destruct (W_pos n blocks hn hc hb) as [hW0 hW].
  assert (hWp : 0 < W_of blocks).
  { destruct (Req_dec (W_of blocks) 0) as [e | e]; [| lra]. exfalso. apply hne. rewrite hW in e. rewrite (e l0 v hl0 hv), (e l0 w hl0 hw). reflexivity. }
  destruct (B_pos n blocks hn hc) as [hB0 hB].
  destruct (rhat_value n blocks hn hc hWp) as [r [hr [hr0 hr2]]]. exists r. split; [exact hr |]. split; [exact hr0 |].
  assert (hN : 2 <= INR n) by (replace 2 with (INR 2) by reflexivity; apply le_INR; lia).
  assert (hden : 0 < INR n * W_of blocks) by (apply Rmult_lt_0_compat; lra).
  assert (hq : 0 <= B_of n blocks / (INR n * W_of blocks)) by (apply Rmult_le_pos; [exact hB0 | left; now apply Rinv_0_lt_compat]).
  split; [lra |]. assert (hz : r * r = (INR n - 1) / INR n <-> B_of n blocks = 0).
  { rewrite hr2. split; intro h.
    - assert (h1 : B_of n blocks / (INR n * W_of blocks) = 0) by lra. unfold Rdiv in h1. apply Rmult_integral in h1.
      destruct h1 as [h1 | h1]; [exact h1 |]. exfalso. apply (Rinv_neq_0_compat (INR n * W_of blocks)); lra.
    - rewrite h. unfold Rdiv. ring. }
  rewrite hz, hB. split; intros h l l' hl hl'; specialize (h l l' hl hl').
  - unfold mean_l in h. rewrite (hb l hl), (hb l' hl') in h. apply (Rmult_eq_reg_r (/ INR n)); [exact h |].
    apply Rinv_neq_0_compat. lra.
  - unfold mean_l. rewrite (hb l hl), (hb l' hl'), h. reflexivity.
Qed.
Print Assumptions C60_lower_bound.
(** constant chains: no convergence is ever reported, although nothing moves *)
Theorem C60_constant_chains : forall n (vals : list R), (2 <= n)%nat -> (2 <= length vals)%nat ->
  rhat_blocks n (map (fun v => repeat v n) vals) = (if forallb (fun v => reqb v (hd 0 vals)) vals then NaN else PInf) /\
  gr_ok [rhat_blocks n (map (fun v => repeat v n) vals)] = false.
Proof.
  intros n vals hn hc. set (blocks := map (fun v => repeat v n) vals).
  assert (hb : forall l, In l blocks -> length l = n).
  { intros l hl. apply in_map_iff in hl. destruct hl as [v [<- _]]. apply repeat_length. }
  assert (hc' : (2 <= length blocks)%nat) by (unfold blocks; now rewrite map_length).
  assert (hm : forall v, mean_l (repeat v n) = v).
  { intro v. unfold mean_l. rewrite repeat_length, sum_repeat_const. field. apply not_0_INR. lia. }
  assert (hW : W_of blocks = 0).
  { apply (W_pos n blocks hn hc' hb). intros l v hl hv. apply in_map_iff in hl. destruct hl as [w [<- _]].
    rewrite hm. now apply repeat_spec in hv. }
  assert (e : rhat_blocks n blocks = if forallb (fun v => reqb v (hd 0 vals)) vals then NaN else PInf).
  { rewrite (rhat_degenerate n blocks hn hc' hW). destruct (B_pos n blocks hn hc') as [_ hB].
    unfold reqb at 1. destruct (Req_EM_T (B_of n blocks) 0) as [h | h].
    - rewrite hB in h. replace (forallb (fun v => reqb v (hd 0 vals)) vals) with true; [reflexivity |]. symmetry.
      apply forallb_forall. intros v hv. unfold reqb. destruct (Req_EM_T v (hd 0 vals)) as [| k]; [reflexivity |]. exfalso. apply k.
      assert (hh : In (hd 0 vals) vals) by (destruct vals; [simpl in hc; lia | now left]).
      rewrite <- (hm v), <- (hm (hd 0 vals)). apply h; apply in_map_iff; eauto.
    - destruct (forallb (fun v => reqb v (hd 0 vals)) vals) eqn:hf; [| reflexivity]. exfalso. apply h, hB.
      rewrite forallb_forall in hf. intros l l' hl hl'. apply in_map_iff in hl. apply in_map_iff in hl'.
      destruct hl as [v [<- hv]], hl' as [w [<- hw]]. rewrite !hm. apply hf in hv. apply hf in hw. unfold reqb in hv, hw.
      destruct (Req_EM_T v (hd 0 vals)); [| discriminate]. destruct (Req_EM_T w (hd 0 vals)); [congruence | discriminate]. }
  split; [exact e |]. rewrite e. destruct (forallb _ vals); reflexivity.
Qed.
Print Assumptions C60_constant_chains.
Theorem C60_affine_invariance : forall n blocks a b, (2 <= n)%nat -> (2 <= length blocks)%nat -> (forall l, In l blocks -> length l = n) ->
  a <> 0 -> rhat_blocks n (map (map (fun v => a * v + b)) blocks) = rhat_blocks n blocks.
Proof. intros. apply (rhat_affine n blocks); assumption. Qed.
Print Assumptions C60_affine_invariance.
Example C60_ex : exists r, rhat_blocks 2 [[0; 1]; [0; 1]] = Fin r /\ r * r = 1 / 2.
Proof.
  destruct (C60_lower_bound 2 [[0; 1]; [0; 1]]) as [r [h1 [_ [_ h2]]]]; [lia | simpl; lia | | |].
  - intros l [<- | [<- | []]]; reflexivity.
  - exists [0; 1], 0, 1. split; [now left |]. split; [now left |]. split; [right; now left | lra].
  - exists r. split; [exact h1 |]. replace (1 / 2) with ((INR 2 - 1) / INR 2) by (simpl; field). apply h2.
    intros l l' [<- | [<- | []]] [<- | [<- | []]]; reflexivity.
Qed.

(** * C79 *)
Theorem C79_ks_fraction : forall alpha B dim pv, 0 < alpha -> (1 <= B)%nat -> (1 <= dim)%nat ->
  1 / INR B <= frac_significant alpha B dim pv <= 1.
Proof. exact frac_lower. Qed.
Print Assumptions C79_ks_fraction.
Theorem C79_ks_never_ok : forall alpha n_chains n_blocks dim pv_multi pv_single, 0 < alpha -> (1 <= n_chains <= 2)%nat -> (1 <= dim)%nat ->
  ks_ok alpha (1 / 2) n_chains n_blocks dim pv_multi pv_single = false.
Proof.
  intros alpha nc nb dim p1 p2 ha hc hd. unfold ks_ok. rewrite Nat.mul_1_l.
  destruct (frac_lower alpha nc dim p2 ha ltac:(lia) hd) as [h _].
  assert (hi : 1 / 2 <= 1 / INR nc).
  { destruct nc as [| [| [| nc]]]; try lia; simpl; lra. }
  unfold rltb. destruct (Rlt_dec (frac_significant alpha nc dim p2) (1 / 2)); [lra |]. apply andb_false_r.
Qed.
Print Assumptions C79_ks_never_ok.
(** three identical chains pass *)
Example C79_ex : ks_ok (1 / 100) (1 / 2) 3 1 1 (fun _ _ _ => 1) (fun _ _ _ => 1) = true.
Proof.
  unfold ks_ok, frac_significant, significant, pvalue_entry. cbn [seq flat_map map Nat.mul Nat.add Nat.ltb Nat.leb app].
  assert (e1 : rltb 1 (1 / 100) = false) by (unfold rltb; destruct (Rlt_dec 1 (1 / 100)); [lra | reflexivity]).
  assert (e0 : rltb 0 (1 / 100) = true) by (unfold rltb; destruct (Rlt_dec 0 (1 / 100)); [reflexivity | lra]).
  rewrite e0, e1. simpl. unfold rltb. match goal with |- context [Rlt_dec ?a ?b] => destruct (Rlt_dec a b) end; [reflexivity | exfalso; lra].
Qed.
