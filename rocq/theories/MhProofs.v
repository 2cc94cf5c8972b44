(** Specification vocabulary and lemmas for the Metropolis-Hastings sampler. *)
From Coq Require Import List Arith ZArith Reals Bool Lra Lia.
From Verif Require Import ConfigModel FlModel PriorModel SmcModel SelectProofs SmcProofs MhModel.
Import ListNotations.
Local Open Scope R_scope.

(** * Vocabulary *)
(** the event A of a uniform number u in [0,1) is the interval [0,a): its probability is a *)
Definition probability (A : R -> bool) (a : R) : Prop :=
  0 <= a <= 1 /\ forall u, 0 <= u < 1 -> (A u = true <-> u < a).
(** sums over a finite state space *)
Definition ssum {S} (xs : list S) (f : S -> R) : R := sum_list (map f xs).

(** * The test *)
Lemma tiny_pos : 0 < tiny.
Proof. unfold tiny. apply Rinv_0_lt_compat, pow_lt. lra. Qed.
Lemma tiny_lt1 : tiny < 1.
Proof.
  unfold tiny. rewrite <- Rinv_1. apply Rinv_lt_contravar.
  - rewrite Rmult_1_l. apply pow_lt; lra.
  - apply Rlt_pow_R1; [lra | lia].
Qed.
Lemma Rmax_lt a b c : Rmax a b < c <-> a < c /\ b < c.
Proof. unfold Rmax. destruct (Rle_dec a b); split; intros; [split; lra | lra | split; lra | lra]. Qed.
Lemma ln_lt_iff u a : 0 < u -> (ln u < a <-> u < exp a).
Proof.
  intro hu; split; intro h.
  - apply (exp_increasing (ln u)) in h. rewrite exp_ln in h; assumption.
  - apply (ln_increasing u) in h; [| assumption]. rewrite ln_exp in h; assumption.
Qed.
Lemma accept_fin u a : mh_accept u (Fin a) = true <-> u < exp a /\ tiny < exp a.
Proof.
  pose proof tiny_pos as ht.
  assert (hm : 0 < Rmax u tiny) by (eapply Rlt_le_trans; [apply ht | apply Rmax_r]).
  unfold mh_accept, fl_ln, rltb. destruct (Rlt_dec 0 (Rmax u tiny)); [| contradiction].
  unfold fl_lt. destruct (Rlt_dec (ln (Rmax u tiny)) a) as [h | h].
  - split; [intros _ | reflexivity]. apply ln_lt_iff in h; [| assumption]. now apply Rmax_lt.
  - split; [discriminate | intros [h1 h2]]. exfalso. apply h. apply ln_lt_iff; [assumption |].
    apply Rmax_lt; auto.
Qed.
Lemma accept_ln u : exists v, fl_ln (Fin (Rmax u tiny)) = Fin v.
Proof.
  pose proof tiny_pos as ht.
  assert (hm : 0 < Rmax u tiny) by (eapply Rlt_le_trans; [apply ht | apply Rmax_r]).
  unfold fl_ln, rltb. destruct (Rlt_dec 0 (Rmax u tiny)); [eauto | contradiction].
Qed.
Lemma accept_special u : mh_accept u NaN = false /\ mh_accept u NInf = false /\ mh_accept u PInf = true.
Proof. unfold mh_accept. destruct (accept_ln u) as [v ->]. auto. Qed.
Lemma accept_not_low u a : mh_accept u a = true -> a <> NaN /\ a <> NInf.
Proof. destruct (accept_special u) as [h1 [h2 _]]. intro h; split; intros ->; congruence. Qed.
(** the acceptance probability of log ratio d *)
Definition acc_prob (d : R) : R := if Rlt_dec tiny (exp d) then Rmin 1 (exp d) else 0.
Lemma acc_prob_spec d : probability (fun u => mh_accept u (Fin d)) (acc_prob d).
Proof.
  pose proof (exp_pos d) as hp. unfold acc_prob. split.
  - destruct (Rlt_dec tiny (exp d)); [| lra]. unfold Rmin. destruct (Rle_dec 1 (exp d)); lra.
  - intros u hu. rewrite accept_fin. destruct (Rlt_dec tiny (exp d)) as [h | h].
    + unfold Rmin. destruct (Rle_dec 1 (exp d)); split; intros; [lra | split; lra | lra | split; lra].
    + split; intros; [exfalso; tauto | lra].
Qed.
Lemma probability_unique A a b : probability A a -> probability A b -> a = b.
Proof.
  intros [ha hA] [hb hB]. destruct (Rtotal_order a b) as [h | [h | h]]; [| assumption |]; exfalso.
  - assert (hu : 0 <= a < 1) by lra. destruct (hB a hu) as [_ h2]. specialize (h2 h). apply (hA a hu) in h2. lra.
  - assert (hu : 0 <= b < 1) by lra. destruct (hA b hu) as [_ h2]. specialize (h2 h). apply (hB b hu) in h2. lra.
Qed.
Lemma balance_core lx ly : tiny < exp (ly - lx) -> tiny < exp (lx - ly) ->
  exp lx * acc_prob (ly - lx) = exp ly * acc_prob (lx - ly).
Proof.
  intros h1 h2. unfold acc_prob. destruct (Rlt_dec tiny (exp (ly - lx))); [| contradiction].
  destruct (Rlt_dec tiny (exp (lx - ly))); [| contradiction].
  assert (e1 : exp lx * exp (ly - lx) = exp ly) by (rewrite <- exp_plus; f_equal; ring).
  assert (e2 : exp ly * exp (lx - ly) = exp lx) by (rewrite <- exp_plus; f_equal; ring).
  pose proof (exp_pos lx); pose proof (exp_pos ly).
  destruct (Rle_dec lx ly) as [h | h].
  - rewrite (Rmin_left 1 (exp (ly - lx))), (Rmin_right 1 (exp (lx - ly))); [lra | |].
    + rewrite <- exp_0. destruct (Req_dec (lx - ly) 0) as [-> | hn]; [lra |]. left; apply exp_increasing; lra.
    + rewrite <- exp_0. destruct (Req_dec (ly - lx) 0) as [-> | hn]; [lra |]. left; apply exp_increasing; lra.
  - rewrite (Rmin_right 1 (exp (ly - lx))), (Rmin_left 1 (exp (lx - ly))); [lra | |].
    + rewrite <- exp_0. left; apply exp_increasing; lra.
    + rewrite <- exp_0. left; apply exp_increasing; lra.
Qed.
Lemma balance_defect lx ly : exp (ly - lx) <= tiny ->
  acc_prob (ly - lx) = 0 /\ acc_prob (lx - ly) = 1 /\
  exp ly <= tiny * exp lx.
Proof.
  intro h. pose proof tiny_pos as tp; pose proof tiny_lt1 as t1.
  assert (e : exp (ly - lx) * exp (lx - ly) = 1) by (rewrite <- exp_plus, <- exp_0; f_equal; ring).
  pose proof (exp_pos (ly - lx)); pose proof (exp_pos (lx - ly)).
  assert (g : 1 <= exp (lx - ly)) by nra.
  unfold acc_prob. destruct (Rlt_dec tiny (exp (ly - lx))); [lra |].
  destruct (Rlt_dec tiny (exp (lx - ly))); [| lra].
  repeat split; auto.
  - apply Rmin_left; assumption.
  - assert (e1 : exp lx * exp (ly - lx) = exp ly) by (rewrite <- exp_plus; f_equal; ring).
    rewrite <- e1. pose proof (exp_pos lx). nra.
Qed.
Lemma tiny_exp : tiny = exp (- (300 * ln 10)).
Proof.
  unfold tiny. rewrite exp_Ropp. f_equal. replace 300 with (INR 300).
  - rewrite <- ln_pow; [| lra]. rewrite exp_ln; [reflexivity | apply pow_lt; lra].
  - rewrite INR_IZR_INZ. apply f_equal. reflexivity.
Qed.
Lemma tiny_lt_exp d : tiny < exp d <-> - (300 * ln 10) < d.
Proof. rewrite tiny_exp. split; [apply exp_lt_inv | apply exp_increasing]. Qed.

(** * Finite state spaces *)
Section Finite.
Variable S : Type.
Variable eqd : forall a b : S, {a = b} + {a <> b}.
Variable xs : list S.
Lemma ssum_ext f g : (forall x, In x xs -> f x = g x) -> ssum xs f = ssum xs g.
Proof. intro h. unfold ssum. f_equal. now apply map_in. Qed.
Lemma ssum_plus (l : list S) f g : ssum l (fun x => f x + g x) = ssum l f + ssum l g.
Proof. unfold ssum. induction l as [| a l ih]; cbn [map]; [unfold sum_list; simpl; ring |]. rewrite !sum_cons, ih. ring. Qed.
Lemma ssum_scal (l : list S) c f : ssum l (fun x => c * f x) = c * ssum l f.
Proof. unfold ssum. induction l as [| a l ih]; cbn [map]; [unfold sum_list; simpl; ring |]. rewrite !sum_cons, ih. ring. Qed.
Lemma ssum_pick (l : list S) y f : NoDup l -> In y l -> ssum l (fun x => if eqd x y then f x else 0) = f y.
Proof.
  unfold ssum. induction l as [| a l ih]; [contradiction |]. intros hd hin. inversion hd; subst. cbn [map].
  rewrite sum_cons. destruct hin as [-> | hin].
  - destruct (eqd y y); [| congruence].
    rewrite (map_in _ (fun _ => 0)), sum_const; [ring |].
    intros x hx. destruct (eqd x y); [subst; contradiction | reflexivity].
  - destruct (eqd a y); [subst; contradiction |]. rewrite ih; auto. ring.
Qed.
(** transition matrix of the algorithm: propose y with probability q x y, accept with probability a x y *)
Definition kernel (q a : S -> S -> R) (x y : S) : R :=
  q x y * a x y + (if eqd x y then ssum xs (fun z => q x z * (1 - a x z)) else 0).
Lemma kernel_invariant q a (p : S -> R) : NoDup xs ->
  (forall x, In x xs -> ssum xs (q x) = 1) ->
  (forall x y, In x xs -> In y xs -> p x * (q x y * a x y) = p y * (q y x * a y x)) ->
  forall y, In y xs -> ssum xs (fun x => p x * kernel q a x y) = p y.
Proof.
  intros hd hq hb y hy. unfold kernel.
  rewrite (ssum_ext _ (fun x => p y * (q y x * a y x) + (if eqd x y then p x * ssum xs (fun z => q x z * (1 - a x z)) else 0))).
  2: { intros x hx. rewrite <- (hb x y hx hy). destruct (eqd x y); ring. }
  rewrite ssum_plus, ssum_scal, (ssum_pick xs y (fun x => p x * ssum xs (fun z => q x z * (1 - a x z)))); auto.
  rewrite <- Rmult_plus_distr_l, <- ssum_plus.
  rewrite (ssum_ext _ (q y)); [rewrite hq; auto; ring |]. intros; ring.
Qed.
End Finite.

(** * Traces *)
Section Traces.
Variable X : Type.
Variable log_target : X -> option fl.
Variable Y : nat -> nat -> X.
Variable U : nat -> nat -> R.
Variable symmetric : bool.
Variable logq : nat -> nat -> X -> X -> fl.
Notation target := (target X log_target).
Notation mhstep := (mhstep X log_target Y U symmetric logq).
Notation run_samples := (run_samples X log_target Y U symmetric logq).
Notation chain_step := (chain_step X log_target Y U symmetric logq).
Notation step_chains := (step_chains X log_target Y U symmetric logq).
Notation mh := (mh X).

(** entry t+1 of every chain is the result of mhstep on entry t *)
Definition chain_ok (c : nat) (x0 : X) (n : nat) (tr : list (X * bool * fl)) : Prop :=
  length tr = S n /\ nth_error tr 0 = Some (x0, true, NaN) /\
  forall t e, nth_error tr (S t) = Some e ->
    exists e', nth_error tr t = Some e' /\ e = mhstep c (S t) (st_x X e') (st_lt X e').
Lemma chain_step_ok c x0 n tr : chain_ok c x0 n tr -> chain_ok c x0 (S n) (chain_step c (S n) tr).
Proof.
  intros [hl [h0 hs]]. unfold MhModel.chain_step. cbn [Nat.sub]. rewrite Nat.sub_0_r.
  destruct (nth_error tr n) as [e |] eqn:he.
  2: { apply nth_error_None in he. lia. }
  split; [| split].
  - rewrite app_length; simpl; lia.
  - rewrite nth_error_app1; [assumption | lia].
  - intros t e1 h1. destruct (Nat.lt_ge_cases (S t) (length tr)) as [hlt | hge].
    + rewrite nth_error_app1 in h1 by assumption. destruct (hs t e1 h1) as [e' [ha hb]].
      exists e'; split; [| assumption]. rewrite nth_error_app1; [assumption | lia].
    + rewrite nth_error_app2 in h1 by assumption.
      assert (hk : (S t - length tr = 0)%nat).
      { destruct (S t - length tr)%nat as [| k] eqn:hk; [reflexivity |]. simpl in h1. destruct k; discriminate. }
      rewrite hk in h1. injection h1 as <-. assert (t = n) by lia. subst t.
      exists e; split; [rewrite nth_error_app1; [assumption | lia] | reflexivity].
Qed.
Lemma step_chains_nth t trs : forall c0 c, nth_error (step_chains c0 t trs) c = option_map (chain_step (c0 + c) t) (nth_error trs c).
Proof.
  induction trs as [| tr trs ih]; intros c0 c; [destruct c; reflexivity |].
  destruct c; cbn [MhModel.step_chains nth_error].
  - rewrite Nat.add_0_r. reflexivity.
  - rewrite ih. f_equal. f_equal. lia.
Qed.
Lemma step_chains_length t trs : forall c0, length (step_chains c0 t trs) = length trs.
Proof. induction trs; intro c0; simpl; auto. Qed.
Definition mh_ok (x0 : list X) (s : mh) : Prop :=
  length (traces X s) = length x0 /\
  forall c x tr, nth_error x0 c = Some x -> nth_error (traces X s) c = Some tr -> chain_ok c x (global_iter X s) tr.
Lemma init_ok b x0 : mh_ok x0 (init_mh X b x0).
Proof.
  split; [simpl; now rewrite map_length |]. intros c x tr hx ht. simpl in ht. rewrite nth_error_map, hx in ht.
  injection ht as <-. split; [reflexivity | split; [reflexivity |]].
  intros t e h. destruct t; discriminate.
Qed.
Lemma run_ok x0 n : forall s, mh_ok x0 s -> mh_ok x0 (run_samples n s).
Proof.
  induction n as [| n ih]; intros s [hl hs]; [split; assumption |]. cbn [MhModel.run_samples]. apply ih. split.
  - simpl. rewrite step_chains_length. exact hl.
  - intros c x tr hx ht. cbn [traces MhModel.global_iter] in *. rewrite step_chains_nth in ht.
    destruct (nth_error (traces X s) c) as [tr0 |] eqn:h0; [| discriminate].
    injection ht as <-. apply chain_step_ok. exact (hs c x tr0 hx h0).
Qed.
Lemma run_iter n : forall s, global_iter X (run_samples n s) = (global_iter X s + n)%nat /\
  burnin_period X (run_samples n s) = burnin_period X s /\ n_chains X (run_samples n s) = n_chains X s.
Proof.
  induction n as [| n ih]; intro s; cbn [MhModel.run_samples]; [repeat split; lia |].
  destruct (ih (mkMh X (step_chains 0 (S (global_iter X s)) (traces X s)) (S (global_iter X s)) (burnin_period X s))) as [h1 [h2 h3]].
  rewrite h1, h2, h3. unfold n_chains. cbn. rewrite step_chains_length. repeat split; lia.
Qed.
Lemma run_app m n : forall s, run_samples n (run_samples m s) = run_samples (m + n) s.
Proof. induction m as [| m ih]; intro s; [reflexivity |]. cbn [MhModel.run_samples Nat.add]. apply ih. Qed.
Lemma run_traces n : forall s s', traces X s = traces X s' -> global_iter X s = global_iter X s' ->
  traces X (run_samples n s) = traces X (run_samples n s').
Proof.
  induction n as [| n ih]; intros s s' h1 h2; [assumption |]. cbn [MhModel.run_samples]. apply ih; cbn; congruence.
Qed.

(** * One step *)
Lemma mhstep_cases c t x cached :
  let r := mhstep c t x cached in
  (st_acc X r = true /\ st_x X r = Y c t /\ st_lt X r = target (Y c t) /\
     target (Y c t) <> NaN /\ target (Y c t) <> NInf) \/
  (st_acc X r = false /\ st_x X r = x /\ st_lt X r = (if fl_is_nan cached then target x else cached)).
Proof.
  intros r. subst r. unfold MhModel.mhstep. set (lx := if fl_is_nan cached then target x else cached).
  set (la := if symmetric then _ else _). destruct (mh_accept (U c t) la) eqn:h; [left | right; auto].
  destruct (accept_not_low _ _ h) as [hn hi]. cbn [st_acc st_x st_lt fst snd]. repeat split; auto.
  - intro he. apply hn. unfold la. rewrite he. destruct symmetric; reflexivity.
  - intros he. unfold la in hn, hi. rewrite he in hn, hi.
    destruct symmetric; [destruct lx; cbn in hn, hi; congruence |].
    destruct (fl_sub (logq c t (Y c t) x) (logq c t x (Y c t))); destruct lx; cbn in hn, hi; congruence.
Qed.
(** the value mhstep works with *)
Definition effective (e : X * bool * fl) : fl := if fl_is_nan (st_lt X e) then target (st_x X e) else st_lt X e.
Lemma step_effective c t e : effective e = target (st_x X e) ->
  st_lt X (mhstep c t (st_x X e) (st_lt X e)) = target (st_x X (mhstep c t (st_x X e) (st_lt X e))).
Proof.
  intro h. destruct (mhstep_cases c t (st_x X e) (st_lt X e)) as [[_ [-> [-> _]]] | [_ [-> ->]]]; auto.
Qed.
Lemma chain_effective c x0 n tr : chain_ok c x0 n tr -> forall t e, nth_error tr t = Some e -> effective e = target (st_x X e).
Proof.
  intros [_ [h0 hs]]. induction t as [| t ih]; intros e he.
  - rewrite h0 in he. injection he as <-. reflexivity.
  - destruct (hs _ _ he) as [e' [h' ->]]. unfold effective. rewrite (step_effective c (S t) e' (ih _ h')).
    now destruct (fl_is_nan _).
Qed.
Lemma chain_stored c x0 n tr : chain_ok c x0 n tr -> forall t e, nth_error tr (S t) = Some e -> st_lt X e = target (st_x X e).
Proof.
  intros hok t e he. destruct hok as [hl [h0 hs]] eqn:E. clear E. destruct (hs _ _ he) as [e' [h' ->]].
  apply step_effective. exact (chain_effective c x0 n tr (conj hl (conj h0 hs)) t e' h').
Qed.
Lemma chain_move c x0 n tr : chain_ok c x0 n tr -> forall t e e', nth_error tr t = Some e -> nth_error tr (S t) = Some e' ->
  (st_acc X e' = true /\ st_x X e' = Y c (S t) /\ target (st_x X e') <> NaN /\ target (st_x X e') <> NInf) \/
  (st_acc X e' = false /\ st_x X e' = st_x X e).
Proof.
  intros [_ [_ hs]] t e e' h h'. destruct (hs _ _ h') as [e1 [h1 ->]]. rewrite h in h1. injection h1 as <-.
  destruct (mhstep_cases c (S t) (st_x X e) (st_lt X e)) as [[h1 [-> [_ [h2 h3]]]] | [h1 [-> _]]]; auto.
Qed.
(** states whose target is NaN or +inf are never left *)
Lemma chain_stuck c x0 n tr : chain_ok c x0 n tr -> forall t e e', nth_error tr t = Some e -> nth_error tr (S t) = Some e' ->
  (target (st_x X e) = NaN \/ (symmetric = true /\ target (st_x X e) = PInf)) -> st_acc X e' = false /\ st_x X e' = st_x X e.
Proof.
  intros hok t e e' h h' hb. pose proof (chain_effective c x0 n tr hok t e h) as he. destruct hok as [_ [_ hs]].
  destruct (hs _ _ h') as [e1 [h1 ->]]. rewrite h in h1. injection h1 as <-.
  unfold MhModel.mhstep. unfold effective in he. rewrite he.
  assert (hz : mh_accept (U c (S t)) (if symmetric then fl_sub (target (Y c (S t))) (target (st_x X e))
      else fl_add (fl_sub (target (Y c (S t))) (target (st_x X e)))
           (fl_sub (logq c (S t) (Y c (S t)) (st_x X e)) (logq c (S t) (st_x X e) (Y c (S t))))) = false).
  { destruct (accept_special (U c (S t))) as [z1 [z2 _]]. destruct hb as [hb | [hsym hb]]; rewrite hb.
    - destruct (target (Y c (S t))); destruct symmetric; cbn; assumption.
    - rewrite hsym. destruct (target (Y c (S t))); cbn; assumption. }
  cbv zeta. rewrite hz. split; reflexivity.
Qed.
(** every state is the initial one or has a target that is neither NaN nor -inf *)
Lemma chain_support c x0 n tr : chain_ok c x0 n tr -> forall t e, nth_error tr t = Some e ->
  st_x X e = x0 \/ (target (st_x X e) <> NaN /\ target (st_x X e) <> NInf).
Proof.
  intros hok. induction t as [| t ih]; intros e he.
  - destruct hok as [_ [h0 _]]. rewrite h0 in he. injection he as <-. now left.
  - destruct (nth_error tr t) as [e0 |] eqn:h0.
    + destruct (chain_move c x0 n tr hok t e0 e h0 he) as [[_ [_ [h1 h2]]] | [_ h1]]; [right; auto |].
      rewrite h1. apply ih. reflexivity.
    + apply nth_error_None in h0. assert (S t < length tr)%nat by (apply nth_error_Some; congruence). lia.
Qed.
End Traces.
