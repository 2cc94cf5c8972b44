(** Scheduler bookkeeping, adaptation gains, the truncation box and the KS fraction. *)
From Coq Require Import List Arith ZArith Reals Bool Lra Lia.
From Verif Require Import ConfigModel FlModel PriorModel SmcModel SelectProofs SmcProofs MhModel MhProofs MhProofs2.
Import ListNotations.
Local Open Scope R_scope.

Section Sched.
Variable X : Type.
Variable log_target : X -> option fl.
Variable Y : nat -> nat -> X.
Variable U : nat -> nat -> R.
Variable symmetric : bool.
Variable logq : nat -> nat -> X -> X -> fl.
Variable interval : nat.
Variable haario_pool : option nat.
Variable acceptance_min acceptance_max : R.
Variable sliding_width : Z.
Variable dim : nat.
Variable coord : nat -> X -> R.
Notation run_samples := (run_samples X log_target Y U symmetric logq).
Notation adapt_block := (adapt_block X log_target Y U symmetric logq haario_pool).
Notation rates_ok := (rates_ok X acceptance_min acceptance_max sliding_width).
Notation gelman_rubin := (gelman_rubin X dim coord).
Notation burnin_loop := (burnin_loop X log_target Y U symmetric logq interval haario_pool acceptance_min acceptance_max sliding_width dim coord).
Notation run_burnin := (run_burnin X log_target Y U symmetric logq interval haario_pool acceptance_min acceptance_max sliding_width dim coord).
Notation adapt_blocks := (adapt_blocks X log_target Y U symmetric logq interval haario_pool).
Notation run_adaptive := (run_adaptive X log_target Y U symmetric logq interval haario_pool).
Notation scheduler := (scheduler X log_target Y U symmetric logq interval haario_pool acceptance_min acceptance_max sliding_width dim coord).
Notation iter := (global_iter X).
Notation burn := (burnin_period X).
Notation chains := (n_chains X).

(** s' has the rows of k more steps than s *)
Definition after (k : nat) (s s' : mh X) : Prop :=
  traces X s' = traces X (run_samples k s) /\ iter s' = (iter s + k)%nat.
Lemma after_0 s : after 0 s s.
Proof. split; [reflexivity | lia]. Qed.
Lemma after_run k s : after k s (run_samples k s).
Proof. split; [reflexivity | apply run_iter]. Qed.
Lemma after_trans j k s s' s'' : after j s s' -> after k s' s'' -> after (j + k) s s''.
Proof.
  intros [h1 h2] [h3 h4]. split; [| lia]. rewrite h3, <- run_app. apply run_traces; [assumption |].
  rewrite h2. symmetry. apply run_iter.
Qed.
Lemma after_chains k s s' : after k s s' -> chains s' = chains s.
Proof. intros [h _]. unfold n_chains at 1. rewrite h. apply run_iter. Qed.
Lemma adapt_block_spec n s s' : adapt_block n s = Some s' -> s' = run_samples n s.
Proof. unfold MhModel.adapt_block. destruct haario_pool; [destruct (_ =? _)%nat |]; congruence. Qed.
Lemma burnin_loop_spec nd b : forall s s' early, burnin_loop nd b s = Some (s', early) ->
  exists k, (k <= b)%nat /\ after (k * interval) s s' /\
    (early = false -> k = b /\ burn s' = burn s) /\
    (early = true -> (1 <= k)%nat /\ burn s' = iter s' /\ (nd <= iter s')%nat /\ (2 <= chains s')%nat /\ rates_ok nd s' = true).
Proof.
  induction b as [| b ih]; intros s s' early h; cbn [MhModel.burnin_loop] in h.
  - injection h as <- <-. exists 0%nat. repeat split; auto; try lia; try discriminate.
  - destruct (adapt_block interval s) as [s1 |] eqn:h1; [| discriminate].
    apply adapt_block_spec in h1.
    assert (ha1 : after (1 * interval) s s1) by (subst s1; rewrite Nat.mul_1_l; apply after_run).
    assert (hb1 : burn s1 = burn s) by (subst s1; apply run_iter).
    assert (hrec : burnin_loop nd b s1 = Some (s', early) -> exists k, (k <= S b)%nat /\ after (k * interval) s s' /\
      (early = false -> k = S b /\ burn s' = burn s) /\
      (early = true -> (1 <= k)%nat /\ burn s' = iter s' /\ (nd <= iter s')%nat /\ (2 <= chains s')%nat /\ rates_ok nd s' = true)).
    { intro h2. destruct (ih _ _ _ h2) as [k [hk [ha [hf ht]]]]. exists (S k). split; [lia |]. split.
      - replace (S k * interval)%nat with (1 * interval + k * interval)%nat by lia. eapply after_trans; eauto.
      - split; [intro e; destruct (hf e); split; [lia | congruence] | intro e; destruct (ht e) as [? [? [? [? ?]]]]; repeat split; auto; lia]. }
    destruct (nd <=? iter s1)%nat eqn:hnd; [| auto].
    destruct (gelman_rubin (iter s1 - nd) (iter s1) s1) as [rh |] eqn:hg; [| discriminate].
    destruct (rates_ok nd s1 && gr_ok rh) eqn:ho; [| auto].
    injection h as <- <-. exists 1%nat. split; [lia |]. split; [exact ha1 |]. split; [discriminate |]. intros _.
    cbn [burnin_period MhModel.global_iter]. apply andb_prop in ho. apply Nat.leb_le in hnd.
    assert (h2c : (2 <= chains s1)%nat).
    { unfold MhModel.gelman_rubin in hg. destruct (chains s1 <? 2)%nat eqn:e; [discriminate |]. now apply Nat.ltb_ge in e. }
    repeat split; auto; lia || apply ho.
Qed.
Lemma burnin_loop_single nd b : forall s, (chains s < 2)%nat -> (1 <= b)%nat -> (nd <= iter s + b * interval)%nat -> burnin_loop nd b s = None.
Proof.
  induction b as [| b ih]; intros s hc hb hn; [lia |]. cbn [MhModel.burnin_loop].
  destruct (adapt_block interval s) as [s1 |] eqn:h1; [| reflexivity]. apply adapt_block_spec in h1.
  assert (hc1 : chains s1 = chains s) by (subst s1; apply run_iter).
  assert (hi1 : iter s1 = (iter s + interval)%nat) by (subst s1; apply run_iter).
  destruct (nd <=? iter s1)%nat eqn:hnd.
  - unfold MhModel.gelman_rubin. destruct (chains s1 <? 2)%nat eqn:e; [reflexivity |]. apply Nat.ltb_ge in e. lia.
  - apply Nat.leb_gt in hnd. apply ih; lia.
Qed.
Lemma adapt_blocks_spec b : forall s s', adapt_blocks b s = Some s' -> after (b * interval) s s' /\ burn s' = burn s.
Proof.
  induction b as [| b ih]; intros s s' h; cbn [MhModel.adapt_blocks] in h.
  - injection h as <-. split; [apply after_0 | reflexivity].
  - destruct (adapt_block interval s) as [s1 |] eqn:h1; [| discriminate]. apply adapt_block_spec in h1.
    destruct (ih _ _ h) as [ha hb]. split.
    + replace (S b * interval)%nat with (1 * interval + b * interval)%nat by lia. eapply after_trans; [| exact ha].
      subst s1. rewrite Nat.mul_1_l. apply after_run.
    + rewrite hb. subst s1. apply run_iter.
Qed.
Lemma run_adaptive_spec n s s' : run_adaptive n s = Some s' -> after n s s' /\ burn s' = burn s.
Proof.
  unfold MhModel.run_adaptive. destruct (interval =? 0)%nat eqn:hi; [discriminate |]. apply Nat.eqb_neq in hi.
  destruct (adapt_blocks (n / interval) s) as [s1 |] eqn:h1; [| discriminate]. intro h. injection h as <-.
  destruct (adapt_blocks_spec _ _ _ h1) as [ha hb]. split.
  - pose proof (Nat.div_mod n interval hi). assert (hle : (n / interval * interval <= n)%nat) by lia.
    assert (hall := after_trans _ _ _ _ _ ha (after_run (n - n / interval * interval) s1)).
    replace (n / interval * interval + (n - n / interval * interval))%nat with n in hall by lia. exact hall.
  - rewrite <- hb. apply run_iter.
Qed.
Lemma run_burnin_spec b s s' : run_burnin b s = Some s' -> iter s = 0%nat ->
  (after b s s' /\ burn s' = burn s) \/
  (exists k, (1 <= k <= b / interval)%nat /\ after (k * interval) s s' /\ burn s' = iter s' /\ (20 * interval <= iter s')%nat /\
     (2 <= chains s')%nat /\ rates_ok (20 * interval) s' = true).
Proof.
  unfold MhModel.run_burnin. destruct (interval =? 0)%nat eqn:hi; [discriminate |]. apply Nat.eqb_neq in hi.
  set (nd := (20 * interval)%nat).
  destruct (burnin_loop nd (b / interval) s) as [[s1 early] |] eqn:h1; [| discriminate]. intros h h0. injection h as <-.
  destruct (burnin_loop_spec _ _ _ _ _ h1) as [k [hk [ha [hf ht]]]].
  destruct early.
  - right. exists k. destruct (ht eq_refl) as [? [? [? [? ?]]]]. repeat split; auto; apply ha.
  - left. destruct (hf eq_refl) as [-> hb]. split.
    + pose proof (Nat.div_mod b interval hi). assert (hle : (b / interval * interval <= b)%nat) by lia.
      assert (hall := after_trans _ _ _ _ _ ha (after_run (b - b / interval * interval) s1)).
      replace (b / interval * interval + (b - b / interval * interval))%nat with b in hall by lia. exact hall.
    + rewrite <- hb. apply run_iter.
Qed.
(** the whole run *)
Lemma scheduler_spec freeze n_total b x0 s : scheduler freeze n_total b x0 = Some s ->
  (b <= n_total)%nat /\ after (iter s) (init_mh X b x0) s /\
  ((burn s = b /\ iter s = n_total) \/
   (exists k, (1 <= k <= b / interval)%nat /\ burn s = (k * interval)%nat /\ (20 <= k)%nat /\ (2 <= length x0)%nat /\
      iter s = (burn s + (n_total - b))%nat /\
      exists s1, after (burn s) (init_mh X b x0) s1 /\ rates_ok (20 * interval) s1 = true)).
Proof.
  unfold MhModel.scheduler. destruct (n_total <? b)%nat eqn:hb; [discriminate |]. apply Nat.ltb_ge in hb.
  destruct (run_burnin b (init_mh X b x0)) as [s1 |] eqn:h1; [| discriminate]. intro h. split; [assumption |].
  assert (hs : after (n_total - b) s1 s /\ burn s = burn s1).
  { destruct freeze; [injection h as <-; split; [apply after_run | apply run_iter] | now apply run_adaptive_spec]. }
  destruct hs as [hs hbs].
  assert (hint : interval <> 0%nat).
  { unfold MhModel.run_burnin in h1. destruct (interval =? 0)%nat eqn:hi; [discriminate |]. now apply Nat.eqb_neq. }
  destruct (run_burnin_spec _ _ _ h1 eq_refl) as [[ha hb1] | [k [hk [ha [hb1 [hnd [hc hr]]]]]]].
  - assert (hall := after_trans _ _ _ _ _ ha hs). replace (b + (n_total - b))%nat with n_total in hall by lia.
    assert (hi : iter s = n_total) by (destruct hall as [_ hi]; simpl in hi; exact hi). rewrite hi. split; [exact hall |].
    left. split; [| reflexivity]. rewrite hbs, hb1. reflexivity.
  - assert (hall := after_trans _ _ _ _ _ ha hs).
    assert (hi : iter s = (k * interval + (n_total - b))%nat) by (destruct hall as [_ hi]; simpl in hi; exact hi).
    assert (hi1 : iter s1 = (k * interval)%nat) by (destruct ha as [_ hi1]; simpl in hi1; exact hi1).
    rewrite hi. split; [exact hall |]. right. exists k. rewrite hbs, hb1, hi1.
    assert (hc' : chains s1 = length x0).
    { rewrite (after_chains _ _ _ ha). unfold n_chains. simpl. apply map_length. }
    repeat split; auto; try lia.
    + rewrite hi1 in hnd. nia.
    + exists s1. split; [exact ha | exact hr].
Qed.
(** row 0 of the acceptance history is 1, so the first sliding rate is 1 *)
Lemma first_rate b n acc : (1 <= n <= length acc)%nat -> nth 0 acc 0 = 1 -> nth 0 (sliding_rates b n acc) 0 = 1.
Proof.
  intros hn h0. rewrite sliding_nth by lia. assert (hw : (1 <= window b n)%nat) by (unfold window; lia).
  replace (1 - window b n)%nat with 0%nat by lia. unfold slice. rewrite skipn_O. cbn [Nat.sub].
  destruct acc as [| a acc]; [simpl in hn; lia |]. simpl in h0. subst a. cbn [firstn]. unfold mean_l, sum_list. simpl. field.
Qed.
Lemma rates_first_check (s : mh X) nd tr : acceptance_max <= 1 -> In tr (traces X s) -> iter s = nd -> (1 <= nd)%nat ->
  length tr = S nd -> nth_error (accept_row X tr) 0 = Some 1 -> rates_ok nd s = false.
Proof.
  intros hm hin hi hn hl h0. unfold MhModel.rates_ok. apply not_true_iff_false. intro h. rewrite forallb_forall in h.
  specialize (h _ hin). rewrite forallb_forall in h. rewrite hi, Nat.sub_diag in h.
  assert (hlen : length (accept_row X tr) = S nd) by (unfold accept_row; now rewrite map_length).
  assert (hls : length (sliding_rates sliding_width nd (accept_row X tr)) = nd) by (apply sliding_length; lia).
  specialize (h 1). assert (hin1 : In 1 (slice 0 nd (sliding_rates sliding_width nd (accept_row X tr)))).
  { unfold slice. rewrite skipn_O, Nat.sub_0_r, firstn_all2 by lia.
    rewrite <- (first_rate sliding_width nd (accept_row X tr)); [| lia | now apply nth_error_nth].
    apply nth_In. lia. }
  specialize (h hin1). apply andb_prop in h. destruct h as [_ h]. unfold rltb in h. destruct (Rlt_dec 1 acceptance_max); [lra | discriminate].
Qed.
(** the rows held for each chain after k steps *)
Lemma after_ok b x0 k s : after k (init_mh X b x0) s -> length (traces X s) = length x0 /\
  forall c tr, nth_error (traces X s) c = Some tr -> exists x, nth_error x0 c = Some x /\
    chain_ok X log_target Y U symmetric logq c x k tr.
Proof.
  intros [h1 h2].
  destruct (run_ok X log_target Y U symmetric logq x0 k (init_mh X b x0) (init_ok X log_target Y U symmetric logq b x0)) as [hl hok].
  destruct (run_iter X log_target Y U symmetric logq k (init_mh X b x0)) as [hi _]. simpl in hi. rewrite hi in hok.
  rewrite <- h1 in *. split; [assumption |]. intros c tr ht.
  destruct (nth_error x0 c) as [x |] eqn:hx.
  - exists x. split; [reflexivity | exact (hok c x tr hx ht)].
  - apply nth_error_None in hx. assert (c < length (traces X s))%nat by (apply nth_error_Some; congruence). lia.
Qed.
End Sched.

(** * The truncation box *)
Definition inside (lo up p : list R) : Prop :=
  length p = length lo /\ length p = length up /\
  forall i, (i < length p)%nat -> nth i lo 0 <= nth i p 0 <= nth i up 0.
Lemma existsb_zip (g : R -> R -> bool) p q : length p = length q ->
  (existsb (fun b => b) (zip2 g p q) = false <-> forall i, (i < length p)%nat -> g (nth i p 0) (nth i q 0) = false).
Proof.
  revert q. induction p as [| a p ih]; intros [| b q] hl; try discriminate.
  - simpl. split; [intros; lia | reflexivity].
  - injection hl as hl. cbn [zip2 existsb]. rewrite orb_false_iff, (ih q hl). split.
    + intros [h1 h2] [| i] hi; [exact h1 | apply h2; simpl in hi; lia].
    + intro h. split; [exact (h 0%nat ltac:(simpl; lia)) | intros i hi; exact (h (S i) ltac:(simpl; lia))].
Qed.
Lemma out_of_box_spec lo up p : length p = length lo -> length p = length up ->
  (out_of_box (Some (lo, up)) p = false <-> inside lo up p).
Proof.
  intros h1 h2. unfold out_of_box, inside. rewrite orb_false_iff, !existsb_zip by assumption. split.
  - intros [ha hb]. repeat split; auto; specialize (ha i H); specialize (hb i H); unfold rltb in *;
      destruct (Rlt_dec (nth i p 0) (nth i lo 0)); destruct (Rlt_dec (nth i up 0) (nth i p 0)); try discriminate; lra.
  - intros [_ [_ h]]. split; intros i hi; specialize (h i hi); unfold rltb;
      [destruct (Rlt_dec (nth i p 0) (nth i lo 0)) | destruct (Rlt_dec (nth i up 0) (nth i p 0))]; auto; lra.
Qed.

(** * Gains *)
Lemma diminishing_end n base f : n <> 0 -> diminishing n n base f = base * (2 * f - 1).
Proof. intro h. unfold diminishing. replace (PI * n / n) with PI by (field; assumption). rewrite cos_PI. ring. Qed.
Lemma diminishing_start n base f : n <> 0 -> diminishing 0 n base f = base.
Proof. intro h. unfold diminishing. replace (PI * 0 / n) with 0 by (field; assumption). rewrite cos_0. ring. Qed.
Lemma angle_range n N : 0 <= n <= N -> 0 < N -> 0 <= PI * n / N <= PI.
Proof.
  intros h hN. pose proof PI_RGT_0 as hp. split.
  - apply Rmult_le_pos; [nra | left; now apply Rinv_0_lt_compat].
  - apply (Rmult_le_reg_r N); [assumption |]. unfold Rdiv. rewrite Rmult_assoc, Rinv_l by lra. nra.
Qed.
Lemma diminishing_decreasing N base f m n : 0 < N -> 0 < base -> f < 1 -> 0 <= m -> m < n -> n <= N ->
  diminishing n N base f < diminishing m N base f.
Proof.
  intros hN hb hf hm hmn hn. unfold diminishing. pose proof PI_RGT_0 as hp.
  assert (h1 := angle_range m N ltac:(lra) hN). assert (h2 := angle_range n N ltac:(lra) hN).
  assert (h3 : PI * m / N < PI * n / N).
  { unfold Rdiv. apply Rmult_lt_compat_r; [now apply Rinv_0_lt_compat | nra]. }
  assert (h4 : cos (PI * n / N) < cos (PI * m / N)) by (apply cos_decreasing_1; lra).
  apply Rmult_lt_compat_l; [assumption |]. nra.
Qed.
Lemma cos_2PI3' : cos (PI * 2 / 3) = - (1 / 2).
Proof. replace (PI * 2 / 3) with (2 * (PI / 3)) by field. rewrite cos_2PI3. lra. Qed.
Lemma diminishing_negative N base n : 0 < N -> 0 < base -> 2 / 3 * N <= n <= N -> diminishing n N base (1 / 10) < 0.
Proof.
  intros hN hb hn. assert (h1 := angle_range n N ltac:(lra) hN). pose proof PI_RGT_0 as hp.
  assert (h2 : PI * 2 / 3 <= PI * n / N).
  { apply (Rmult_le_reg_r N); [assumption |]. unfold Rdiv at 2. rewrite Rmult_assoc, Rinv_l by lra. nra. }
  assert (h3 : cos (PI * n / N) <= - (1 / 2)).
  { rewrite <- cos_2PI3'. destruct (Req_dec (PI * 2 / 3) (PI * n / N)) as [e | e]; [rewrite e; lra |].
    left. apply cos_decreasing_1; lra. }
  unfold diminishing. nra.
Qed.
Lemma diminishing_positive N base n f : 0 < N -> 0 < base -> 0 < f <= 1 -> 0 <= n <= N / 2 -> 0 < diminishing n N base f.
Proof.
  intros hN hb hf hn. assert (h1 := angle_range n N ltac:(lra) hN). pose proof PI_RGT_0 as hp.
  assert (h2 : PI * n / N <= PI / 2).
  { apply (Rmult_le_reg_r N); [assumption |]. unfold Rdiv at 1. rewrite Rmult_assoc, Rinv_l by lra. nra. }
  assert (h3 : 0 <= cos (PI * n / N)) by (apply cos_ge_0; lra).
  unfold diminishing. apply Rmult_lt_0_compat; [assumption |]. nra.
Qed.
(** * Robbins-Monro *)
(** successive updates: (gain, observed rate) of every block *)
Definition rm_run (target : R) (steps : list (R * R)) (p : list R) : list R :=
  fold_left (fun p gr => rm_update (fst gr) (snd gr) target p) steps p.
Lemma rm_run_closed target steps : forall p,
  rm_run target steps p = map (fun v => v * exp (sum_list (map (fun gr => fst gr * (snd gr - target)) steps))) p.
Proof.
  induction steps as [| [g r] steps ih]; intro p.
  - unfold rm_run, sum_list. simpl. rewrite exp_0. rewrite <- (map_id p) at 1. apply map_ext. intro; ring.
  - unfold rm_run. cbn [fold_left map fst snd]. change (fold_left _ steps ?q) with (rm_run target steps q). rewrite ih.
    unfold rm_update. rewrite map_map. apply map_ext. intro v. rewrite sum_cons, exp_plus. ring.
Qed.

(** * Kolmogorov-Smirnov fraction *)
Lemma count_seq_le (f : nat -> bool) n : (length (filter (fun b => b) (map f (seq 0 n))) <= n)%nat.
Proof.
  assert (h : forall l : list nat, (length (filter (fun b => b) (map f l)) <= length l)%nat).
  { induction l as [| a l ih]; [simpl; lia |]. simpl. destruct (f a); simpl; lia. }
  specialize (h (seq 0 n)). now rewrite seq_length in h.
Qed.
Lemma filter_app_len (l l' : list bool) :
  length (filter (fun b => b) (l ++ l')) = (length (filter (fun b => b) l) + length (filter (fun b => b) l'))%nat.
Proof. now rewrite filter_app, app_length. Qed.
Lemma flat_count {A} (f : A -> list bool) (m k : nat) (xs : list A) :
  (forall x, In x xs -> length (f x) = m) -> (forall x, In x xs -> (k <= length (filter (fun b => b) (f x)))%nat) ->
  length (flat_map f xs) = (length xs * m)%nat /\ (length xs * k <= length (filter (fun b => b) (flat_map f xs)))%nat.
Proof.
  induction xs as [| a xs ih]; intros hm hk; [simpl; lia |]. cbn [flat_map]. rewrite app_length, filter_app_len.
  destruct ih as [h1 h2]; [intros; apply hm; now right | intros; apply hk; now right |].
  rewrite h1. pose proof (hm a (or_introl eq_refl)). pose proof (hk a (or_introl eq_refl)). simpl. lia.
Qed.
Lemma significant_count alpha B pv : 0 < alpha ->
  length (significant alpha B pv) = (B * B)%nat /\ (B <= length (filter (fun b => b) (significant alpha B pv)))%nat.
Proof.
  intro ha. unfold significant.
  destruct (flat_count (fun i => map (fun j => rltb (pvalue_entry pv i j) alpha) (seq 0 B)) B 1 (seq 0 B)) as [h1 h2].
  - intros. rewrite map_length. apply seq_length.
  - intros i hi. assert (hin : In true (filter (fun b : bool => b) (map (fun j => rltb (pvalue_entry pv i j) alpha) (seq 0 B)))).
    { apply filter_In. split; [| reflexivity]. apply in_map_iff. exists i. split; [| assumption].
      unfold pvalue_entry. rewrite Nat.ltb_irrefl. unfold rltb. destruct (Rlt_dec 0 alpha); [reflexivity | contradiction]. }
    destruct (filter _ _); [contradiction | simpl; lia].
  - rewrite seq_length in *. split; [assumption | lia].
Qed.
Lemma frac_lower alpha B dim pv : 0 < alpha -> (1 <= B)%nat -> (1 <= dim)%nat -> 1 / INR B <= frac_significant alpha B dim pv <= 1.
Proof.
  intros ha hB hd. unfold frac_significant.
  destruct (flat_count (fun d => significant alpha B (pv d)) (B * B) B (seq 0 dim)) as [h1 h2].
  - intros. now apply significant_count.
  - intros. now apply significant_count.
  - rewrite seq_length in *. rewrite h1. set (sig := flat_map _ _) in *.
    assert (hle : (length (filter (fun b : bool => b) sig) <= length sig)%nat).
    { clear. induction sig as [| b sig ih]; [simpl; lia |]. simpl. destruct b; simpl; lia. }
    set (c := length (filter (fun b : bool => b) sig)) in *.
    assert (hb : 0 < INR B) by (apply lt_0_INR; lia). assert (hdd : 0 < INR dim) by (apply lt_0_INR; lia).
    rewrite h1 in hle. apply le_INR in h2. apply le_INR in hle. rewrite !mult_INR in *. split.
    + apply (Rmult_le_reg_r (INR dim * (INR B * INR B))); [nra |].
      replace (1 / INR B * (INR dim * (INR B * INR B))) with (INR dim * INR B) by (field; lra).
      unfold Rdiv. rewrite Rmult_assoc, Rinv_l by nra. lra.
    + apply (Rmult_le_reg_r (INR dim * (INR B * INR B))); [nra |].
      unfold Rdiv. rewrite Rmult_assoc, Rinv_l by nra. lra.
Qed.
