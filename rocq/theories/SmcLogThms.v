(** C130: what the log of an SMC run says. *)
From Coq Require Import List Arith Reals Bool Lia Lra.
From Verif Require Import SmcLogModel.
Import ListNotations.
Local Open Scope R_scope.

Section Run.
Variables (cf : config) (rate ess_of nextp : nat -> R) (n : R).

(** the change of the proposal scale after a move with acceptation rate r *)
Definition change (r : R) : R := if Rlt_dec r (rmin cf) then / factor cf else if Rlt_dec (rmax cf) r then factor cf else 1.
Definition in_range (r : R) : Prop := rmin cf <= r <= rmax cf.
(** the moves k, k+1, ..., k+j-1 *)
Definition rates (k j : nat) : list R := map rate (seq k j).

Lemma rates_app k i j : rates k i ++ rates (k + i) j = rates k (i + j).
Proof. unfold rates; now rewrite seq_app, map_app. Qed.

Lemma controlled_spec k : forall s, exists j, (j <= k)%nat /\ (k <> 0 -> j <> 0)%nat /\
  (forall i, (i < j)%nat -> (S i < j)%nat -> ~ in_range (rate (moves s + i))) /\
  ((j < k)%nat -> in_range (rate (moves s + (j - 1)))) /\
  controlled cf rate k s = Smc (let d := data s in LogData (cur d) (ess d) (tgt d) (rit d) (lseq d) (acc d ++ rates (moves s) j))
    (log s) (stage s) (scale s * fold_right Rmult 1 (map change (rates (moves s) j))) (moves s + j) (esses s) (levels s).
Proof.
induction k as [|k IH]; intro s.
- exists 0%nat; repeat split; try lia; simpl; rewrite app_nil_r, Rmult_1_r, Nat.add_0_r; now destruct s as [[]].
- simpl; destruct (Rlt_dec (rate (moves s)) (rmin cf)) as [lo|lo]; [|destruct (Rlt_dec (rmax cf) (rate (moves s))) as [hi|hi]].
  + destruct (IH (with_scale (scale s / factor cf) (logged_move rate s))) as (j & J1 & J2 & J3 & J4 & ->).
    exists (S j); split; [lia|]; split; [lia|]; split; [|split].
    * intros [|i] Hi Hj; [rewrite Nat.add_0_r; unfold in_range; lra|].
      rewrite <- Nat.add_succ_comm; apply (J3 i); lia.
    * intro H; simpl Nat.sub; rewrite Nat.sub_0_r; destruct j as [|j]; [exfalso; apply J2; lia|].
      specialize (J4 ltac:(lia)); simpl in J4; rewrite Nat.sub_0_r in J4; rewrite <- Nat.add_succ_comm; exact J4.
    * simpl; rewrite <- app_assoc, Nat.add_succ_r; simpl; f_equal; unfold change at 2; destruct (Rlt_dec _ (rmin cf)); [|easy]; unfold Rdiv, rates; ring.
  + destruct (IH (with_scale (scale s * factor cf) (logged_move rate s))) as (j & J1 & J2 & J3 & J4 & ->).
    exists (S j); split; [lia|]; split; [lia|]; split; [|split].
    * intros [|i] Hi Hj; [rewrite Nat.add_0_r; unfold in_range; lra|].
      rewrite <- Nat.add_succ_comm; apply (J3 i); lia.
    * intro H; simpl Nat.sub; rewrite Nat.sub_0_r; destruct j as [|j]; [exfalso; apply J2; lia|].
      specialize (J4 ltac:(lia)); simpl in J4; rewrite Nat.sub_0_r in J4; rewrite <- Nat.add_succ_comm; exact J4.
    * simpl; rewrite <- app_assoc, Nat.add_succ_r; simpl; f_equal; unfold change at 2.
      destruct (Rlt_dec _ (rmin cf)); [easy|]; destruct (Rlt_dec (rmax cf) _); [|easy]; unfold rates; ring.
  + exists 1%nat; split; [lia|]; split; [lia|]; split; [lia|]; split.
    * intros _; simpl; rewrite Nat.add_0_r; unfold in_range; lra.
    * unfold logged_move, log_acc; simpl; rewrite Nat.add_1_r; f_equal; unfold change.
      destruct (Rlt_dec _ (rmin cf)); [easy|]; destruct (Rlt_dec (rmax cf) _); [easy|]; ring.
Qed.

Lemma iter_logged k : forall s, Nat.iter k (logged_move rate) s =
  Smc (let d := data s in LogData (cur d) (ess d) (tgt d) (rit d) (lseq d) (acc d ++ rates (moves s) k))
    (log s) (stage s) (scale s) (moves s + k) (esses s) (levels s).
Proof.
induction k as [|k IH]; intro s.
- simpl; rewrite app_nil_r, Nat.add_0_r; now destruct s as [[]].
- change (logged_move rate (Nat.iter k (logged_move rate) s) = Smc (let d := data s in
    LogData (cur d) (ess d) (tgt d) (rit d) (lseq d) (acc d ++ rates (moves s) (S k)))
    (log s) (stage s) (scale s) (moves s + S k) (esses s) (levels s)).
  rewrite IH; unfold logged_move, log_acc; simpl; rewrite <- app_assoc, Nat.add_succ_r.
  replace (rates (moves s) (S k)) with (rates (moves s) k ++ [rate (moves s + k)]); [reflexivity|].
  replace (S k) with (k + 1)%nat by lia; now rewrite <- rates_app.
Qed.

(** One step appends two entries: the moves that tune the scale, then the mh_steps - 1 others.  Both carry the new level,
    its effective sample size and the tuned scale. *)
Theorem C130_step p s : acc (data s) = [] -> exists j, let s' := step cf rate ess_of p s in
  let entry l := Snap (stage s) (scale s') (tgt (data s)) (Some p) (Some (ess_of (esses s))) (rit (data s)) (lseq (data s)) l in
  log s' = log s ++ [entry (rates (moves s) j); entry (rates (moves s + j) (mh_steps cf - 1))] /\
  (j <= max_it cf)%nat /\ (max_it cf <> 0 -> j <> 0)%nat /\
  (forall i, (S i < j)%nat -> ~ in_range (rate (moves s + i))) /\
  ((j < max_it cf)%nat -> in_range (rate (moves s + (j - 1)))) /\
  scale s' = scale s * fold_right Rmult 1 (map change (rates (moves s) j)) /\
  s' = Smc (LogData (Some p) (Some (ess_of (esses s))) (tgt (data s)) (rit (data s)) (lseq (data s)) [])
    (log s') (stage s) (scale s') (moves s + j + (mh_steps cf - 1)) (S (esses s)) (levels s).
Proof.
intros A; unfold step; simpl.
destruct (controlled_spec (max_it cf) (with_data (fun d => log_ess (ess_of (esses s)) (log_cur p d))
  (Smc (data s) (log s) (stage s) (scale s) (moves s) (S (esses s)) (levels s)))) as (j & J1 & J2 & J3 & J4 & ->).
exists j; rewrite iter_logged; simpl in *; rewrite A, <- app_assoc; simpl.
split; [reflexivity|]; split; [exact J1|]; split; [exact J2|]; split; [intros i Hi; apply J3; lia|]; split; [exact J4|]; split; [reflexivity|].
unfold log_snapshot; simpl; now rewrite <- app_assoc.
Qed.

(** No acceptation rate is lost or recorded twice. *)
Definition recorded (l : list snap) : list R := flat_map s_acc l.

Lemma recorded_app a b : recorded (a ++ b) = recorded a ++ recorded b.
Proof. apply flat_map_app. Qed.

Definition follows (s s' : smc) : Prop := acc (data s') = [] /\
  exists k, moves s' = (moves s + k)%nat /\ recorded (log s') = recorded (log s) ++ rates (moves s) k.

Lemma follows_trans a b c : follows a b -> follows b c -> follows a c.
Proof.
intros [_ (k & M & L)] [A (k' & M' & L')]; split; [exact A|]; exists (k + k')%nat; split; [lia|].
now rewrite L', L, <- app_assoc, M, rates_app.
Qed.

Lemma follows_step p s : acc (data s) = [] -> follows s (step cf rate ess_of p s).
Proof.
intro A; destruct (C130_step p s A) as (j & L & _ & _ & _ & _ & _ & E); split; [now rewrite E|].
exists (j + (mh_steps cf - 1))%nat; split; [rewrite E; simpl; lia|].
rewrite L, recorded_app; simpl; now rewrite app_nil_r, rates_app.
Qed.

Lemma follows_snap s s' : acc (data s) = [] -> moves s' = moves s -> log s' = log s -> acc (data s') = [] -> follows s (log_snapshot s').
Proof.
intros A M L A'; split; [reflexivity|]; exists 0%nat; split; [simpl; lia|].
simpl; rewrite recorded_app, L; simpl; now rewrite A'.
Qed.

Lemma follows_loop fuel target : forall current s s', acc (data s) = [] ->
  restart_loop cf rate ess_of nextp fuel current target s = Some s' -> follows s s'.
Proof.
induction fuel as [|fuel IH]; intros current s s' A E; simpl in E; destruct (Req_EM_T current target).
1, 3: injection E as <-; split; [exact A|]; exists 0%nat; split; [lia|]; now rewrite app_nil_r.
- discriminate.
- eapply follows_trans; [|eapply IH; [|exact E]].
  + eapply follows_trans; [|apply follows_step; reflexivity]; apply follows_snap; auto.
  + apply follows_step; reflexivity.
Qed.

Theorem C130_recorded fuel initial target min_ess_ratio s s' : acc (data s) = [] ->
  run_step cf rate ess_of nextp n fuel initial target min_ess_ratio s = Some s' ->
  acc (data s') = [] /\ exists k, moves s' = (moves s + k)%nat /\ recorded (log s') = recorded (log s) ++ rates (moves s) k.
Proof.
intros A E; change (follows s s'); unfold run_step in E; simpl in E.
set (s4 := log_snapshot (with_data _ _)) in E.
assert (follows s s4) as F4.
{ eapply follows_trans; [apply follows_snap with (s := s) (s' := Smc (LogData (Some target) (ess (data s)) (Some target)
     (rit (data s)) (lseq (data s)) (acc (data s))) (log s) (S (stage s)) (scale s) (moves s) (esses s) (levels s)); auto|].
  apply follows_snap; reflexivity. }
destruct (Rlt_dec _ _).
- unfold restart in E; simpl in E.
  match type of E with match restart_loop _ _ _ _ _ _ _ ?x with _ => _ end = _ => set (s5 := x) in E end.
  destruct (restart_loop _ _ _ _ _ _ _ s5) as [s6|] eqn:R; [|discriminate]; injection E as <-.
  assert (follows s4 s5) as F5.
  { split; [reflexivity|]; exists 0%nat; split; [simpl; lia|]; unfold s5; simpl; rewrite !recorded_app; simpl; now rewrite !app_nil_r. }
  apply (follows_loop fuel target initial s5 s6 eq_refl) in R.
  destruct (follows_trans _ _ _ F4 (follows_trans _ _ _ F5 R)) as [B C]; split; [exact B | exact C].
- injection E as <-; eapply follows_trans; [exact F4|]; now apply follows_step.
Qed.

(** A step without restart: four entries. *)
Theorem C130_normal fuel initial target min_ess_ratio s : acc (data s) = [] -> ~ ess_of (esses s) / n < min_ess_ratio ->
  exists s' j, run_step cf rate ess_of nextp n fuel initial target min_ess_ratio s = Some s' /\
    let entry := Snap (S (stage s)) in
    log s' = log s ++ [
      entry (scale s) (Some target) (Some target) (ess (data s)) (rit (data s)) (lseq (data s)) [];
      entry (scale s) (Some target) (Some target) (Some (ess_of (esses s))) (rit (data s)) (lseq (data s)) [];
      entry (scale s') (Some target) (Some target) (Some (ess_of (S (esses s)))) (rit (data s)) (lseq (data s)) (rates (moves s) j);
      entry (scale s') (Some target) (Some target) (Some (ess_of (S (esses s)))) (rit (data s)) (lseq (data s))
        (rates (moves s + j) (mh_steps cf - 1))].
Proof.
intros A ok; unfold run_step; simpl; destruct (Rlt_dec _ _) as [X|_]; [easy|].
set (s4 := log_snapshot (with_data _ _)).
destruct (C130_step target s4 eq_refl) as (j & L & _); exists (step cf rate ess_of target s4), j; split; [reflexivity|].
rewrite L; generalize (scale (step cf rate ess_of target s4)); intro x; unfold s4; simpl; rewrite <- !app_assoc; simpl; rewrite A; reflexivity.
Qed.

(** A restart: three entries, then three per level, which say which levels have been visited so far. *)
Lemma nth_app3 {A} (a b c : A) l i : nth_error (a :: b :: c :: l) (3 * S i) = nth_error l (3 * i) /\
  nth_error (a :: b :: c :: l) (3 * S i + 1) = nth_error l (3 * i + 1) /\
  nth_error (a :: b :: c :: l) (3 * S i + 2) = nth_error l (3 * i + 2).
Proof.
replace (3 * S i)%nat with (S (S (S (3 * i)))) by lia; repeat split; reflexivity.
Qed.

Lemma loop_spec fuel target : forall current s s', acc (data s) = [] ->
  restart_loop cf rate ess_of nextp fuel current target s = Some s' -> exists k L,
  log s' = log s ++ L /\ length L = (3 * k)%nat /\ stage s' = stage s /\ tgt (data s') = tgt (data s) /\
  (match k with 0%nat => current | S i => nextp (levels s + i) end) = target /\
  (forall i, (i < k)%nat -> (match i with 0%nat => current | S i => nextp (levels s + i) end) <> target) /\
  forall i, (i < k)%nat -> exists a b c, nth_error L (3 * i) = Some a /\ nth_error L (3 * i + 1) = Some b /\
    nth_error L (3 * i + 2) = Some c /\
    s_cur a = (match i with 0%nat => cur (data s) | S i => Some (nextp (levels s + i)) end) /\ s_acc a = [] /\
    s_cur b = Some (nextp (levels s + i)) /\ s_cur c = Some (nextp (levels s + i)) /\
    length (s_acc c) = (mh_steps cf - 1)%nat /\ s_ess b = Some (ess_of (esses s + i)) /\ s_ess c = Some (ess_of (esses s + i)) /\
    forall e, e = a \/ e = b \/ e = c -> s_stage e = stage s /\ s_tgt e = tgt (data s) /\ s_rit e = (rit (data s) + S i)%nat /\
      s_seq e = lseq (data s) ++ map nextp (seq (levels s) (S i)).
Proof.
induction fuel as [|fuel IH]; intros current s s' A E; simpl in E; destruct (Req_EM_T current target) as [eq|ne].
1, 3: injection E as <-; exists 0%nat, []; rewrite app_nil_r; repeat split; auto; lia.
- discriminate.
- set (p := nextp (levels s)) in E.
  match type of E with restart_loop _ _ _ _ _ _ _ (step _ _ _ _ ?x) = _ => set (s2 := x) in E end.
  destruct (C130_step p s2 eq_refl) as (j & L1 & _ & _ & _ & _ & _ & E1).
  set (s3 := step cf rate ess_of p s2) in *.
  destruct (IH p s3 s') as (k & L & EL & LL & ST & TG & KT & KN & KE); [now rewrite E1 | exact E|].
  assert (levels s3 = S (levels s)) as LV by now rewrite E1.
  assert (data s3 = LogData (Some p) (Some (ess_of (esses s))) (tgt (data s)) (S (rit (data s))) (lseq (data s) ++ [p]) []) as D3 by now rewrite E1.
  assert (stage s3 = stage s) as S3 by now rewrite E1.
  assert (esses s3 = S (esses s)) as ES by now rewrite E1.
  exists (S k); rewrite EL, L1; unfold s2 at 1; cbn [log log_snapshot]; rewrite <- !app_assoc; simpl app; eexists; split; [reflexivity|].
  split; [simpl; rewrite LL; lia|]; split; [congruence|]; split; [rewrite TG, D3; reflexivity|].
  rewrite LV in *; split; [|split].
  + destruct k as [|k]; [now rewrite Nat.add_0_r | rewrite <- Nat.add_succ_comm; exact KT].
  + intros [|[|i]] Hi; [exact ne | rewrite Nat.add_0_r; apply (KN 0%nat); lia |].
    rewrite <- Nat.add_succ_comm; apply (KN (S i)); lia.
  + intros [|i] Hi.
    * do 3 eexists; split; [reflexivity|]; split; [reflexivity|]; split; [reflexivity|]; simpl; rewrite A.
      split; [reflexivity|]; split; [reflexivity|]; rewrite !Nat.add_0_r; split; [reflexivity|]; split; [reflexivity|].
      split; [unfold rates; now rewrite map_length, seq_length|]; split; [reflexivity|]; split; [reflexivity|].
      intros e [ -> | [ -> | -> ] ]; simpl; rewrite Nat.add_1_r; auto.
    * destruct (KE i ltac:(lia)) as (a & b & c & H1 & H2 & H3 & H4 & H5 & H6 & H7 & H8 & H9 & H10 & H11).
      exists a, b, c; match goal with |- nth_error (?x :: ?y :: ?z :: _) _ = _ /\ _ => destruct (nth_app3 x y z L i) as (-> & -> & ->) end.
      do 3 (split; [assumption|]); split; [rewrite H4, D3; destruct i as [|i]; [now rewrite Nat.add_0_r | now rewrite <- Nat.add_succ_comm]|].
      split; [exact H5|]; rewrite ES in H9, H10; rewrite <- !Nat.add_succ_comm; do 5 (split; [assumption|]).
      intros e X; destruct (H11 e X) as (Y1 & Y2 & Y3 & Y4); rewrite S3 in Y1; rewrite D3 in Y2, Y3, Y4; simpl in Y2, Y3, Y4.
      split; [exact Y1|]; split; [exact Y2|]; split; [rewrite Y3; lia|]; rewrite Y4, <- app_assoc; reflexivity.
Qed.

Theorem C130_restart fuel initial target min_ess_ratio s s' : acc (data s) = [] -> rit (data s) = 0%nat ->
  ess_of (esses s) / n < min_ess_ratio -> run_step cf rate ess_of nextp n fuel initial target min_ess_ratio s = Some s' ->
  exists k L,
  log s' = log s ++ L /\ length L = (3 + 3 * k)%nat /\ lseq (data s') = [] /\ rit (data s') = 0%nat /\
  (match k with 0%nat => initial | S i => nextp (levels s + i) end) = target /\
  (forall i, (i < k)%nat -> (match i with 0%nat => initial | S i => nextp (levels s + i) end) <> target) /\
  (forall i, (i < 3)%nat -> exists e, nth_error L i = Some e /\ s_cur e = Some target /\ s_acc e = []) /\
  forall i, (i < k)%nat -> exists a b c, nth_error L (3 + 3 * i) = Some a /\ nth_error L (3 + 3 * i + 1) = Some b /\
    nth_error L (3 + 3 * i + 2) = Some c /\
    s_cur a = Some (match i with 0%nat => target | S i => nextp (levels s + i) end) /\ s_acc a = [] /\
    s_cur b = Some (nextp (levels s + i)) /\ s_cur c = Some (nextp (levels s + i)) /\
    length (s_acc c) = (mh_steps cf - 1)%nat /\
    s_ess b = Some (ess_of (2 + esses s + i)) /\ s_ess c = Some (ess_of (2 + esses s + i)) /\
    forall e, e = a \/ e = b \/ e = c -> s_stage e = S (stage s) /\ s_tgt e = Some target /\ s_rit e = S i /\
      s_seq e = initial :: map nextp (seq (levels s) (S i)).
Proof.
intros A R0 lo E; unfold run_step in E; simpl in E; destruct (Rlt_dec _ _) as [_|X]; [|easy].
unfold restart in E; simpl in E.
match type of E with match restart_loop _ _ _ _ _ _ _ ?x with _ => _ end = _ => set (s5 := x) in E end.
destruct (restart_loop _ _ _ _ _ _ _ s5) as [s6|] eqn:R; [|discriminate]; injection E as <-.
destruct (loop_spec fuel target initial s5 s6 eq_refl R) as (k & L & EL & LL & ST & TG & KT & KN & KE).
exists k; unfold s5 in EL; simpl in EL; rewrite <- !app_assoc in EL; simpl app in EL; eexists; split; [exact EL|]; split; [simpl; rewrite LL; lia|].
split; [reflexivity|]; split; [reflexivity|]; split; [exact KT|]; split; [exact KN|]; split.
- intros [|[|[|i]]] Hi; [..|lia]; eexists; (split; [reflexivity|]); simpl; auto.
- intros i Hi; destruct (KE i Hi) as (a & b & c & H1 & H2 & H3 & H4 & H5 & H6 & H7 & H8 & H9 & H10 & H11).
  exists a, b, c; do 3 (split; [assumption|]); split; [rewrite H4; destruct i; reflexivity|].
  do 6 (split; [assumption|]); intros e X; destruct (H11 e X) as (Y1 & Y2 & Y3 & Y4).
  split; [exact Y1|]; split; [exact Y2|]; split; [rewrite Y3; simpl; rewrite R0; reflexivity | exact Y4].
Qed.

(** A restart ends exactly when one of the levels is the target itself. *)
Lemma loop_ends fuel target : forall current s, (exists s', restart_loop cf rate ess_of nextp fuel current target s = Some s') <->
  exists k, (k <= fuel)%nat /\ (match k with 0%nat => current | S i => nextp (levels s + i) end) = target.
Proof.
induction fuel as [|fuel IH]; intros current s; cbn [restart_loop]; destruct (Req_EM_T current target) as [Q|Q].
- split; [intros _; exists 0%nat; split; [lia | exact Q] | eauto].
- split; [intros [s' H]; discriminate | intros (k & K & H); replace k with 0%nat in H by lia; contradiction].
- split; [intros _; exists 0%nat; split; [lia | exact Q] | eauto].
- cbv zeta; rewrite IH; set (s1 := Smc _ _ _ _ _ _ _).
  destruct (C130_step (nextp (levels s)) (log_snapshot s1) eq_refl) as (j & _ & _ & _ & _ & _ & _ & ->).
  cbn [levels log_snapshot]; unfold s1; cbn [levels]; split.
  + intros ([|k] & K & H); [exists 1%nat | exists (S (S k))]; (split; [lia|]); [now rewrite Nat.add_0_r|].
    rewrite <- H; f_equal; lia.
  + intros ([|[|k]] & K & H); [contradiction | exists 0%nat | exists (S k)]; (split; [lia|]); [now rewrite Nat.add_0_r in H|].
    rewrite <- H; f_equal; lia.
Qed.

Theorem C130_ends fuel initial target min_ess_ratio s : ess_of (esses s) / n < min_ess_ratio ->
  (exists s', run_step cf rate ess_of nextp n fuel initial target min_ess_ratio s = Some s') <->
  exists k, (k <= fuel)%nat /\ (match k with 0%nat => initial | S i => nextp (levels s + i) end) = target.
Proof.
intros lo; unfold run_step; simpl; destruct (Rlt_dec _ _) as [_|X]; [|easy]; unfold restart; simpl.
match goal with |- context [restart_loop _ _ _ _ _ _ _ ?x] => set (s5 := x) end.
rewrite <- (loop_ends fuel target initial s5 : _ <-> exists k, (k <= fuel)%nat /\
  (match k with 0%nat => initial | S i => nextp (levels s + i) end) = target); destruct (restart_loop _ _ _ _ _ _ _ s5) as [s6|].
- split; eauto.
- split; intros [s' H]; discriminate.
Qed.

(** Subset simulation: one entry per stage, which contains neither the level nor the effective sample size, shows the second
    threshold as the target of every stage, and omits the mh_steps - 1 additional moves. *)
Lemma iter_silent k : forall s, Nat.iter k silent_move s = Smc (data s) (log s) (stage s) (scale s) (moves s + k) (esses s) (levels s).
Proof.
induction k as [|k IH]; intro s; [simpl; rewrite Nat.add_0_r; now destruct s|].
change (silent_move (Nat.iter k silent_move s) = Smc (data s) (log s) (stage s) (scale s) (moves s + S k) (esses s) (levels s)).
rewrite IH; unfold silent_move; simpl; f_equal; lia.
Qed.

Theorem C130_subset u0 u1 us param_s : exists s', run_subset cf rate (u0 :: u1 :: us) param_s = Some s' /\
  length (log s') = S (length us) /\
  (forall i e, nth_error (log s') i = Some e -> s_stage e = S i /\ s_cur e = None /\ s_ess e = None /\ s_tgt e = Some u1 /\
     (length (s_acc e) <= max_it cf)%nat) /\
  moves s' = (length (recorded (log s')) + S (length us) * (mh_steps cf - 1))%nat.
Proof.
eexists; split; [reflexivity|].
match goal with |- length (log (Nat.iter _ _ ?x)) = _ /\ _ => set (s0 := x) end.
assert (forall k, let s' := Nat.iter k (subset_stage cf rate) s0 in
  data s' = data s0 /\ stage s' = k /\ length (log s') = k /\
  (forall i e, nth_error (log s') i = Some e -> s_stage e = S i /\ s_cur e = None /\ s_ess e = None /\ s_tgt e = Some u1 /\
     (length (s_acc e) <= max_it cf)%nat) /\ moves s' = (length (recorded (log s')) + k * (mh_steps cf - 1))%nat) as G.
{ induction k as [|k IH]; simpl Nat.iter.
  - repeat split; try reflexivity; destruct i; discriminate.
  - set (s := Nat.iter k (subset_stage cf rate) s0) in *; destruct IH as (D & ST & LL & EN & MV); unfold subset_stage.
    destruct (controlled_spec (max_it cf) s) as (j & J1 & _ & _ & _ & ->); rewrite iter_silent; simpl; rewrite D; simpl.
    split; [reflexivity|]; split; [congruence|]; split; [rewrite app_length, LL; simpl; lia|]; split.
    + intros i e; destruct (Nat.lt_ge_cases i (length (log s))) as [lt|ge].
      * rewrite nth_error_app1 by exact lt; apply EN.
      * rewrite nth_error_app2 by exact ge; destruct (i - length (log s))%nat as [|x] eqn:X; simpl; [|destruct x; discriminate].
        intros [= <-]; simpl; repeat split; [lia|]; unfold rates; rewrite map_length, seq_length; exact J1.
    + rewrite recorded_app, app_length; simpl; rewrite app_nil_r; unfold rates at 1; rewrite map_length, seq_length, MV; lia. }
destruct (G (S (length us))) as (_ & _ & G3 & G4 & G5); auto.
Qed.
End Run.

(** plot_state: all series have the same length and their i-th values come from the same entry; an entry without moves is
    drawn as an acceptation rate 0. *)
Theorem C130_plot {A} (f : snap -> A) l :
  combine (plot_series f l) (plot_rates l) = flat_map (fun e => map (fun r => (f e, r)) (shown e)) l /\
  length (plot_series f l) = length (plot_rates l) /\
  length (plot_rates l) = (length (recorded l) + length (filter (fun e => match s_acc e with [] => true | _ => false end) l))%nat.
Proof.
assert (forall e, length (repeat (f e) (length (shown e))) = length (shown e)) as RL by (intro; apply repeat_length).
assert (forall (X Y : Type) (a b : list X) (c d : list Y), length a = length c -> combine (a ++ b) (c ++ d) = combine a c ++ combine b d) as CA.
{ intros X Y a; induction a as [|x a IH]; intros b [|y c] d H; try discriminate; simpl; [reflexivity|]; f_equal; apply IH; simpl in H; lia. }
induction l as [|e l (IH1 & IH2 & IH3)]; [auto|]; simpl; split; [|split].
- rewrite CA by apply RL; rewrite IH1; f_equal; generalize (shown e) as r; induction r as [|x r IH]; simpl; congruence.
- rewrite !app_length, RL, IH2; reflexivity.
- rewrite !app_length, IH3; unfold recorded; unfold shown; destruct (s_acc e); simpl; lia.
Qed.

Theorem C130_stairs {A} (y : list A) : forall k i v, nth_error y i = Some v ->
  let (a, b) := make_stairs_from k y in
  nth_error a (2 * i) = Some (k + i)%nat /\ nth_error a (2 * i + 1) = Some (k + i + 1)%nat /\
  nth_error b (2 * i) = Some v /\ nth_error b (2 * i + 1) = Some v.
Proof.
induction y as [|x y IH]; intros k [|i] v H; try discriminate; simpl in H |- *.
- injection H as ->; destruct (make_stairs_from (S k) y); simpl; repeat split; f_equal; lia.
- specialize (IH (S k) i v H); destruct (make_stairs_from (S k) y) as [a b]; destruct IH as (H1 & H2 & H3 & H4).
  replace (i + S (i + 0))%nat with (S (2 * i)) by lia; replace (S (2 * i) + 1)%nat with (S (2 * i + 1)) by lia; cbn [nth_error].
  rewrite H1, H2, H3, H4; repeat split; f_equal; lia.
Qed.
Print Assumptions C130_step.
Print Assumptions C130_recorded.
Print Assumptions C130_normal.
Print Assumptions C130_restart.
Print Assumptions C130_ends.
Print Assumptions C130_subset.
Print Assumptions C130_plot.
Print Assumptions C130_stairs.

(** ten particles, two levels on the way from 0 to 2: three entries, then three per level *)
Example C130_case : let cf := Config 2 (15 / 100) (30 / 100) (14 / 10) 50 in let rate := fun _ : nat => 2 / 10 in
  let ess_of k := if (k =? 0)%nat then 1 else 9 in let nextp := fun k => INR k + 1 in
  exists s', run_step cf rate ess_of nextp 10 5 0 2 (1 / 2) (new_smc (1 / 2)) = Some s' /\ length (log s') = 9%nat.
Proof.
intros cf rate ess_of nextp; assert (ess_of 0%nat / 10 < 1 / 2) as lo by (unfold ess_of; simpl; lra).
destruct (proj2 (C130_ends cf rate ess_of nextp 10 5 0 2 (1 / 2) (new_smc (1 / 2)) lo)) as [s' E].
{ exists 2%nat; split; [lia|]; unfold nextp; simpl; lra. }
exists s'; split; [exact E|].
destruct (C130_restart cf rate ess_of nextp 10 5 0 2 (1 / 2) (new_smc (1 / 2)) s' eq_refl eq_refl lo E)
  as (k & L & EL & LL & _ & _ & K1 & K2 & _).
rewrite EL; simpl; rewrite LL; assert (k = 2)%nat as ->; [|reflexivity].
destruct k as [|[|[|k]]]; unfold nextp in *; simpl in K1; try lra; [reflexivity|].
exfalso; apply (K2 2%nat); [lia|]; simpl; lra.
Qed.
