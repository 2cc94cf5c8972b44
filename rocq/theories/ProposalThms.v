(** C129: how the Metropolis-Hastings sampler reads, uses and adapts its proposal parameters. *)
From Coq Require Import List Arith Reals Bool String Lia Lra.
From Verif Require Import ConfigModel FlModel PriorModel SmcModel ProposalModel.
Import ListNotations.
Local Open Scope R_scope.

Local Notation length := List.length.

(** the covariance matrix that an accepted initial value describes for chain c *)
Definition reading (p : arr) (c : nat) : nat -> nat -> R :=
  match shp p with
  | [_] => fun i j => if i =? j then val p [i] else 0
  | [_; _] => fun i j => val p [i; j]
  | _ => fun i j => val p [c; i; j]
  end.
Definition good (dim n : nat) (p : arr) : Prop := shp p = [dim] \/ shp p = [dim; dim] \/ shp p = [n; dim; dim].
(** an array that holds the dim x dim matrix C *)
Definition holds (dim : nat) (a : option arr) (C : nat -> nat -> R) : Prop :=
  exists A, a = Some A /\ shp A = [dim; dim] /\ forall i j, (i < dim)%nat -> (j < dim)%nat -> val A [i; j] = C i j.

(** one chain on its own: covariance, scaling factor and adaptation factor *)
Definition one := ((nat -> nat -> R) * R * option R)%type.
Definition alone (o : options) (p : arr) (c : nat) (h : one) (e : event) : one :=
  let '(C, s, f) := h in
  match e with
  | Start => (reading p c, s, f)
  | SetMode mode => (C, s, if String.eqb mode "burnin" then Some (o_burn o) else
      if String.eqb mode "sampling_adaptation" then Some (o_samp o) else f)
  | BlockRM gamma rates => (fun i j => C i j * exp (gamma * (rates c - o_target o)), s, f)
  | BlockHaario covs eps rates =>
      let s1 := s * exp (match f with Some x => x | None => 0 end * (rates c - o_target o)) in
      (fun i j => s1 * val (covs c) [i; j] + if i =? j then eps else 0, s1, f)
  end.
Definition first (o : options) (p : arr) (c : nat) : one :=
  (reading p c, match o_initial o with Some s => s | None => (238 / 100) ^ 2 / INR (o_dim o) end, None).

Section Mem.
Lemma upd_same {A} (h : nat -> A) l a : upd h l a l = a.
Proof. unfold upd; now rewrite Nat.eqb_refl. Qed.
Lemma upd_other {A} (h : nat -> A) l a k : k <> l -> upd h l a k = h k.
Proof. intro n; unfold upd; now rewrite (proj2 (Nat.eqb_neq _ _) n). Qed.

Lemma new_list_spec vs : forall m ls m', new_list vs m = (ls, m') ->
  ls = seq (next m) (length vs) /\ next m' = (next m + length vs)%nat /\
  (forall l, (l < next m)%nat -> cells m' l = cells m l) /\
  (forall i v, nth_error vs i = Some v -> cells m' (next m + i) = v).
Proof.
induction vs as [|v vs IH]; intros m ls m' E; simpl in E.
- injection E as <- <-; repeat split; simpl; auto; intros [|i] w H; discriminate.
- destruct (new_list vs _) as [ls1 m1] eqn:E1; injection E as <- <-.
  apply IH in E1; simpl in E1; destruct E1 as [-> [N [O V]]]; repeat split.
  + rewrite N; simpl; lia.
  + intros l Hl; rewrite O by lia; apply upd_other; lia.
  + intros [|i] w H; simpl in H.
    * injection H as <-; rewrite Nat.add_0_r, O by lia; apply upd_same.
    * replace (next m + S i)%nat with (S (next m) + i)%nat by lia; now apply V.
Qed.

Lemma rm_loop_spec o g rates ps : forall c m, NoDup ps ->
  next (rm_loop o g rates c ps m) = next m /\
  (forall l, ~ In l ps -> cells (rm_loop o g rates c ps m) l = cells m l) /\
  (forall i l, nth_error ps i = Some l ->
     cells (rm_loop o g rates c ps m) l = scale (exp (g * (rates (c + i)%nat - o_target o))) (cells m l)).
Proof.
induction ps as [|p ps IH]; intros c m ND; simpl.
- repeat split; auto; intros [|i] l H; discriminate.
- inversion ND as [|? ? np ND']; subst.
  match goal with |- next (rm_loop _ _ _ _ _ ?m1) = _ /\ _ => destruct (IH (S c) m1 ND') as [N [O V]] end.
  repeat split.
  + rewrite N; reflexivity.
  + intros l Hl; rewrite O by tauto; simpl; apply upd_other; intros ->; apply Hl; now left.
  + intros [|i] l H; simpl in H.
    * injection H as <-; rewrite O by exact np; simpl; rewrite upd_same, Nat.add_0_r; reflexivity.
    * rewrite (V i l H); simpl; rewrite upd_other, <- Nat.add_succ_comm; [reflexivity|].
      intros ->; apply np; eapply nth_error_In; eauto.
Qed.

Lemma ha_loop_spec o f covs eps rates fs : forall c m fs' ls m', ha_loop o f covs eps rates c fs m = (fs', ls, m') ->
  ls = seq (next m) (length fs) /\ length fs' = length fs /\ next m' = (next m + length fs)%nat /\
  (forall l, (l < next m)%nat -> cells m' l = cells m l) /\
  (forall i s, nth_error fs i = Some s -> let s1 := s * exp (f * (rates (c + i)%nat - o_target o)) in
     nth_error fs' i = Some s1 /\ cells m' (next m + i) = haario_cov (o_dim o) s1 eps (covs (c + i)%nat)).
Proof.
induction fs as [|s fs IH]; intros c m fs' ls m' E; simpl in E.
- injection E as <- <- <-; repeat split; simpl; auto; destruct i; discriminate.
- destruct (ha_loop _ _ _ _ _ _ fs _) as [[ss ls1] m1] eqn:E1; injection E as <- <- <-.
  apply IH in E1; simpl in E1; destruct E1 as [-> [L [N [O V]]]]; repeat split; try (simpl; lia).
  + intros l Hl; rewrite O by lia; apply upd_other; lia.
  + destruct i as [|i]; simpl in H.
    * injection H as <-; now rewrite Nat.add_0_r.
    * rewrite <- Nat.add_succ_comm; now apply (V i s0 H).
  + destruct i as [|i]; simpl in H.
    * injection H as <-; rewrite !Nat.add_0_r, O by lia; apply upd_same.
    * replace (next m + S i)%nat with (S (next m) + i)%nat by lia; rewrite <- (Nat.add_succ_comm c i); now apply (V i s0 H).
Qed.
End Mem.

Section Hist.
Variables (o : options) (p : arr).
Local Notation dim := (o_dim o).
Local Notation n := (o_chains o).
Hypothesis gp : good dim n p.

Definition stores (a : arr) (C : nat -> nat -> R) : Prop :=
  (shp a = [dim] /\ forall i j, (i < dim)%nat -> (j < dim)%nat -> (if i =? j then val a [i] else 0) = C i j) \/
  (shp a = [dim; dim] /\ forall i j, (i < dim)%nat -> (j < dim)%nat -> val a [i; j] = C i j).

Lemma stores_holds b a C : stores a C -> holds dim (get_cov b dim a) C.
Proof.
intro H; destruct (isscalar b a) eqn:I; unfold get_cov; rewrite I.
- assert (dim = 1)%nat as D.
  { destruct b; [discriminate|]; simpl in I; apply Nat.eqb_eq in I; unfold n_elem in I.
    destruct H as [[E _]|[E _]]; rewrite E in I; simpl in I; nia. }
  eexists; split; [reflexivity|]; split; [reflexivity|]; intros i j Hi Hj.
  assert (i = 0 /\ j = 0)%nat as [-> ->] by lia; simpl.
  destruct H as [[E H]|[E H]]; rewrite E; simpl; rewrite <- (H 0%nat 0%nat) by lia; reflexivity.
- destruct H as [[E H]|[E H]]; rewrite E; eexists; split; try reflexivity; simpl; rewrite ?E; simpl; split; auto.
Qed.

Definition inv (n0 : nat) (s : sampler) (H : nat -> one) : Prop :=
  (n0 <= next (memory s))%nat /\ NoDup (params s) /\ (forall l, In l (params s) -> (n0 <= l < next (memory s))%nat) /\
  (forall c, (c < n)%nat -> exists l, nth_error (params s) c = Some l /\ stores (cells (memory s) l) (fst (fst (H c)))) /\
  length (factors s) = n /\ (forall c, (c < n)%nat -> nth_error (factors s) c = Some (snd (fst (H c))) /\ haf s = snd (H c)).

Lemma init_ok m p0 : cells m p0 = p -> exists ps m', init_params dim n p0 m = Some (ps, m') /\
  ps = seq (next m) n /\ next m' = (next m + n)%nat /\ (forall l, (l < next m)%nat -> cells m' l = cells m l) /\
  (forall c, (c < n)%nat -> stores (cells m' (next m + c)) (reading p c)).
Proof.
intro E; unfold init_params; rewrite E.
assert (forall vs, length vs = n -> (forall c v, nth_error vs c = Some v -> stores v (reading p c)) ->
  exists ps m', Some (new_list vs m) = Some (ps, m') /\
  ps = seq (next m) n /\ next m' = (next m + n)%nat /\ (forall l, (l < next m)%nat -> cells m' l = cells m l) /\
  (forall c, (c < n)%nat -> stores (cells m' (next m + c)) (reading p c))) as G.
{ intros vs L V; destruct (new_list vs m) as [ps m'] eqn:N; exists ps, m'; split; [reflexivity|].
  apply new_list_spec in N; rewrite L in N; destruct N as [-> [N [O S]]]; repeat split; auto.
  intros c Hc; destruct (nth_error vs c) as [v|] eqn:X.
  - rewrite (S c v X); now apply V.
  - apply nth_error_None in X; lia. }
destruct gp as [S|[S|S]]; rewrite S, ?Nat.eqb_refl; simpl; apply G; rewrite ?repeat_length, ?map_length, ?seq_length; auto.
- intros c v H; apply nth_error_In, repeat_spec in H; subst v; left; unfold reading; rewrite S; auto.
- intros c v H; apply nth_error_In, repeat_spec in H; subst v; right; unfold reading; rewrite S; auto.
- intros c v H; right.
  assert (c < n)%nat as Hc.
  { rewrite <- (seq_length n 0), <- (map_length (fun i => slice0 i p)); apply nth_error_Some; congruence. }
  rewrite nth_error_map, (nth_error_nth' _ 0%nat) in H by (rewrite seq_length; lia); rewrite seq_nth in H by lia; simpl in H.
  injection H as <-; simpl; unfold reading; rewrite S; simpl; auto.
Qed.

Lemma nth_seq a k c : (c < k)%nat -> nth_error (seq a k) c = Some (a + c)%nat.
Proof. intro H; rewrite (nth_error_nth' _ 0%nat) by (rewrite seq_length; lia); now rewrite seq_nth by lia. Qed.

Lemma step_inv n0 s H e s' : (o_param o < n0)%nat -> cells (memory s) (o_param o) = p -> inv n0 s H ->
  (forall covs eps rates, e = BlockHaario covs eps rates -> forall c, shp (covs c) = [dim; dim]) ->
  step o s e = Some s' ->
  cells (memory s') (o_param o) = p /\ inv n0 s' (fun c => alone o p c (H c) e).
Proof.
intros LP E (I1 & I2 & I3 & I4 & I5 & I6) CV ST.
destruct e as [|mode|g rates|covs eps rates]; simpl in ST.
- destruct (init_ok _ _ E) as (ps & m' & EI & -> & N & O & S); rewrite EI in ST; injection ST as <-.
  split; [simpl; rewrite O; auto; lia|].
  split; [simpl; lia|]; split; [apply seq_NoDup|]; split; [intros l Hl; apply in_seq in Hl; simpl; lia|]; split.
  + intros c Hc; exists (next (memory s) + c)%nat; simpl; split; [now apply nth_seq|].
    destruct (H c) as [[C s0] f]; simpl; now apply S.
  + split; [exact I5|]; intros c Hc; specialize (I6 c Hc); destruct (H c) as [[C s0] f]; exact I6.
- injection ST as <-; split; [exact E|]; repeat split; simpl; auto; try apply I3; auto.
  + intros c Hc; specialize (I4 c Hc); destruct (H c) as [[C s0] f]; exact I4.
  + specialize (I6 c H0); destruct (H c) as [[C s0] f]; apply I6.
  + specialize (I6 c H0); destruct (H c) as [[C s0] f]; simpl in *; destruct I6 as [_ <-]; reflexivity.
- injection ST as <-.
  destruct (rm_loop_spec o g rates (params s) 0 (memory s) I2) as [N [O V]].
  split; [simpl; rewrite O; auto; intro X; apply I3 in X; lia|].
  split; [simpl; lia|]; split; [exact I2|]; split; [intros l Hl; simpl; rewrite N; auto|]; split.
  + intros c Hc; destruct (I4 c Hc) as (l & El & Sl); exists l; split; [exact El|]; simpl.
    rewrite (V c l El); destruct (H c) as [[C s0] f]; simpl in *.
    destruct Sl as [[S1 S2]|[S1 S2]]; [left|right]; split; auto; intros i j Hi Hj; simpl; rewrite <- (S2 i j Hi Hj); auto.
    destruct (i =? j); [reflexivity | ring].
  + split; [exact I5|]; intros c Hc; specialize (I6 c Hc); destruct (H c) as [[C s0] f]; exact I6.
- destruct (haf s) as [f|] eqn:F; [|discriminate].
  destruct (ha_loop _ _ _ _ _ _ _ _) as [[fs ps] m'] eqn:L; injection ST as <-.
  apply ha_loop_spec in L; destruct L as (-> & L & N & O & V).
  split; [simpl; rewrite O; auto; lia|]; rewrite I5 in *.
  split; [simpl; lia|]; split; [apply seq_NoDup|]; split; [intros l Hl; apply in_seq in Hl; simpl; lia|]; split.
  + intros c Hc; exists (next (memory s) + c)%nat; simpl; split; [now apply nth_seq|].
    destruct (I6 c Hc) as [Fc Hf]; destruct (V c _ Fc) as [_ ->]; destruct (H c) as [[C s0] f0]; simpl in *; subst f0.
    right; split; [apply (CV covs eps rates eq_refl)|]; reflexivity.
  + split; [exact L|]; intros c Hc; destruct (I6 c Hc) as [Fc Hf]; cbn [factors haf]; destruct (V c _ Fc) as [-> _].
    destruct (H c) as [[C s0] f0]; simpl in *; subst f0; auto.
Qed.
End Hist.

Definition sized (o : options) (e : event) : Prop :=
  match e with BlockHaario covs _ _ => forall c, shp (covs c) = [o_dim o; o_dim o] | _ => True end.

Lemma run_inv o n0 es : forall s H s', good (o_dim o) (o_chains o) (cells (memory s) (o_param o)) -> (o_param o < n0)%nat ->
  inv o n0 s H -> Forall (sized o) es -> run o s es = Some s' ->
  cells (memory s') (o_param o) = cells (memory s) (o_param o) /\
  inv o n0 s' (fun c => fold_left (alone o (cells (memory s) (o_param o)) c) es (H c)).
Proof.
induction es as [|e es IH]; intros s H s' G LP I SZ E; simpl in E.
- injection E as <-; auto.
- destruct (step o s e) as [s1|] eqn:S; [|discriminate]; inversion SZ as [|? ? Z1 Z2]; subst.
  destruct (step_inv o _ G n0 s H e s1 LP eq_refl I) as [C1 I1]; auto.
  { intros covs eps rates -> c; apply Z1. }
  rewrite <- C1 in *; exact (IH s1 _ s' G LP I1 Z2 E).
Qed.

(** Every history of a sampler: each chain has the covariance that it would have alone, and the array given by the user
    is not modified. *)
Theorem C129_history b o m es s' : let p := cells m (o_param o) in
  (o_param o < next m)%nat -> good (o_dim o) (o_chains o) p -> Forall (sized o) es ->
  run o (create o m) (Start :: es) = Some s' ->
  cells (memory s') (o_param o) = p /\
  forall c, (c < o_chains o)%nat -> let h := fold_left (alone o p c) es (first o p c) in
    holds (o_dim o) (chain_cov b o s' c) (fst (fst h)) /\ nth_error (factors s') c = Some (snd (fst h)).
Proof.
intros p LP G SZ E; simpl in E.
destruct (init_ok o p G m (o_param o) eq_refl) as (ps & m' & EI & -> & N & O & S); rewrite EI in E.
set (s1 := Sampler m' _ _ _) in E.
assert (cells (memory s1) (o_param o) = p) as C1 by (apply O; exact LP).
assert (inv o (next m) s1 (first o p)) as I1.
{ split; [simpl; lia|]; split; [apply seq_NoDup|]; split; [intros l Hl; apply in_seq in Hl; simpl; lia|]; split.
  - intros c Hc; exists (next m + c)%nat; split; [now apply nth_seq | now apply S].
  - split; [apply repeat_length|]; intros c Hc; split; [|reflexivity]; apply nth_error_repeat; exact Hc. }
rewrite <- C1 in *; destruct (run_inv o (next m) es s1 _ s' G LP I1 SZ E) as [C2 (_ & _ & _ & I4 & _ & I6)]; split; [exact C2|].
intros c Hc h; split.
- destruct (I4 c Hc) as (l & El & Sl); unfold chain_cov; rewrite El; now apply stores_holds.
- apply (I6 c Hc).
Qed.

(** An accepted initial value never makes a later block fail, once a mode with an adaptation factor is set. *)
Theorem C129_runs o m es : let p := cells m (o_param o) in
  (o_param o < next m)%nat -> good (o_dim o) (o_chains o) p -> Forall (sized o) es ->
  exists s', run o (create o m) (Start :: SetMode "burnin" :: es) = Some s'.
Proof.
intros p LP G SZ; cbn [run step].
destruct (init_ok o p G m (o_param o) eq_refl) as (ps & m' & EI & -> & N & O & S); cbn [memory create]; rewrite EI; cbn [run step].
change (String.eqb "burnin" "burnin") with true; cbv iota; cbn [memory params factors]; set (s1 := Sampler m' _ _ (Some (o_burn o))).
assert (cells (memory s1) (o_param o) = p) as C1 by (apply O; exact LP).
assert (inv o (next m) s1 (fun c => alone o p c (first o p c) (SetMode "burnin"))) as I1.
{ split; [simpl; lia|]; split; [apply seq_NoDup|]; split; [intros l Hl; apply in_seq in Hl; simpl; lia|]; split.
  - intros c Hc; exists (next m + c)%nat; split; [now apply nth_seq | now apply S].
  - split; [apply repeat_length|]; intros c Hc; split; [|reflexivity]; apply nth_error_repeat; exact Hc. }
assert (haf s1 <> None) as F1 by discriminate.
generalize dependent s1; intro s1; generalize (fun c => alone o p c (first o p c) (SetMode "burnin")); revert s1.
induction es as [|e es IH]; intros s H C I F; [now exists s|]; inversion SZ as [|? ? Z1 Z2]; subst; cbn [run].
destruct (step o s e) as [s1|] eqn:E.
- assert (haf s1 <> None) as F1.
  { destruct e; simpl in E.
    - destruct (init_params (o_dim o) (o_chains o) (o_param o) (memory s)) as [[ps0 m0]|]; [|discriminate]; injection E as <-; exact F.
    - injection E as <-; simpl; destruct (String.eqb mode "burnin"); [discriminate|]; destruct (String.eqb _ _); [discriminate | exact F].
    - injection E as <-; exact F.
    - destruct (haf s) as [f0|] eqn:X; [|easy]; destruct (ha_loop o f0 covs eps rates 0 (factors s) (memory s)) as [[? ?] ?]; injection E as <-; discriminate. }
  destruct (step_inv o p G (next m) s H e s1 LP C I) as [C1 I1]; auto.
  { intros covs eps rates -> c; apply Z1. }
  exact (IH Z2 s1 _ C1 I1 F1).
- exfalso; destruct e; simpl in E; try discriminate.
  + destruct (init_ok o p G (memory s) (o_param o) C) as (ps & m2 & E2 & _); rewrite E2 in E; discriminate.
  + destruct (haf s) as [f0|]; [|easy]; destruct (ha_loop o f0 covs eps rates 0 (factors s) (memory s)) as [[? ?] ?]; discriminate.
Qed.

(** Robbins-Monro blocks multiply the covariance of a chain by one positive number, which depends on this chain only. *)
Definition rm_event (gr : R * (nat -> R)) : event := BlockRM (fst gr) (snd gr).
Theorem C129_robbins_monro b o m (bl : list (R * (nat -> R))) : let p := cells m (o_param o) in
  (o_param o < next m)%nat -> good (o_dim o) (o_chains o) p ->
  exists s', run o (create o m) (Start :: map rm_event bl) = Some s' /\
    forall c, (c < o_chains o)%nat -> holds (o_dim o) (chain_cov b o s' c)
      (fun i j => reading p c i j * exp (fold_right Rplus 0 (map (fun gr => fst gr * (snd gr c - o_target o)) bl))).
Proof.
intros p LP G.
assert (exists s', run o (create o m) (Start :: map rm_event bl) = Some s') as [s' E].
{ assert (forall s, exists s', run o s (map rm_event bl) = Some s') as X by (clear; induction bl as [|gr bl IH]; intro s; simpl; eauto).
  simpl; destruct (init_ok o p G m (o_param o) eq_refl) as (ps & m' & -> & _); apply X. }
exists s'; split; [exact E|]; intros c Hc.
assert (Forall (sized o) (map rm_event bl)) as SZ by (apply Forall_forall; intros e X; apply in_map_iff in X; destruct X as (gr & <- & _); exact I).
destruct (C129_history b o m _ s' LP G SZ E) as [_ H]; destruct (H c Hc) as [(A & EA & SA & VA) _]; exists A; split; [exact EA|].
split; [exact SA|]; intros i j Hi Hj; rewrite (VA i j Hi Hj); unfold first; fold p; clear.
generalize (match o_initial o with Some s => s | None => (238 / 100) ^ 2 / INR (o_dim o) end) (@None R) (reading p c); intros s f.
induction bl as [|gr bl IH]; intro C; simpl.
- rewrite exp_0; ring.
- rewrite IH, exp_plus; ring.
Qed.

(** Haario blocks: only the last block and the accumulated scaling factor matter; starting the sampler again resets the
    covariances but not the scaling factors. *)
Theorem C129_haario b o m es covs eps rates s' : let p := cells m (o_param o) in
  (o_param o < next m)%nat -> good (o_dim o) (o_chains o) p -> Forall (sized o) es -> sized o (BlockHaario covs eps rates) ->
  run o (create o m) (Start :: es ++ [BlockHaario covs eps rates]) = Some s' ->
  exists s f, run o (create o m) (Start :: es) = Some s /\ haf s = Some f /\ forall c, (c < o_chains o)%nat ->
    exists s0, nth_error (factors s) c = Some s0 /\
      holds (o_dim o) (chain_cov b o s' c) (fun i j =>
        s0 * exp (f * (rates c - o_target o)) * val (covs c) [i; j] + if i =? j then eps else 0).
Proof.
intros p LP G SZ S1 E.
assert (forall o s es1 es2 s', run o s (es1 ++ es2) = Some s' -> exists s1, run o s es1 = Some s1 /\ run o s1 es2 = Some s') as RA.
{ clear; intros o s es1; revert s; induction es1 as [|e es1 IH]; intros s es2 s' E; simpl in *; eauto.
  destruct (step o s e); [now apply IH | discriminate]. }
rewrite app_comm_cons in E; destruct (RA _ _ _ _ _ E) as (s & Es & E2).
simpl in E2; destruct (haf s) as [f|] eqn:F; [|discriminate].
exists s, f; split; [exact Es|]; split; [exact F|]; intros c Hc.
assert (Forall (sized o) (es ++ [BlockHaario covs eps rates])) as SZ' by (apply Forall_app; auto).
destruct (C129_history b o m _ s' LP G SZ' E) as [_ H]; destruct (H c Hc) as [(A & EA & SA & VA) _].
destruct (C129_history b o m _ s LP G SZ Es) as [_ H2]; destruct (H2 c Hc) as [_ F2].
eexists; split; [exact F2|]; exists A; split; [exact EA|]; split; [exact SA|]; intros i j Hi Hj.
rewrite (VA i j Hi Hj), fold_left_app; simpl.
assert (snd (fold_left (alone o p c) es (first o p c)) = Some f) as Ef.
{ destruct (init_ok o p G m (o_param o) eq_refl) as (ps & m' & EI & EP & N & O & S); simpl in Es; rewrite EI in Es.
  set (s1 := Sampler m' _ _ _) in Es.
  assert (cells (memory s1) (o_param o) = p) as C1 by (apply O; exact LP).
  assert (inv o (next m) s1 (first o p)) as I1.
  { subst ps; split; [simpl; lia|]; split; [apply seq_NoDup|]; split; [intros l Hl; apply in_seq in Hl; simpl; lia|]; split.
    - intros c' Hc'; exists (next m + c')%nat; split; [now apply nth_seq | now apply S].
    - split; [apply repeat_length|]; intros c' Hc'; split; [|reflexivity]; apply nth_error_repeat; exact Hc'. }
  rewrite <- C1 in *; destruct (run_inv o (next m) es s1 _ s G LP I1 SZ Es) as [_ (_ & _ & _ & _ & _ & I6)].
  rewrite <- (proj2 (I6 c Hc)); exact F. }
fold p; destruct (fold_left (alone o p c) es (first o p c)) as [[C s0] f0]; simpl in *; subst f0; reflexivity.
Qed.

Theorem C129_restart b o m es s' : let p := cells m (o_param o) in
  (o_param o < next m)%nat -> good (o_dim o) (o_chains o) p -> Forall (sized o) es ->
  run o (create o m) (Start :: es ++ [Start]) = Some s' ->
  exists s, run o (create o m) (Start :: es) = Some s /\ factors s' = factors s /\ haf s' = haf s /\
    forall c, (c < o_chains o)%nat -> holds (o_dim o) (chain_cov b o s' c) (reading p c).
Proof.
intros p LP G SZ E.
assert (forall o s es1 es2 s', run o s (es1 ++ es2) = Some s' -> exists s1, run o s es1 = Some s1 /\ run o s1 es2 = Some s') as RA.
{ clear; intros o s es1; revert s; induction es1 as [|e es1 IH]; intros s es2 s' E; simpl in *; eauto.
  destruct (step o s e); [now apply IH | discriminate]. }
rewrite app_comm_cons in E; destruct (RA _ _ _ _ _ E) as (s & Es & E2); exists s; split; [exact Es|].
simpl in E2; destruct (init_params _ _ _ _) as [[ps m2]|]; [|discriminate]; injection E2 as E2.
split; [now rewrite <- E2|]; split; [now rewrite <- E2|]; intros c Hc.
assert (Forall (sized o) (es ++ [Start])) as SZ' by (apply Forall_app; split; auto; constructor; simpl; auto).
destruct (C129_history b o m _ s' LP G SZ' E) as [_ H]; destruct (H c Hc) as [(A & EA & SA & VA) _].
exists A; split; [exact EA|]; split; [exact SA|]; intros i j Hi Hj; rewrite (VA i j Hi Hj), fold_left_app; simpl; fold p.
destruct (fold_left (alone o p c) es (first o p c)) as [[C s0] f0]; reflexivity.
Qed.

(** Which initial values are accepted. *)
Theorem C129_accepted dim n p0 m : (exists r, init_params dim n p0 m = Some r) <->
  shp (cells m p0) = [dim] \/ shp (cells m p0) = [dim; dim] \/ exists a b, shp (cells m p0) = [n; a; b].
Proof.
unfold init_params; destruct (shp (cells m p0)) as [|a [|b [|c [|d l]]]]; split.
1, 9: now intros [r E].
1, 8: now intros [E|[E|(? & ? & E)]].
- destruct (Nat.eqb_spec a dim) as [->|]; [now left | now intros [r E]].
- intros [E|[E|(? & ? & E)]]; try discriminate; injection E as ->; rewrite Nat.eqb_refl; eauto.
- destruct (Nat.eqb_spec a dim) as [->|]; simpl; [|now intros [r E]].
  destruct (Nat.eqb_spec b dim) as [->|]; [auto | now intros [r E]].
- intros [E|[E|(? & ? & E)]]; try discriminate; injection E as -> ->; rewrite Nat.eqb_refl; simpl; eauto.
- destruct (Nat.eqb_spec a n) as [->|]; [eauto | now intros [r E]].
- intros [E|[E|(? & ? & E)]]; try discriminate; injection E as -> -> ->; rewrite Nat.eqb_refl; eauto.
Qed.

(** One row of variances per chain is not an accepted format; with as many chains as dimensions it is taken for one
    covariance matrix, the same for every chain. *)
Theorem C129_rows b o m : let p := cells m (o_param o) in shp p = [o_chains o; o_dim o] -> (o_param o < next m)%nat ->
  (o_chains o <> o_dim o -> run o (create o m) [Start] = None) /\
  (o_chains o = o_dim o -> exists s, run o (create o m) [Start] = Some s /\
    forall c, (c < o_chains o)%nat -> holds (o_dim o) (chain_cov b o s c) (fun i j => val p [i; j])).
Proof.
intros p S LP; split; intro ne.
- simpl; destruct (init_params _ _ _ _) as [r|] eqn:E; [exfalso|reflexivity].
  assert (exists r, init_params (o_dim o) (o_chains o) (o_param o) m = Some r) as X by eauto.
  apply C129_accepted in X; fold p in X; rewrite S in X; destruct X as [X|[X|(? & ? & X)]]; congruence.
- assert (good (o_dim o) (o_chains o) p) as G by (right; left; congruence).
  destruct (C129_robbins_monro b o m [] LP G) as (s & E & H); exists s; split; [exact E|]; intros c Hc.
  destruct (H c Hc) as (A & EA & SA & VA); exists A; split; [exact EA|]; split; [exact SA|]; intros i j Hi Hj.
  rewrite (VA i j Hi Hj); unfold reading; fold p; rewrite S; simpl; rewrite exp_0; ring.
Qed.

(** A stack of matrices is accepted whatever their size: 1 x 1 matrices are used as they are with NumPy, and are
    multiples of the identity with Torch. *)
Theorem C129_stack o m v : let p := cells m (o_param o) in shp p = [o_chains o; 1; 1]%nat ->
  exists s, run o (create o m) [Start] = Some s /\ forall c, (c < o_chains o)%nat -> val p [c; 0; 0]%nat = v ->
    holds 1 (chain_cov Np o s c) (fun _ _ => v) /\
    holds (o_dim o) (chain_cov Th o s c) (fun i j => if i =? j then v else 0).
Proof.
intros p S; simpl; unfold init_params; fold p; rewrite S, Nat.eqb_refl.
destruct (new_list _ m) as [ls m'] eqn:N; apply new_list_spec in N; destruct N as (-> & _ & _ & V).
eexists; split; [reflexivity|]; intros c Hc Ev; unfold chain_cov; simpl.
rewrite map_length, seq_length, nth_seq by exact Hc.
assert (cells m' (next m + c) = slice0 c p) as ->.
{ apply V; rewrite nth_error_map, nth_seq by exact Hc; reflexivity. }
unfold get_cov, isscalar, n_elem, slice0; simpl; rewrite S; simpl; split; (eexists; split; [reflexivity|]); simpl.
- split; [reflexivity|]; intros i j Hi Hj; assert (i = 0 /\ j = 0)%nat as [-> ->] by lia; exact Ev.
- split; [reflexivity|]; intros i j Hi Hj; now rewrite Ev.
Qed.

(** The default value: unit variances. *)
Theorem C129_default dim c i j : good dim 1 (post_init dim None) /\ reading (post_init dim None) c i j = if i =? j then 1 else 0.
Proof. split; [now left | reflexivity]. Qed.

(** A vector holds variances: the covariance matrix it stands for is positive definite exactly when they are positive. *)
Definition quad (d : nat) (C : nat -> nat -> R) (u : nat -> R) : R :=
  fold_right Rplus 0 (map (fun i => fold_right Rplus 0 (map (fun j => u i * C i j * u j) (seq 0 d))) (seq 0 d)).

Lemma sum_single (f : nat -> R) i l : NoDup l ->
  fold_right Rplus 0 (map (fun j => if i =? j then f j else 0) l) = if in_dec Nat.eq_dec i l then f i else 0.
Proof.
induction l as [|a l IH]; intro ND; simpl; [reflexivity|]; inversion ND as [|? ? na ND']; subst; rewrite (IH ND').
destruct (Nat.eqb_spec i a) as [->|ne].
- destruct (Nat.eq_dec a a) as [_|]; [|easy]; destruct (in_dec _ a l); [easy|]; ring.
- destruct (Nat.eq_dec a i) as [->|]; [easy|]; destruct (in_dec _ i l); ring.
Qed.

Theorem C129_variances p d : shp p = [d] -> forall c,
  (forall u, quad d (reading p c) u = fold_right Rplus 0 (map (fun i => val p [i] * u i ^ 2) (seq 0 d))) /\
  ((forall u, (exists i, (i < d)%nat /\ u i <> 0) -> 0 < quad d (reading p c) u) <-> (forall i, (i < d)%nat -> 0 < val p [i])).
Proof.
intros S c.
assert (forall u, quad d (reading p c) u = fold_right Rplus 0 (map (fun i => val p [i] * u i ^ 2) (seq 0 d))) as Q.
{ intro u; unfold quad, reading; rewrite S; f_equal; apply map_ext_in; intros i Hi.
  rewrite (map_ext _ (fun j => if i =? j then val p [j] * u j ^ 2 else 0)).
  - rewrite sum_single by apply seq_NoDup; destruct (in_dec Nat.eq_dec i (seq 0 d)); [reflexivity | easy].
  - intro j; destruct (Nat.eqb_spec i j) as [->|]; ring. }
split; [exact Q|]; split.
- intros H i Hi; specialize (H (fun j => if i =? j then 1 else 0)); rewrite Q in H.
  rewrite (map_ext _ (fun j => if i =? j then val p [j] else 0)) in H.
  + rewrite sum_single in H by apply seq_NoDup; destruct (in_dec Nat.eq_dec i (seq 0 d)) as [_|X].
    * apply H; exists i; rewrite Nat.eqb_refl; split; [exact Hi | lra].
    * exfalso; apply X, in_seq; lia.
  + intro j; destruct (i =? j); ring.
- intros H u (i & Hi & ui); rewrite Q.
  assert (forall l, (forall j, In j l -> (j < d)%nat) -> 0 <= fold_right Rplus 0 (map (fun i => val p [i] * u i ^ 2) l) /\
     (In i l -> 0 < fold_right Rplus 0 (map (fun i => val p [i] * u i ^ 2) l))) as G.
  { induction l as [|a l IH]; intro L; simpl; [split; [lra | easy]|].
    destruct IH as [IH1 IH2]; [intros j Hj; apply L; now right|].
    simpl in IH1, IH2; assert (0 <= val p [a] * (u a * (u a * 1))) as Pa.
    { apply Rmult_le_pos; [apply Rlt_le, H, L; now left|]; rewrite Rmult_1_r; apply Rle_0_sqr. }
    split; [lra|]; intros [->|X]; [|specialize (IH2 X); lra].
    assert (0 < val p [i] * (u i * (u i * 1))) as Pi.
    { apply Rmult_lt_0_compat; [apply H; exact Hi|]; rewrite Rmult_1_r; apply Rlt_0_sqr; exact ui. }
    lra. }
  apply (G (seq 0 d)); [intros j Hj; apply in_seq in Hj; lia | apply in_seq; lia].
Qed.
Print Assumptions C129_history.
Print Assumptions C129_runs.
Print Assumptions C129_robbins_monro.
Print Assumptions C129_haario.
Print Assumptions C129_restart.
Print Assumptions C129_accepted.
Print Assumptions C129_rows.
Print Assumptions C129_stack.
Print Assumptions C129_default.
Print Assumptions C129_variances.

(** two chains in dimension 2, variances 1 and 2; the same run twice on one sampler: the second run starts from the
    scaling factor left by the first *)
Example C129_case : let o := Options 2 2 0 (3 / 10) (Some 1) 1 (1 / 2) in
  let m := Mem (fun _ => Arr [2%nat] (fun ix => match ix with [i] => INR i + 1 | _ => 0 end)) 1 in
  let es := [SetMode "burnin"; BlockHaario (fun _ => eye 1 2) 0 (fun _ => 1)] in
  (o_param o < next m)%nat /\ good 2 2 (cells m (o_param o)) /\ Forall (sized o) (es ++ Start :: es) /\
  exists s s', run o (create o m) (Start :: es) = Some s /\ run o (create o m) (Start :: es ++ Start :: es) = Some s' /\
    holds 2 (chain_cov Np o s 1) (fun i j => if i =? j then exp (7 / 10) else 0) /\
    holds 2 (chain_cov Np o s' 1) (fun i j => if i =? j then exp (14 / 10) else 0).
Proof.
intros o m es; split; [simpl; lia|]; split; [now left|]; split; [repeat constructor|].
assert (o_param o < next m)%nat as LP by (simpl; lia).
assert (good 2 2 (cells m (o_param o))) as G by now left.
assert (Forall (sized o) es) as Z1 by repeat constructor.
assert (Forall (sized o) (es ++ Start :: es)) as Z2 by repeat constructor.
destruct (C129_runs o m (tl es) LP G ltac:(repeat constructor)) as [s E].
destruct (C129_runs o m (tl es ++ Start :: es) LP G ltac:(repeat constructor)) as [s' E'].
exists s, s'; split; [exact E|]; split; [exact E'|].
destruct (C129_history Np o m es s LP G Z1 E) as [_ H]; destruct (H 1%nat (le_n 2)) as [(A & EA & SA & VA) _].
destruct (C129_history Np o m _ s' LP G Z2 E') as [_ H']; destruct (H' 1%nat (le_n 2)) as [(A' & EA' & SA' & VA') _].
split; [exists A; split; [exact EA|]; split; [exact SA|] | exists A'; split; [exact EA'|]; split; [exact SA'|]];
  intros i j Hi Hj; [rewrite (VA i j Hi Hj) | rewrite (VA' i j Hi Hj)]; simpl; destruct (i =? j); try ring.
- replace (1 * (1 - 3 / 10)) with (7 / 10) by field; ring.
- replace (14 / 10) with (1 * (1 - 3 / 10) + 1 * (1 - 3 / 10)) by field; rewrite exp_plus; ring.
Qed.
