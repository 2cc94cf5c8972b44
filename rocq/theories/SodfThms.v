(** Property C141: the object that computes second derivatives answers about the last point only. *)
From Coq Require Import List Arith Reals Bool Lia Lra.
From Verif Require Import SodfModel.
Import ListNotations.
Local Open Scope R_scope.

Definition is_eval (c : call) : bool := match c with Evaluate _ => true | _ => false end.
Definition is_grad (c : call) : bool := match c with Gradient => true | _ => false end.
Definition no_eval (l : list call) : Prop := forall c, In c l -> is_eval c = false.

Section S.
Variables (f : list R -> out) (uses : list R -> bool) (gr : list R -> list R) (hs : list R -> nat -> option (list R)).
Let step := step f uses gr hs.
Let run := run f uses gr hs.
Let reply := reply f uses gr hs.
Definition known (x : list R) : bool := match f x with Tensor _ one _ => one && uses x | Fails => false end.

Definition older (o : option nat) (k : nat) : Prop := match o with Some i => (i < k)%nat | None => True end.
Definition inv (s : st) : Prop :=
  older (option_map (fun p => fst (fst p)) (sy s)) (fresh s) /\ older (option_map fst (sg s)) (fresh s) /\ older (option_map fst (sx s)) (fresh s).
Lemma hess_same s : snd (step Hessian s) = s.
Proof.
  unfold step. cbn [SodfModel.step]. destruct (sg s) as [[i q] |]; [| reflexivity]. destruct (sx s) as [[j [| r0 r]] |]; [reflexivity | | reflexivity].
  destruct (Nat.eqb i j); [| reflexivity]. destruct (rows hs q _); reflexivity.
Qed.
Lemma step_inv c s : inv s -> inv (snd (step c s)).
Proof.
  unfold inv, step, SodfModel.step. destruct s as [x y g k]; simpl. intros [h1 [h2 h3]]. destruct c as [p | |]; simpl.
  - destruct (f p); simpl; repeat split; try lia; (destruct y as [[[i ?] ?] |] || idtac); (destruct g as [[j ?] |] || idtac); simpl in *; auto; lia.
  - destruct y as [[[i q] [| d o v]] |]; simpl in *; auto. destruct x as [[j r] |]; simpl in *; auto.
    destruct (o && Nat.eqb i j && uses q); simpl; auto.
  - change (inv (snd (step Hessian (St x y g k)))). rewrite hess_same. repeat split; assumption.
Qed.
Lemma run_inv l : forall s, inv s -> inv (run l s).
Proof. induction l as [| c l ih]; simpl; intros s h; [exact h |]. apply ih. now apply step_inv. Qed.
Lemma run_app l1 : forall l2 s, run (l1 ++ l2) s = run l2 (run l1 s).
Proof. induction l1 as [| c l1 ih]; simpl; intros l2 s; [reflexivity |]. apply ih. Qed.

(** the state after Evaluate x and further calls that do not evaluate *)
Definition at_point (x : list R) (graded : bool) (s : st) : Prop :=
  exists k, sx s = Some (k, x) /\
  (if known x then exists d y, sy s = Some (k, x, Tensor d true y)
   else match sy s with Some (i, z, Tensor _ one _) => i <> k \/ (z = x /\ one && uses x = false) | _ => True end) /\
  (if graded && known x then sg s = Some (k, x) else match sg s with Some (i, _) => i <> k | None => True end).
Lemma at_eval x s : inv s -> at_point x false (snd (step (Evaluate x) s)).
Proof.
  intros [h1 [h2 h3]]. unfold step, at_point, known. simpl. destruct (f x) as [| d o y] eqn:F; simpl; exists (fresh s); (split; [reflexivity |]).
  - split; [destruct (sy s) as [[[i z] [| d o y]] |]; auto; left; simpl in h1; lia |]. destruct (sg s) as [[i z] |]; auto. simpl in h2. lia.
  - split; [| destruct (sg s) as [[i z] |]; auto; simpl in h2; lia]. destruct (o && uses x) eqn:O; [apply andb_prop in O; destruct O as [-> _]; now exists d, y |].
    right. auto.
Qed.
Lemma at_step x g c s : is_eval c = false -> x <> [] -> at_point x g s -> at_point x (g || is_grad c) (snd (step c s)).
Proof.
  intros hc ne [k [h1 [h2 h3]]]. unfold at_point. destruct c as [p | |]; [discriminate | unfold step; simpl |].
  - rewrite orb_true_r. simpl. rewrite h1. destruct (known x) eqn:K.
    + destruct h2 as [d [y h2]]. rewrite h2. rewrite Nat.eqb_refl. assert (u : uses x = true) by (unfold known in K; destruct (f x); [discriminate |]; apply andb_prop in K; tauto).
      rewrite u. simpl. exists k. split; [reflexivity |]. split; [now exists d, y | reflexivity].
    + rewrite andb_false_r in h3.
      assert (E : (match sy s with Some (k0, x0, Tensor _ one _) => if one && Nat.eqb k0 k && uses x0 then (Vector (gr x0), St (Some (k, x)) (sy s) (Some (k0, x0)) (fresh s)) else (ErrRuntime, s) | _ => (ErrRuntime, s) end) = (ErrRuntime, s)).
      { destruct (sy s) as [[[i z] [| d o y]] |]; auto. destruct h2 as [h2 | [-> h2]].
        - apply Nat.eqb_neq in h2. rewrite h2, andb_false_r. reflexivity.
        - destruct o, (uses x); try discriminate h2; rewrite ?andb_false_r; reflexivity. }
      destruct (sy s) as [[[i z] [| d o y]] |] eqn:Y; rewrite ?E; simpl; exists k; rewrite ?Y; auto.
  - rewrite orb_false_r. rewrite hess_same. exists k. auto.
Qed.
Lemma at_run x l : x <> [] -> no_eval l -> forall g s, at_point x g s -> at_point x (g || existsb is_grad l) (run l s).
Proof.
  intro ne. induction l as [| c l ih]; intros hl g s h; simpl; [now rewrite orb_false_r |].
  rewrite orb_assoc. apply ih; [intros c' hc'; apply hl; now right |]. apply at_step; [apply hl; now left | exact ne | exact h].
Qed.

(** whatever was called before, the answers concern the point of the last call of evaluate *)
Theorem C141_calls : forall before x after, x <> [] -> no_eval after ->
  let past := before ++ Evaluate x :: after in
  reply past Gradient = (if known x then Vector (gr x) else ErrRuntime) /\
  reply past Hessian = (if known x && existsb is_grad after
    then match rows hs x (seq 0 (length x)) with Some m => Matrix (symmetrised (length x) m) | None => ErrRuntime end
    else ErrRuntime) /\
  (forall past' z, reply past' (Evaluate z) = match f z with Fails => ErrUser | Tensor d _ y => if d then Number y else ErrValue end) /\
  reply after Gradient = ErrRuntime /\ reply after Hessian = ErrRuntime.
Proof.
  intros before x after ne na past.
  assert (P : at_point x (existsb is_grad after) (run past init)).
  { unfold past. rewrite run_app. simpl. apply (at_run x after ne na false). apply at_eval. apply run_inv. repeat split. }
  destruct P as [k [h1 [h2 h3]]]. unfold reply, SodfModel.reply. fold run. cbn [SodfModel.step].
  split; [| split; [| split]].
  - rewrite h1. destruct (known x) eqn:K.
    + destruct h2 as [d [y ->]]. rewrite Nat.eqb_refl. assert (u : uses x = true) by (unfold known in K; destruct (f x); [discriminate |]; apply andb_prop in K; tauto).
      rewrite u. reflexivity.
    + destruct (sy (run past init)) as [[[i z] [| d o y]] |]; auto. destruct h2 as [h2 | [-> h2]].
      * apply Nat.eqb_neq in h2. rewrite h2, andb_false_r. reflexivity.
      * destruct o, (uses x); try discriminate h2; rewrite ?andb_false_r; reflexivity.
  - rewrite h1. rewrite andb_comm in h3. destruct (known x && existsb is_grad after) eqn:K.
    + rewrite h3. destruct x as [| a x]; [easy |]. rewrite Nat.eqb_refl. destruct (rows hs _ _); reflexivity.
    + destruct (sg (run past init)) as [[i z] |]; auto. destruct x as [| a x]; [easy |]. apply Nat.eqb_neq in h3. rewrite h3. reflexivity.
  - intros past' z. destruct (f z); reflexivity.
  - assert (Q : forall l s, no_eval l -> sx s = None -> sy s = None -> sg s = None -> sy (run l s) = None /\ sg (run l s) = None).
    { induction l as [| c l ih]; intros s hl a1 a2 a3; [auto |]. simpl. assert (E : snd (step c s) = s).
      { assert (hc := hl c (or_introl eq_refl)). destruct c; [discriminate | |]; unfold step; simpl; rewrite ?a2, ?a3; reflexivity. }
      unfold step in E. rewrite E. apply ih; auto. intros c' hc'. apply hl. now right. }
    destruct (Q after init na eq_refl eq_refl eq_refl) as [-> ->]. auto.
Qed.

(** the matrix *)
Definition entry (m : list (list R)) (i j : nat) : R := nth j (nth i m []) 0.
Lemma entry_sym n m i j : (i < n)%nat -> (j < n)%nat -> entry (symmetrised n m) i j = (entry m i j + entry m j i) / 2.
Proof.
  intros hi hj. unfold entry at 1, symmetrised. set (g := fun i0 : nat => _).
  rewrite (nth_indep _ [] (g 0%nat)) by (rewrite map_length, seq_length; exact hi). rewrite map_nth, seq_nth by exact hi. unfold g. simpl.
  set (h := fun j0 : nat => _). rewrite (nth_indep _ 0 (h 0%nat)) by (rewrite map_length, seq_length; exact hj). rewrite map_nth, seq_nth by exact hj.
  unfold h, entry. simpl. lra.
Qed.
Lemma rows_entry x l : forall m, rows hs x l = Some m -> length m = length l /\ forall k, (k < length l)%nat -> hs x (nth k l 0%nat) = Some (nth k m []).
Proof.
  induction l as [| i l ih]; simpl; intros m E; [injection E as <-; split; [reflexivity | intros; lia] |].
  destruct (hs x i) as [r |] eqn:H; [| discriminate]. destruct (rows hs x l) as [m' |]; [| discriminate]. injection E as <-.
  destruct (ih m' eq_refl) as [h1 h2]. simpl. split; [lia |]. intros [| k] hk; [exact H |]. apply h2. lia.
Qed.
Fixpoint total (n : nat) (g : nat -> R) : R := match n with O => 0 | S n => total n g + g n end.
Lemma total_ext n g h : (forall i, (i < n)%nat -> g i = h i) -> total n g = total n h.
Proof. induction n as [| n ih]; intro e; simpl; [reflexivity |]. rewrite ih by (intros; apply e; lia). rewrite e by lia. reflexivity. Qed.
Lemma total_add n g h : total n (fun i => g i + h i) = total n g + total n h.
Proof. induction n as [| n ih]; simpl; [lra |]. rewrite ih. lra. Qed.
Lemma total_scale n c g : total n (fun i => c * g i) = c * total n g.
Proof. induction n as [| n ih]; simpl; [lra |]. rewrite ih. lra. Qed.
Lemma total_swap n p g : total n (fun i => total p (fun j => g i j)) = total p (fun j => total n (fun i => g i j)).
Proof.
  induction n as [| n ih]; simpl; [induction p as [| p ihp]; simpl; [reflexivity | rewrite <- ihp; lra] |]. rewrite ih. symmetry. apply total_add.
Qed.
Definition second (x : list R) (i j : nat) : R := match hs x i with Some r => nth j r 0 | None => 0 end.
Theorem C141_matrix : forall before x after m, x <> [] -> no_eval after -> reply (before ++ Evaluate x :: after) Hessian = Matrix m ->
  let n := length x in
  length m = n /\ (forall i, (i < n)%nat -> length (nth i m []) = n /\ hs x i <> None) /\
  (forall i j, (i < n)%nat -> (j < n)%nat -> entry m i j = entry m j i /\ (second x i j = second x j i -> entry m i j = second x i j)) /\
  (forall v, total n (fun i => total n (fun j => v i * v j * entry m i j)) = total n (fun i => total n (fun j => v i * v j * second x i j))).
Proof.
  intros before x after m ne na E n. destruct (C141_calls before x after ne na) as [_ [H _]]. rewrite E in H. clear E.
  destruct (known x && existsb is_grad after); [| discriminate]. destruct (rows hs x (seq 0 (length x))) as [r |] eqn:RW; [| discriminate].
  injection H as ->. fold n. destruct (rows_entry x _ _ RW) as [_ RE]. rewrite seq_length in RE. fold n in RE.
  assert (SE : forall i j, (i < n)%nat -> entry r i j = second x i j /\ hs x i <> None).
  { intros i j hi. specialize (RE i hi). rewrite seq_nth in RE by exact hi. simpl in RE. unfold second. rewrite RE. split; [reflexivity | discriminate]. }
  assert (EN : forall i j, (i < n)%nat -> (j < n)%nat -> entry (symmetrised n r) i j = (second x i j + second x j i) / 2).
  { intros i j hi hj. rewrite entry_sym by assumption. destruct (SE i j hi) as [-> _], (SE j i hj) as [-> _]. reflexivity. }
  split; [unfold symmetrised; now rewrite map_length, seq_length |]. split.
  { intros i hi. split; [| apply (SE i 0%nat hi)]. unfold symmetrised. set (g := fun i0 : nat => _).
    rewrite (nth_indep _ [] (g 0%nat)) by (rewrite map_length, seq_length; exact hi). rewrite map_nth. unfold g. now rewrite map_length, seq_length. }
  split.
  { intros i j hi hj. rewrite !EN by assumption. split; [lra |]. intros ->. lra. }
  intro v. transitivity (total n (fun i => total n (fun j => 1 / 2 * (v i * v j * second x i j)) + total n (fun j => 1 / 2 * (v j * v i * second x j i)))).
  { apply total_ext. intros i hi. rewrite <- total_add. apply total_ext. intros j hj. rewrite EN by assumption. lra. }
  rewrite total_add. rewrite (total_swap n n (fun i j => 1 / 2 * (v j * v i * second x j i))). rewrite <- total_add. apply total_ext. intros i _.
  rewrite !total_scale. lra.
Qed.

(** fisher_information_torch: half of that matrix, or an error *)
Theorem C141_fisher : forall theta, theta <> [] ->
  fisher_torch f uses gr hs theta =
  match f theta with
  | Fails => ErrUser
  | Tensor false _ _ => ErrValue
  | Tensor true _ _ => if known theta
                       then match rows hs theta (seq 0 (length theta)) with
                            | Some m => Matrix (map (map (fun v => 1 / 2 * v)) (symmetrised (length theta) m))
                            | None => ErrRuntime
                            end
                       else ErrRuntime
  end.
Proof.
  intros theta ne. unfold fisher_torch. fold reply.
  assert (N1 : no_eval []) by (intros c []). assert (N2 : no_eval [Gradient]) by (intros c [<- | []]; reflexivity).
  destruct (C141_calls [] theta [] ne N1) as [G [_ [V _]]]. destruct (C141_calls [] theta [Gradient] ne N2) as [_ [H _]]. cbn [app] in G, H. rewrite V, G, H.
  simpl existsb. rewrite andb_true_r. destruct (f theta) as [| [] o y]; try reflexivity. destruct (known theta); [| reflexivity].
  destruct (rows hs theta _); reflexivity.
Qed.
End S.
Print Assumptions C141_calls.
Print Assumptions C141_matrix.
Print Assumptions C141_fisher.

(** f(x) = x0^2 x1: a gradient of an earlier point is not used for the Hessian of a later one *)
Example C141_case :
  let f x := Tensor true true (nth 0 x 0 * nth 0 x 0 * nth 1 x 0) in
  let gr x := [2 * nth 0 x 0 * nth 1 x 0; nth 0 x 0 * nth 0 x 0] in
  let hs x i := Some (match i with O => [2 * nth 1 x 0; 2 * nth 0 x 0] | _ => [2 * nth 0 x 0; 0] end) in
  let reply := reply f (fun _ => true) gr hs in
  reply [Evaluate [1; 2]; Gradient; Evaluate [3; 4]] Hessian = ErrRuntime /\
  (exists m, reply [Evaluate [1; 2]; Gradient; Evaluate [3; 4]; Gradient] Hessian = Matrix m /\ entry m 0 1 = 6 /\ entry m 0 0 = 8) /\
  [3; 4] <> [] /\ no_eval [Gradient].
Proof.
  intros f gr hs reply. assert (ne : [3; 4] <> []) by discriminate. assert (N1 : no_eval []) by (intros c []).
  assert (N2 : no_eval [Gradient]) by (intros c [<- | []]; reflexivity).
  destruct (C141_calls f (fun _ => true) gr hs [Evaluate [1; 2]; Gradient] [3; 4] [] ne N1) as [_ [H1 _]].
  destruct (C141_calls f (fun _ => true) gr hs [Evaluate [1; 2]; Gradient] [3; 4] [Gradient] ne N2) as [_ [H2 _]].
  split; [exact H1 |]. split; [| split; assumption]. eexists. split; [exact H2 |]. unfold entry; simpl. split; lra.
Qed.
