(** C136: what a seed fixes and what it does not. *)
From Coq Require Import List Arith ZArith Bool Lia.
From Verif Require Import SeedModel.
Import ListNotations.

Section Thms.
Variables (G req val : Type) (seeded : Z -> G) (gstep : req -> G -> val * G).
Variables (perm : nat -> req) (order : val -> list nat).
Notation prog := (prog req val). Notation world := (world G).
Notation run := (run G req val seeded gstep).
Notation bind := (bind req val).
Notation split_order := (split_order req val perm order).
Notation k_fold_order := (k_fold_order req val perm order).
Notation repeated_orders := (repeated_orders req val perm order).
Notation iterate := (iterate req val perm order).
Notation train := (train req val perm order).
Notation study := (study req val perm order).
(** the order gnp.permutation(n) gives right after gnp.set_seed(s) *)
Notation order_of s n := (order (fst (gstep (perm n) (seeded s)))).

(** every draw of the computation, whatever the values drawn before, is from a generator of S *)
Inductive draws_from (S : source -> Prop) {A} : prog A -> Prop :=
| df_ret a : draws_from S (Ret a)
| df_seed s p : draws_from S p -> draws_from S (SetSeed s p)
| df_draw src r k : S src -> (forall v, draws_from S (k v)) -> draws_from S (Draw src r k).

Lemma run_bind A B (p : prog A) (f : A -> prog B) w : run (bind p f) w = run (f (fst (run p w))) (snd (run p w)).
Proof.
  revert w; induction p as [a | s p IH | src r k IH]; intro w; cbn; [reflexivity | apply IH |].
  destruct (gstep r (get G src w)) as [v g]; apply IH.
Qed.

Lemma get_put s g (w : world) : get G s (put G s g w) = g.
Proof. now destruct s. Qed.
Lemma get_put_other s s' g (w : world) : s <> s' -> get G s (put G s' g w) = get G s w.
Proof. destruct s, s'; cbn; congruence. Qed.


Lemma source_dec (a b : source) : {a = b} + {a <> b}.
Proof. decide equality. Qed.

(** a computation that draws from the generators of S only depends on the generators of S *)
Lemma run_only A (S : source -> Prop) (p : prog A) w w' :
  S Backend -> draws_from S p -> (forall s, S s -> get G s w = get G s w') ->
  fst (run p w) = fst (run p w') /\ (forall s, S s -> get G s (snd (run p w)) = get G s (snd (run p w'))) /\
  (forall s, ~ S s -> get G s (snd (run p w)) = get G s w).
Proof.
  intros SB H; revert w w'; induction H as [a | s p H IH | src r k Hs H IH]; intros w w' e; cbn [SeedModel.run].
  - auto.
  - destruct (IH (put G Backend (seeded s) w) (put G Backend (seeded s) w')) as (e1 & e2 & e3).
    { intros q Hq; destruct (source_dec q Backend) as [-> | n]; [now rewrite 2 get_put |]; rewrite 2 get_put_other by exact n; auto. }
    split; [exact e1 | split; [exact e2 |]]; intros q Hq; rewrite (e3 q Hq); apply get_put_other; intros ->; contradiction.
  - rewrite <- (e src Hs); destruct (gstep r (get G src w)) as [v g].
    destruct (IH v (put G src g w) (put G src g w')) as (e1 & e2 & e3).
    { intros q Hq; destruct (source_dec q src) as [-> | n]; [now rewrite 2 get_put |]; rewrite 2 get_put_other by exact n; auto. }
    split; [exact e1 | split; [exact e2 |]]; intros q Hq; rewrite (e3 q Hq); apply get_put_other; intros ->; contradiction.
Qed.

(** After gnp.set_seed(s), a computation whose draws all go through gpmp.num (NUTS with a seed, sample paths, permutations)
    gives a result that depends on the seed only, whatever was drawn before; it leaves the other generators as they were. *)
Theorem C136_seeded A (p : prog A) s w w' :
  draws_from (eq Backend) p ->
  fst (run (SetSeed s p) w) = fst (run (SetSeed s p) w') /\
  backend G (snd (run (SetSeed s p) w)) = backend G (snd (run (SetSeed s p) w')) /\
  legacy G (snd (run (SetSeed s p) w)) = legacy G w /\ smc_default G (snd (run (SetSeed s p) w)) = smc_default G w /\
  particles_default G (snd (run (SetSeed s p) w)) = particles_default G w.
Proof.
  intro H; cbn [SeedModel.run].
  destruct (run_only A (eq Backend) p (put G Backend (seeded s) w) (put G Backend (seeded s) w') eq_refl H) as (e1 & e2 & e3).
  { intros q <-; reflexivity. }
  split; [exact e1 |]; split; [exact (e2 Backend eq_refl) |].
  split; [exact (e3 Legacy ltac:(discriminate)) |]; split; [exact (e3 SmcDefault ltac:(discriminate)) | exact (e3 ParticlesDefault ltac:(discriminate))].
Qed.

(** Without any seed too, two processes give the same result: both backends start from the fixed seed 1234.  Draws made through
    gpmp.num are never new from one process to the next unless the user seeds. *)
Theorem C136_fresh A (p : prog A) l1 s1 q1 l2 s2 q2 w :
  draws_from (eq Backend) p ->
  fst (run p (fresh G seeded l1 s1 q1)) = fst (run p (fresh G seeded l2 s2 q2)) /\
  fst (run p (fresh G seeded l1 s1 q1)) = fst (run (SetSeed 1234 p) w).
Proof.
  intro H; split.
  - apply (run_only A (eq Backend) p); [reflexivity | exact H | intros q <-; reflexivity].
  - cbn; apply (run_only A (eq Backend) p); [reflexivity | exact H | intros q <-; reflexivity].
Qed.

(** A computation that does not draw from the generator of gpmp.num (SMC, Latin hypercube and uniform designs) is not affected by gnp.set_seed. *)
Theorem C136_unaffected A (p : prog A) s w :
  draws_from (fun q => q <> Backend) p -> fst (run (SetSeed s p) w) = fst (run p w).
Proof.
  intro H; cbn [SeedModel.run]; generalize (seeded s); intro g; revert g w; induction H as [a | t p H IH | src r k Hs H IH]; intros g w; cbn [SeedModel.run].
  - reflexivity.
  - rewrite !IH; reflexivity.
  - rewrite get_put_other by exact Hs; destruct (gstep r (get G src w)) as [v h].
    replace (put G src h (put G Backend g w)) with (put G Backend g (put G src h w)); [apply IH |].
    destruct src; [contradiction | | |]; reflexivity.
Qed.

(** The row orders of a training loop over a shuffled loader with a seed: epoch e gets the order of seed s + e, whatever the
    state of the generators and whatever the caller draws, or seeds, while the epochs run. *)
Theorem C136_epochs m l body s w :
  base_seed l = Some s -> shuffle l = true ->
  fst (run (train m l body) w) = map (fun e => order_of (s + epoch l + Z.of_nat e)%Z (rows l)) (seq 0 m).
Proof.
  revert l w; induction m as [| m IH]; intros l w hs hb; [reflexivity |].
  cbn [SeedModel.train]; rewrite run_bind; unfold SeedModel.iterate, seed_if; rewrite hs, hb; cbn [SeedModel.run get put backend].
  destruct (gstep (perm (rows l)) (seeded (s + epoch l))) as [v g] eqn:e; cbn [fst snd SeedModel.run].
  rewrite run_bind, run_bind; cbn [fst snd SeedModel.run].
  rewrite IH by assumption; cbn [next_epoch base_seed epoch rows shuffle].
  change (seq 0 (S m)) with (0 :: seq 1 m); rewrite <- seq_shift; cbn [map]; rewrite map_map; f_equal.
  - rewrite Z.add_0_r, e; reflexivity.
  - apply map_ext; intro a; do 4 f_equal; lia.
Qed.

(** Epochs left before their end do not count: the next pass over the loader, however many were abandoned, has the order of the one abandoned. *)
Theorem C136_abandoned l s w w' finished :
  base_seed l = Some s -> shuffle l = true ->
  fst (fst (run (iterate (snd (fst (run (iterate l false) w))) finished) w')) = fst (fst (run (iterate l false) w)) /\
  fst (fst (run (iterate (snd (fst (run (iterate l true) w))) finished) w')) = order_of (s + epoch l + 1)%Z (rows l).
Proof.
  intros hs hb; unfold SeedModel.iterate, seed_if; rewrite hs, hb; cbn [SeedModel.run get put backend].
  destruct (gstep (perm (rows l)) (seeded (s + epoch l))) as [v g] eqn:e; cbn [fst snd SeedModel.run].
  cbn [next_epoch base_seed epoch rows shuffle]; rewrite hs, hb; cbn [SeedModel.run get put backend]; rewrite e, Z.add_assoc; cbn [fst snd SeedModel.run].
  split; [reflexivity |]; destruct (gstep (perm (rows l)) (seeded (s + epoch l + 1))); reflexivity.
Qed.

(** The order of a split, of the folds and of an epoch come from the same seed in the same way: with seed s + e a split or a
    k-fold uses the rows in exactly the order of epoch e of a loader of seed s over as many rows. *)
Theorem C136_same_order n s e w w' w'' :
  fst (run (split_order n (Some (s + e)%Z)) w) = fst (fst (run (iterate (Loader (Some s) e n true) true) w')) /\
  fst (run (k_fold_order n (Some (s + e)%Z)) w'') = fst (run (split_order n (Some (s + e)%Z)) w).
Proof.
  unfold SeedModel.split_order, SeedModel.k_fold_order, SeedModel.iterate, seed_if; cbn [base_seed epoch rows shuffle SeedModel.run get put backend].
  destruct (gstep (perm n) (seeded (s + e))) as [v g]; split; reflexivity.
Qed.

(** Repetition r of a repeated k-fold has the order of seed s + r; so two studies whose seeds differ by d share all but d of their repetitions. *)
Lemma repeated_orders_eq n m r s w :
  fst (run (repeated_orders n r m (Some s)) w) = map (fun i => order_of (s + Z.of_nat i)%Z n) (seq r m).
Proof.
  revert r w; induction m as [| m IH]; intros r w; [reflexivity |].
  cbn [SeedModel.repeated_orders]; rewrite run_bind, run_bind; cbn [SeedModel.run fst snd]; rewrite IH; cbn [seq map]; f_equal.
  unfold SeedModel.k_fold_order, seed_if; cbn [SeedModel.run get put backend].
  destruct (gstep (perm n) (seeded (s + Z.of_nat r))); reflexivity.
Qed.

Theorem C136_repeats n m s w :
  fst (run (repeated_orders n 0 m (Some s)) w) = map (fun i => order_of (s + Z.of_nat i)%Z n) (seq 0 m) /\
  forall d w', d <= m ->
    skipn d (fst (run (repeated_orders n 0 m (Some s)) w)) =
    firstn (m - d) (fst (run (repeated_orders n 0 m (Some (s + Z.of_nat d)%Z)) w')).
Proof.
  split; [apply repeated_orders_eq |]; intros d w' hd; rewrite 2 repeated_orders_eq.
  replace (seq 0 m) with (seq 0 d ++ seq d (m - d)) at 1 by (rewrite <- seq_app; f_equal; lia).
  rewrite map_app, skipn_app, skipn_all2, map_length, seq_length, Nat.sub_diag by (rewrite map_length, seq_length; lia); cbn [app skipn].
  replace (seq 0 m) with (seq 0 (m - d) ++ seq (m - d) d) by (rewrite <- seq_app; f_equal; lia).
  rewrite map_app, firstn_app, firstn_all2, map_length, seq_length, Nat.sub_diag by (rewrite map_length, seq_length; lia); cbn [firstn].
  rewrite app_nil_r.
  replace (seq d (m - d)) with (map (fun i => d + i) (seq 0 (m - d))).
  - rewrite map_map; apply map_ext; intro i; do 4 f_equal; lia.
  - generalize (m - d); clear; intro k.
    enough (forall a, map (fun i => d + i) (seq a k) = seq (d + a) k) as E by (rewrite E, Nat.add_0_r; reflexivity).
    induction k as [| k IH]; intro a; [reflexivity |]; cbn; rewrite IH; do 2 f_equal; lia.
Qed.

(** A seeded split also resets the generator for what follows: in a study that repeats "draw, then split with seed s", the
    replicates after the first are all the same, while without a seed each continues from the one before. *)
Lemma study_const A (q : prog A) n s m w w' :
  draws_from (eq Backend) q -> backend G w = backend G w' ->
  fst (run (study m q n (Some s)) w) = fst (run (study m q n (Some s)) w').
Proof.
  intro H; revert w w'; induction m as [| m IH]; intros w w' e; [reflexivity |].
  cbn [SeedModel.study]; rewrite !run_bind.
  destruct (run_only A (eq Backend) q w w' eq_refl H) as (e1 & _); [intros ? <-; exact e |].
  unfold SeedModel.split_order, seed_if; cbn [SeedModel.run get put backend].
  destruct (gstep (perm n) (seeded s)) as [v g]; cbn [fst snd SeedModel.run]; rewrite e1; f_equal.
  apply IH; reflexivity.
Qed.

Theorem C136_reset A (q : prog A) n s m w :
  draws_from (eq Backend) q ->
  exists first next, fst (run (study (S m) q n (Some s)) w) = first :: repeat next m /\ snd first = snd next /\ snd next = order_of s n.
Proof.
  intro H.
  set (g := snd (gstep (perm n) (seeded s))).
  set (w0 := put G Backend g w).
  exists (fst (run q w), order_of s n), (fst (run q w0), order_of s n).
  split; [| split; reflexivity].
  assert (forall k x, fst (run (study (S k) q n (Some s)) x) =
                      (fst (run q x), order_of s n) :: fst (run (study k q n (Some s)) w0)) as step.
  { intros k x; cbn [SeedModel.study]; rewrite !run_bind.
    unfold SeedModel.split_order, seed_if; cbn [SeedModel.run get put backend].
    destruct (gstep (perm n) (seeded s)) as [v h] eqn:e; cbn [fst snd SeedModel.run]; f_equal.
    apply study_const; [exact H |]; unfold w0, g; reflexivity. }
  rewrite step; f_equal.
  induction m as [| m IH]; [reflexivity |]; rewrite step, IH; reflexivity.
Qed.

(** Random-walk Metropolis-Hastings draws its perturbations from a generator that gnp.set_seed does not reach: a seed makes the
    chain a function of the state of that generator; if the first proposals from two states of it are accepted and differ, the chains differ. *)
Section MH.
Variables (X : Type) (noise unif : req) (propose : X -> val -> X) (accepts : X -> X -> val -> bool).
Notation mh_run := (mh_run req val X noise unif propose accepts).

Lemma draws_bind (S : source -> Prop) A B (p : prog A) (f : A -> prog B) :
  draws_from S p -> (forall a, draws_from S (f a)) -> draws_from S (bind p f).
Proof. intros H Hf; induction H; cbn; [apply Hf | apply df_seed; assumption | apply df_draw; assumption]. Qed.

Lemma mh_draws n x : draws_from (fun s => s = Backend \/ s = Legacy) (mh_run n x).
Proof.
  revert x; induction n as [| n IH]; intro x; cbn [SeedModel.mh_run]; [apply df_ret |].
  apply draws_bind; [| intro y; apply draws_bind; [apply IH | intro; apply df_ret]].
  apply df_draw; [auto | intro]; apply df_draw; [auto | intro]; apply df_ret.
Qed.

Theorem C136_mh n x s :
  (forall w w', legacy G w = legacy G w' -> fst (run (SetSeed s (mh_run n x)) w) = fst (run (SetSeed s (mh_run n x)) w')) /\
  (forall w w', let u := fst (gstep unif (seeded s)) in
     let y := propose x (fst (gstep noise (legacy G w))) in let y' := propose x (fst (gstep noise (legacy G w'))) in
     0 < n -> accepts x y u = true -> accepts x y' u = true -> y <> y' ->
     fst (run (SetSeed s (mh_run n x)) w) <> fst (run (SetSeed s (mh_run n x)) w')).
Proof.
  split.
  - intros w w' e; cbn; apply (run_only _ (fun q => q = Backend \/ q = Legacy)); [auto | apply mh_draws |].
    intros q [-> | ->]; [reflexivity | exact e].
  - intros w w'; cbn zeta; intros hn; destruct n as [| n]; [lia |].
    cbn [SeedModel.run SeedModel.mh_run]; rewrite 4 run_bind; unfold SeedModel.mh_step; cbn [SeedModel.run get put legacy backend].
    destruct (gstep noise (legacy G w)) as [v g]; destruct (gstep noise (legacy G w')) as [v' g']; cbn [SeedModel.run get put legacy backend fst snd].
    destruct (gstep unif (seeded s)) as [u h]; cbn [SeedModel.run fst snd]; intros -> -> d e; congruence.
Qed.
End MH.

(** SMC objects created without rng share one generator: what the second draws depends on how much the first has drawn, and
    gnp.set_seed changes nothing.  An object given another generator is not concerned. *)
Theorem C136_shared r s w :
  let two := bind (smc_init req val r None) (fun a => bind (smc_init req val r None) (fun b => Ret (a, b))) in
  fst (run two w) = (fst (gstep r (smc_default G w)), fst (gstep r (snd (gstep r (smc_default G w))))) /\
  fst (run (SetSeed s two) w) = fst (run two w) /\
  (forall g, g <> SmcDefault ->
     fst (run (bind (smc_init req val r None) (fun _ => smc_init req val r (Some g))) w) = fst (run (smc_init req val r (Some g)) w)).
Proof.
  intro two; split; [| split].
  - unfold two; cbn; destruct (gstep r (smc_default G w)) as [v g]; cbn; destruct (gstep r g); reflexivity.
  - apply C136_unaffected; unfold two, smc_init; cbn; repeat (constructor; [discriminate | intro]); constructor.
  - intros g hg; rewrite run_bind; unfold smc_init; cbn [SeedModel.run].
    destruct (gstep r (get G SmcDefault w)) as [v h]; cbn [fst snd SeedModel.run]; rewrite get_put_other by exact hg.
    destruct (gstep r (get G g w)); reflexivity.
Qed.
End Thms.
Print Assumptions C136_seeded.
Print Assumptions C136_fresh.
Print Assumptions C136_unaffected.
Print Assumptions C136_epochs.
Print Assumptions C136_abandoned.
Print Assumptions C136_same_order.
Print Assumptions C136_repeats.
Print Assumptions C136_reset.
Print Assumptions C136_mh.
Print Assumptions C136_shared.

(** a generator whose state is a seed and a count of draws, and which answers a request for n rows by rotating them *)
Definition toy (r : nat) (g : Z * nat) : list nat * (Z * nat) :=
  let k := (Z.to_nat (fst g) + snd g) mod (S r) in (map (fun i => (i + k) mod (S r)) (seq 0 (S r)), (fst g, S (snd g))).
Definition toy_seed (s : Z) : Z * nat := (s, 0).
Definition toy_run {A} := @SeedModel.run (Z * nat) nat (list nat) toy_seed toy A.
Definition w1 : world (Z * nat) := World _ (5%Z, 7) (3%Z, 0) (0%Z, 0) (1%Z, 0).
Definition w2 : world (Z * nat) := World _ (9%Z, 2) (4%Z, 0) (0%Z, 3) (1%Z, 0).

(** three epochs with draws of the caller in between *)
Example C136_ex_epochs :
  forall w, w = w1 \/ w = w2 ->
  fst (toy_run (train nat (list nat) pred (fun v => v) 3 (Loader (Some 1%Z) 0 3 true) (fun _ => Draw Backend 4 (fun _ => Ret tt))) w) =
  [[1; 2; 0]; [2; 0; 1]; [0; 1; 2]].
Proof. now intros w [-> | ->]. Qed.

(** without a seed the orders depend on what was drawn before *)
Example C136_ex_unseeded :
  fst (toy_run (split_order nat (list nat) pred (fun v => v) 4 None) w1) <>
  fst (toy_run (split_order nat (list nat) pred (fun v => v) 4 None) w2) /\
  fst (toy_run (split_order nat (list nat) pred (fun v => v) 4 (Some 2%Z)) w1) =
  fst (toy_run (split_order nat (list nat) pred (fun v => v) 4 (Some 2%Z)) w2).
Proof. split; [vm_compute; discriminate | reflexivity]. Qed.

(** a study with a seeded split: replicates 2, 3 and 4 are the same *)
Example C136_ex_study :
  fst (toy_run (study nat (list nat) pred (fun v => v) 4 (Draw Backend 9 (fun v => Ret (hd 0 v))) 4 (Some 2%Z)) w1) =
  [(2, [2; 3; 0; 1]); (3, [2; 3; 0; 1]); (3, [2; 3; 0; 1]); (3, [2; 3; 0; 1])] /\
  map fst (fst (toy_run (study nat (list nat) pred (fun v => v) 4 (Draw Backend 9 (fun v => Ret (hd 0 v))) 4 None) w1)) = [2; 4; 6; 8].
Proof. split; reflexivity. Qed.

(** Metropolis-Hastings under the same seed in two processes *)
Example C136_ex_mh :
  fst (toy_run (SetSeed 42 (mh_run nat (list nat) nat 6 1 (fun x e => x + hd 0 e) (fun _ _ _ => true) 2 0)) w1) = [3; 7] /\
  fst (toy_run (SetSeed 42 (mh_run nat (list nat) nat 6 1 (fun x e => x + hd 0 e) (fun _ _ _ => true) 2 0)) w2) = [4; 9].
Proof. split; reflexivity. Qed.

Example C136_ex_smc :
  fst (toy_run (bind nat (list nat) (smc_init nat (list nat) 2 None) (fun a => bind nat (list nat) (smc_init nat (list nat) 2 None) (fun b => Ret (a, b)))) w1) =
  ([0; 1; 2], [1; 2; 0]).
Proof. reflexivity. Qed.
