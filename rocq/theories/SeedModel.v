(** Model of the random number generators used by gpmp and of the effect of seeds.  Definitions only.
    A generator has a state; [seeded s] is the state of a generator created with seed s, [gstep r g] answers the request r
    (so many uniform numbers, a permutation, ...) and gives the next state.  Simplified: a request whose shape is wrong, which
    raises, is not modelled; integers stand for the seeds accepted by the two backends. *)
From Coq Require Import List Arith ZArith Reals Bool.
Import ListNotations.

Section Seeds.
Variables (G req val : Type) (seeded : Z -> G) (gstep : req -> G -> val * G).
(** gnp.permutation(n), and the order it gives *)
Variables (perm : nat -> req) (order : val -> list nat).

(** the generators of a process: the one of gpmp.num (numpy_backend.py 474, torch_backend.py 895-896); the global one of NumPy,
    which scipy.stats uses when no random_state is given, or of Torch; the ones created by rng=default_rng() in the signatures
    of SMC (smc.py 535) and ParticlesSet (smc.py 129), once, when the module is loaded *)
Inductive source := Backend | Legacy | SmcDefault | ParticlesDefault.
Record world := World { backend : G; legacy : G; smc_default : G; particles_default : G }.
Definition get (s : source) (w : world) : G :=
  match s with Backend => backend w | Legacy => legacy w | SmcDefault => smc_default w | ParticlesDefault => particles_default w end.
Definition put (s : source) (g : G) (w : world) : world :=
  match s with
  | Backend => World g (legacy w) (smc_default w) (particles_default w)
  | Legacy => World (backend w) g (smc_default w) (particles_default w)
  | SmcDefault => World (backend w) (legacy w) g (particles_default w)
  | ParticlesDefault => World (backend w) (legacy w) (smc_default w) g
  end.

(** a computation that draws numbers; what it does next may depend on them *)
Inductive prog (A : Type) : Type :=
| Ret (a : A)
| SetSeed (s : Z) (p : prog A)
| Draw (src : source) (r : req) (k : val -> prog A).
Arguments Ret {A}. Arguments SetSeed {A}. Arguments Draw {A}.
(** gnp.set_seed: numpy_backend.py 476-479, torch_backend.py 899-903 *)
Fixpoint run {A} (p : prog A) (w : world) : A * world :=
  match p with
  | Ret a => (a, w)
  | SetSeed s p => run p (put Backend (seeded s) w)
  | Draw src r k => let (v, g) := gstep r (get src w) in run (k v) (put src g w)
  end.
Fixpoint bind {A B} (p : prog A) (f : A -> prog B) : prog B :=
  match p with
  | Ret a => f a
  | SetSeed s p => SetSeed s (bind p f)
  | Draw src r k => Draw src r (fun v => bind (k v) f)
  end.
Definition seed_if {A} (seed : option Z) (p : prog A) : prog A := match seed with Some s => SetSeed s p | None => p end.

(** dataloader.py 162-166 Dataset.split and 184-187 k_fold_indices: the order of the rows *)
Definition split_order (n : nat) (seed : option Z) : prog (list nat) := seed_if seed (Draw Backend (perm n) (fun v => Ret (order v))).
Definition k_fold_order (n : nat) (seed : option Z) : prog (list nat) := seed_if seed (Draw Backend (perm n) (fun v => Ret (order v))).
(** dataloader.py 206-219 repeated_k_fold_indices: the orders of the repetitions *)
Fixpoint repeated_orders (n r repeats : nat) (seed : option Z) : prog (list (list nat)) :=
  match repeats with
  | 0 => Ret []
  | S m =>
      bind (k_fold_order n (match seed with None => None | Some s => Some (s + Z.of_nat r)%Z end)) (fun o =>
      bind (repeated_orders n (S r) m seed) (fun os => Ret (o :: os)))
  end.
(** dataloader.py 388-406 DataLoader.__iter__: the order used by one epoch, and the loader afterwards; [finished] tells whether the
    caller asked for a batch after the last one.  If not (a break in the loop) line 404 is not reached *)
Record loader := Loader { base_seed : option Z; epoch : Z; rows : nat; shuffle : bool }.
Definition next_epoch (l : loader) : loader := Loader (base_seed l) (epoch l + 1) (rows l) (shuffle l).
Definition iterate (l : loader) (finished : bool) : prog (list nat * loader) :=
  let l' := if finished then next_epoch l else l in
  seed_if (match base_seed l with Some s => Some (s + epoch l)%Z | None => None end)
    (if shuffle l then Draw Backend (perm (rows l)) (fun v => Ret (order v, l'))
     else Ret (seq 0 (rows l), l')).
(** a training loop of m epochs over a loader; [body] is what the caller does with the rows of an epoch *)
Fixpoint train (m : nat) (l : loader) (body : list nat -> prog unit) : prog (list (list nat)) :=
  match m with
  | 0 => Ret []
  | S k =>
      bind (iterate l true) (fun ol => bind (body (fst ol)) (fun _ =>
      bind (train k (snd ol) body) (fun os => Ret (fst ol :: os))))
  end.

(** numpy_backend.py 474, torch_backend.py 895-896: the generators when the process starts *)
Definition fresh (l s p : G) : world := World (seeded 1234) l s p.

(** smc.py 126-136, 182, 466-467, 533-543: the particles of an SMC object, drawn with the generator it was given, the default one if none *)
Definition smc_init (r : req) (rng : option source) : prog val :=
  Draw (match rng with Some g => g | None => SmcDefault end) r Ret.

(** nuts.py 859-860: nuts_sample with a seed; its draws are gnp.rand and gnp.randn *)
Definition nuts_run {A} (seed : option Z) (body : prog A) : prog A := seed_if seed body.

(** mh.py 298-304, 379-411: one step of random-walk Metropolis-Hastings; the perturbation comes from
    gnp.multivariate_normal.rvs (numpy_backend.py 512-528, torch_backend.py 1007-1027, no generator given), the uniform number
    from gnp.rand *)
Variables (X : Type) (noise unif : req) (propose : X -> val -> X) (accepts : X -> X -> val -> bool).
Definition mh_step (x : X) : prog X :=
  Draw Legacy noise (fun e => Draw Backend unif (fun u => Ret (if accepts x (propose x e) u then propose x e else x))).
Fixpoint mh_run (n : nat) (x : X) : prog (list X) :=
  match n with
  | 0 => Ret []
  | S m => bind (mh_step x) (fun y => bind (mh_run m y) (fun ys => Ret (y :: ys)))
  end.

(** a study: the caller repeats m times a computation followed by a split with a given seed *)
Fixpoint study {A} (m : nat) (q : prog A) (n : nat) (seed : option Z) : prog (list (A * list nat)) :=
  match m with
  | 0 => Ret []
  | S k => bind q (fun a => bind (split_order n seed) (fun o => bind (study k q n seed) (fun l => Ret ((a, o) :: l))))
  end.
End Seeds.
Arguments Ret {req val A}. Arguments SetSeed {req val A}. Arguments Draw {req val A}.
