(** Model of MetropolisHastings.compute_gelman_rubin_rhat and check_convergence_gelman_rubin of gpmp/mcmc/mh.py with their
    arguments.  Definitions only.  Simplified: numbers are reals; printing is left out. *)
From Coq Require Import List Arith ZArith Reals Bool.
From Verif Require Import ConfigModel FlModel PriorModel SmcModel MhModel.
Import ListNotations.
Local Open Scope R_scope.

(** the attributes used: the array x of shape (n_chains, n_steps, dim), global_iter and burnin_period *)
Record chains := Chains { n_ch : nat; n_steps : nat; n_dim : nat; x_at : nat -> nat -> nat -> R; giter : nat; burn : Z }.

(** the positions selected by i0:i1 in an axis of n elements; negative numbers count from the end *)
Definition position (n : nat) (i : Z) : nat :=
  Z.to_nat (if (i <? 0)%Z then Z.max 0 (i + Z.of_nat n) else Z.min i (Z.of_nat n)).
Definition positions (n : nat) (i0 i1 : Z) : list nat := seq (position n i0) (position n i1 - position n i0).

(** mh.py 807-814, one coordinate: with less than two rows numpy.mean or numpy.var with ddof = 1 gives nan *)
Definition rhat_rows (s : chains) (n_block : nat) (rows : list nat) (d : nat) : fl :=
  if (length rows <=? 1)%nat then NaN
  else rhat_blocks n_block (map (fun c => map (fun t => x_at s c t d) rows) (seq 0 (n_ch s))).

(** mh.py 769-815 compute_gelman_rubin_rhat; None: ValueError (no chain data, 791-792, is not modelled) *)
Definition compute_rhat (s : chains) (burnin_period last_n_samples : option Z) : option (list fl) :=
  let burnin_period := match burnin_period with Some b => b | None => burn s end in
  if (n_ch s <? 2)%nat then None else
  let i0 := match last_n_samples with None => burnin_period | Some n => Z.max 0 (Z.of_nat (giter s) - n) end in
  let i1 := Z.of_nat (giter s) in
  let n_block := (i1 - i0)%Z in
  if (n_block <=? 1)%Z then None else
  Some (map (rhat_rows s (Z.to_nat n_block) (positions (n_steps s) i0 i1)) (seq 0 (n_dim s))).

(** mh.py 817-853 check_convergence_gelman_rubin: the verdict "ok" *)
Definition check_rhat (s : chains) (burnin_period last_n_samples : option Z) (threshold : R) : option bool :=
  match compute_rhat s burnin_period last_n_samples with
  | Some rhat => Some (forallb (fun r => fl_lt r (Fin threshold)) rhat)
  | None => None
  end.
(** the defaults of the two functions: 771-772, and 819-821 *)
Definition compute_default (s : chains) : option (list fl) := compute_rhat s None None.
Definition check_default (s : chains) : option bool := check_rhat s (Some 0%Z) None (11 / 10).
