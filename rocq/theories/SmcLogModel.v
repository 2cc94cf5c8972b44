(** Model of the diagnostics kept by gpmp/mcmc/smc.py (SMC.log, SMC.log_data) and drawn by SMC.plot_state.  Definitions only.
    What the particles do is an argument: [rate k] is the acceptation rate of the k-th move, [ess_of k] the k-th effective
    sample size, [nextp k] the k-th result of compute_next_logpdf_param.  Simplified: the execution state (a text) and the
    time stamps are left out; lists are values (the code copies them into the snapshots, 597-600). *)
From Coq Require Import List Arith Reals Bool.
Import ListNotations.
Local Open Scope R_scope.

(** SMC.log_data, smc.py 558-566 *)
Record logdata := LogData { cur : option R; ess : option R; tgt : option R; rit : nat; lseq : list R; acc : list R }.
(** one entry of SMC.log, smc.py 590-603 *)
Record snap := Snap { s_stage : nat; s_scale : R; s_tgt : option R; s_cur : option R; s_ess : option R; s_rit : nat;
  s_seq : list R; s_acc : list R }.
(** the sampler: diagnostics, stage, param_s of the particles, and how many moves, effective sample sizes and levels have
    been asked for *)
Record smc := Smc { data : logdata; log : list snap; stage : nat; scale : R; moves : nat; esses : nat; levels : nat }.
(** SMCConfig: mh_steps, mh_acceptation_rate_min, mh_acceptation_rate_max, mh_adjustment_factor,
    mh_adjustment_max_iterations *)
Record config := Config { mh_steps : nat; rmin : R; rmax : R; factor : R; max_it : nat }.

(** smc.py 555-566 *)
Definition empty_data : logdata := LogData None None None 0 [] [].
Definition new_smc (param_s : R) : smc := Smc empty_data [] 0 param_s 0 0 0.

(** smc.py 568-583 update_log, argument by argument *)
Definition log_cur (p : R) (d : logdata) := LogData (Some p) (ess d) (tgt d) (rit d) (lseq d) (acc d).
Definition log_ess (e : R) (d : logdata) := LogData (cur d) (Some e) (tgt d) (rit d) (lseq d) (acc d).
Definition log_acc (r : R) (d : logdata) := LogData (cur d) (ess d) (tgt d) (rit d) (lseq d) (acc d ++ [r]).
Definition with_data (f : logdata -> logdata) (s : smc) : smc :=
  Smc (f (data s)) (log s) (stage s) (scale s) (moves s) (esses s) (levels s).

(** smc.py 585-607 log_snapshot *)
Definition log_snapshot (s : smc) : smc :=
  let d := data s in
  Smc (LogData (cur d) (ess d) (tgt d) (rit d) (lseq d) [])
    (log s ++ [Snap (stage s) (scale s) (tgt d) (cur d) (ess d) (rit d) (lseq d) (acc d)])
    (stage s) (scale s) (moves s) (esses s) (levels s).

Section Run.
Variables (cf : config) (rate ess_of nextp : nat -> R) (n : R).

(** particles.move() followed by update_log(acceptation_rate=...) *)
Definition logged_move (s : smc) : smc :=
  Smc (log_acc (rate (moves s)) (data s)) (log s) (stage s) (scale s) (S (moves s)) (esses s) (levels s).
(** particles.move() alone *)
Definition silent_move (s : smc) : smc :=
  Smc (data s) (log s) (stage s) (scale s) (S (moves s)) (esses s) (levels s).
Definition with_scale (x : R) (s : smc) : smc := Smc (data s) (log s) (stage s) x (moves s) (esses s) (levels s).

(** smc.py 829-860 move_with_controlled_acceptation_rate; k: iterations left *)
Fixpoint controlled (k : nat) (s : smc) : smc :=
  match k with
  | 0%nat => s
  | S k =>
      let r := rate (moves s) in
      let s1 := logged_move s in
      if Rlt_dec r (rmin cf) then controlled k (with_scale (scale s1 / factor cf) s1) else
      if Rlt_dec (rmax cf) r then controlled k (with_scale (scale s1 * factor cf) s1) else s1
  end.

(** one call of particles.ess() *)
Definition ask_ess (s : smc) : R * smc :=
  (ess_of (esses s), Smc (data s) (log s) (stage s) (scale s) (moves s) (S (esses s)) (levels s)).

(** smc.py 609-664 step *)
Definition step (p : R) (s : smc) : smc :=
  let (e, s1) := ask_ess s in
  let s2 := with_data (fun d => log_ess e (log_cur p d)) s1 in
  let s3 := log_snapshot (controlled (max_it cf) s2) in
  log_snapshot (Nat.iter (mh_steps cf - 1) logged_move s3).

(** smc.py 799-824: the loop of restart; None: not finished after the given number of levels *)
Fixpoint restart_loop (fuel : nat) (current target : R) (s : smc) : option smc :=
  if Req_EM_T current target then Some s else
  match fuel with
  | 0%nat => None
  | S fuel =>
      let p := nextp (levels s) in
      let s1 := Smc (let d := data s in LogData (cur d) (ess d) (tgt d) (S (rit d)) (lseq d ++ [p]) (acc d))
        (log s) (stage s) (scale s) (moves s) (esses s) (S (levels s)) in
      restart_loop fuel p target (step p (log_snapshot s1))
  end.

(** smc.py 742-827 restart *)
Definition restart (fuel : nat) (initial target : R) (s : smc) : option smc :=
  let s1 := log_snapshot s in
  let (_, s2) := ask_ess s1 in
  let s3 := with_data (fun d => LogData (cur d) (ess d) (tgt d) (rit d) [initial] (acc d)) s2 in
  match restart_loop fuel initial target s3 with
  | Some s4 => Some (with_data (fun d => LogData (cur d) (ess d) (tgt d) 0 [] (acc d)) s4)
  | None => None
  end.

(** smc.py 666-740 step_with_possible_restart *)
Definition run_step (fuel : nat) (initial target min_ess_ratio : R) (s : smc) : option smc :=
  let s1 := Smc (data s) (log s) (S (stage s)) (scale s) (moves s) (esses s) (levels s) in
  let s2 := log_snapshot (with_data (fun d => LogData (Some target) (ess d) (Some target) (rit d) (lseq d) (acc d)) s1) in
  let (e, s3) := ask_ess s2 in
  let s4 := log_snapshot (with_data (log_ess e) s3) in
  if Rlt_dec (e / n) min_ess_ratio then restart fuel initial target s4 else Some (step target s4).

(** smc.py 1428-1464 run_subset_simulation: the stages, one per threshold after the first *)
Definition subset_stage (s : smc) : smc :=
  let s1 := Nat.iter (mh_steps cf - 1) silent_move (controlled (max_it cf) s) in
  log_snapshot (Smc (data s1) (log s1) (S (stage s1)) (scale s1) (moves s1) (esses s1) (levels s1)).
Definition run_subset (thresholds : list R) (param_s : R) : option smc :=
  match thresholds with
  | _ :: u1 :: rest =>
      Some (Nat.iter (S (length rest)) subset_stage
        (with_data (fun d => LogData (cur d) (ess d) (Some u1) (rit d) (lseq d) (acc d)) (new_smc param_s)))
  | _ => None
  end.
End Run.

(** smc.py 1085-1096: the series drawn by plot_state *)
Definition shown (e : snap) : list R := match s_acc e with [] => [0] | l => l end.
Definition plot_rates (l : list snap) : list R := flat_map shown l.
Definition plot_series {A} (f : snap -> A) (l : list snap) : list A :=
  flat_map (fun e => repeat (f e) (length (shown e))) l.
(** smc.py 1069-1075 make_stairs *)
Fixpoint make_stairs_from {A} (i : nat) (y : list A) : list nat * list A :=
  match y with
  | [] => ([], [])
  | v :: y => let (a, b) := make_stairs_from (S i) y in (i :: S i :: a, v :: v :: b)
  end.
