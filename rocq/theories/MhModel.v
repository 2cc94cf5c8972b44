(** Model of gpmp/mcmc/mh.py (MetropolisHastings) and of the box-truncated target built by
    gpmp/mcmc/param_posterior.py.  Definitions only.
    Random draws are arguments: [Y c t] is the proposal drawn for chain c at step t and [U c t] the uniform
    number; the proposal may depend on anything (state, adapted covariance), so the realised values are
    arbitrary.  Printing, timing and plotting are not modelled. *)
From Coq Require Import List Arith ZArith Reals Bool.
From Verif Require Import ConfigModel FlModel PriorModel SmcModel.
Import ListNotations.
Local Open Scope R_scope.

(** mh.py 402: the floor put under the uniform number, 1e-300 *)
Definition tiny : R := / (10 ^ 300).
(** 402-403: u = max(rand, 1e-300); accept = log(u) < log_a *)
Definition mh_accept (u : R) (log_a : fl) : bool := fl_lt (fl_ln (Fin (Rmax u tiny))) log_a.

(** 250-263 _diminishing_adaptation_schedule *)
Definition diminishing (n n_total base final_frac : R) : R :=
  base * (final_frac + (1 - final_frac) * cos (PI * n / n_total)).
(** 466-469 the Robbins-Monro update of the (vector) proposal parameter of one chain *)
Definition rm_update (gamma rate target : R) (p : list R) : list R :=
  map (fun v => v * exp (gamma * (rate - target))) p.
(** 459-465 the gain: [dim] is the argument diminishing (None counts as False) *)
Definition rm_gamma (dim : bool) (iter burnin base : R) : R :=
  if dim then diminishing iter burnin base (1 / 10) else base.

(** 368: numpy.cumsum *)
Fixpoint cumsum_from (a : R) (l : list R) : list R :=
  match l with [] => [] | x :: l => (a + x) :: cumsum_from (a + x) l end.
(** 359-377 compute_sliding_rates, one chain; [accept] is the whole row of self.accept *)
Definition sliding_rates (n_block_size : Z) (global_iter : nat) (accept : list R) : list R :=
  let n_max := global_iter in
  if (n_max =? 0)%nat then [] else
  let window := Nat.min (Nat.max 1 (Z.to_nat n_block_size)) n_max in
  let cs := cumsum_from 0 (firstn n_max accept) in
  zip2 Rdiv (firstn window cs) (map (fun k => INR k + 1) (seq 0 window))
  ++ map (fun d => d / INR window)
       (zip2 Rminus (skipn window cs) (firstn (length cs - window) cs)).

(** numpy mean and var with ddof = 1 of a column *)
Definition mean_l (l : list R) : R := sum_list l / INR (length l).
Definition var1 (l : list R) : R :=
  sum_list (map (fun v => (v - mean_l l) * (v - mean_l l)) l) / (INR (length l) - 1).
Definition fl_sqrt (a : fl) : fl :=
  match a with
  | Fin x => if rltb x 0 then NaN else Fin (sqrt x)
  | PInf => PInf
  | NInf | NaN => NaN
  end.
(** 807-814: one coordinate of rhat from the block of each chain (all of the same length n_block) *)
Definition rhat_blocks (n_block : nat) (blocks : list (list R)) : fl :=
  let n := INR n_block in
  let chain_means := map mean_l blocks in
  let W := mean_l (map var1 blocks) in
  let B := n * var1 chain_means in
  let var_post := (n - 1) / n * W + 1 / n * B in
  fl_sqrt (fl_div (Fin var_post) (Fin W)).

Section Mh.
Variable X : Type.
(** user log target; None: it raises an exception *)
Variable log_target : X -> option fl.
Variable Y : nat -> nat -> X.
Variable U : nat -> nat -> R.
(** options.symmetric and _log_prop (178-186): [logq c t x y] is the log density of y given x with the
    proposal covariance of chain c at step t *)
Variable symmetric : bool.
Variable logq : nat -> nat -> X -> X -> fl.

(** 389-393, 396-399: evaluation with the exception caught *)
Definition target (x : X) : fl := match log_target x with Some v => v | None => NInf end.

(** 379-406 mhstep: next state, accepted, its log target *)
Definition mhstep (c t : nat) (x : X) (cached : fl) : X * bool * fl :=
  let lx := if fl_is_nan cached then target x else cached in
  let y := Y c t in
  let ly := target y in
  let log_a := fl_sub ly lx in
  let log_a := if symmetric then log_a
               else fl_add log_a (fl_sub (logq c t y x) (logq c t x y)) in
  if mh_accept (U c t) log_a then (y, true, ly) else (x, false, lx).

(** one chain: the rows x[c, 0..global_iter], accept[c, ..], log_target_values[c, ..] written so far *)
Definition trace := list (X * bool * fl).
Definition st_x (e : X * bool * fl) : X := fst (fst e).
Definition st_acc (e : X * bool * fl) : bool := snd (fst e).
Definition st_lt (e : X * bool * fl) : fl := snd e.
(** the attributes x, accept, log_target_values (rows written), global_iter, burnin_period *)
Record mh := mkMh { traces : list trace; global_iter : nat; burnin_period : nat }.

Definition chain_step (c t : nat) (tr : trace) : trace :=
  match nth_error tr (t - 1) with
  | None => tr
  | Some e => tr ++ [mhstep c t (st_x e) (st_lt e)]
  end.
Fixpoint step_chains (c t : nat) (trs : list trace) : list trace :=
  match trs with [] => [] | tr :: trs => chain_step c t tr :: step_chains (S c) t trs end.
(** 412-443 run_samples *)
Fixpoint run_samples (n : nat) (s : mh) : mh :=
  match n with
  | O => s
  | S n => run_samples n (mkMh (step_chains 0 (S (global_iter s)) (traces s)) (S (global_iter s)) (burnin_period s))
  end.

(** the options used below *)
Variable interval : nat.             (* adaptation_interval *)
Variable haario_pool : option nat.   (* Some n_pool for "Haario", None for "RM" *)
Variable acceptance_min acceptance_max : R.
Variable sliding_width : Z.
Variable dim : nat.
Variable coord : nat -> X -> R.

Definition n_chains (s : mh) : nat := length (traces s).
(** 445-504: one adaptation block; _compute_covariances_for_block (239-240) raises when n_pool does not
    divide the number of chains *)
Definition adapt_block (n : nat) (s : mh) : option mh :=
  let s' := run_samples n s in
  match haario_pool with
  | None => Some s'
  | Some p => if (n_chains s mod p =? 0)%nat then Some s' else None
  end.

Definition accept_row (tr : trace) : list R := map (fun e => if st_acc e then 1 else 0) tr.
Definition slice {A} (i0 i1 : nat) (l : list A) : list A := firstn (i1 - i0) (skipn i0 l).
(** 791-815 compute_gelman_rubin_rhat on rows i0..i1-1; None: ValueError *)
Definition gelman_rubin (i0 i1 : nat) (s : mh) : option (list fl) :=
  if (n_chains s <? 2)%nat then None
  else if (i1 - i0 <=? 1)%nat then None
  else Some (map (fun d => rhat_blocks (i1 - i0)
                             (map (fun tr => map (fun e => coord d (st_x e)) (slice i0 i1 tr)) (traces s)))
                 (seq 0 dim)).
(** 843-846 *)
Definition gr_ok (rh : list fl) : bool := forallb (fun r => fl_lt r (Fin (11 / 10))) rh.
(** 570-583 rates inside the acceptance bounds on the last n_diag positions *)
Definition rates_ok (n_diag : nat) (s : mh) : bool :=
  forallb (fun tr =>
    forallb (fun r => rltb acceptance_min r && rltb r acceptance_max)
      (slice (global_iter s - n_diag) (global_iter s) (sliding_rates sliding_width (global_iter s) (accept_row tr))))
    (traces s).
(** 557-597 the burn-in loop over full blocks; the flag is converged_early; None: exception *)
Fixpoint burnin_loop (n_diag blocks : nat) (s : mh) : option (mh * bool) :=
  match blocks with
  | O => Some (s, false)
  | S b =>
      match adapt_block interval s with
      | None => None
      | Some s' =>
          if (n_diag <=? global_iter s')%nat then
            match gelman_rubin (global_iter s' - n_diag) (global_iter s') s' with
            | None => None
            | Some rh =>
                if rates_ok n_diag s' && gr_ok rh
                then Some (mkMh (traces s') (global_iter s') (global_iter s'), true)
                else burnin_loop n_diag b s'
            end
          else burnin_loop n_diag b s'
      end
  end.
(** 534-618 run_burnin with diag = True, n_blocks_convergence_diag = 20.  The diagnostics printed at the end
    raise only when fewer than two samples are available (743-744, 803-804), which is excluded by 606-608
    unless n_diag_samples <= 1, i.e. adaptation_interval = 0, in which case 551 divides by zero. *)
Definition run_burnin (burnin : nat) (s : mh) : option mh :=
  if (interval =? 0)%nat then None else
  let n_blocks := (burnin / interval)%nat in
  let remainder := (burnin - n_blocks * interval)%nat in
  let n_diag := (20 * interval)%nat in
  match burnin_loop n_diag n_blocks s with
  | None => None
  | Some (s', early) => Some (if early then s' else run_samples remainder s')
  end.
(** 506-532 run_adaptive *)
Fixpoint adapt_blocks (b : nat) (s : mh) : option mh :=
  match b with
  | O => Some s
  | S b => match adapt_block interval s with None => None | Some s' => adapt_blocks b s' end
  end.
Definition run_adaptive (n : nat) (s : mh) : option mh :=
  if (interval =? 0)%nat then None else
  let n_blocks := (n / interval)%nat in
  match adapt_blocks n_blocks s with
  | None => None
  | Some s' => Some (run_samples (n - n_blocks * interval) s')
  end.
(** 620-700 scheduler, from one initial state per chain; log_target_values[:, 0] is NaN, accept[:, 0] is 1 *)
Definition init_mh (burnin : nat) (x0 : list X) : mh :=
  mkMh (map (fun x => [(x, true, NaN)]) x0) 0 burnin.
Definition scheduler (freeze : bool) (n_total burnin : nat) (x0 : list X) : option mh :=
  if (n_total <? burnin)%nat then None else
  match run_burnin burnin (init_mh burnin x0) with
  | None => None
  | Some s => if freeze then Some (run_samples (n_total - burnin) s) else run_adaptive (n_total - burnin) s
  end.
(** 695-700 the returned rows *)
Definition returned (discard : bool) (s : mh) : list (list X) :=
  map (fun tr : trace => map st_x (slice (if discard then burnin_period s else 0) (global_iter s) tr)) (traces s).
(** param_posterior.py 484: samples_post_burnin (run with discard_burnin = False) *)
Definition samples_post_burnin (s : mh) : list (list X) := map (skipn (burnin_period s)) (returned false s).
(** row i of the allocated array x[c]; None: never written (gnp.empty, mh.py 658) *)
Definition x_row (s : mh) (c i : nat) : option X :=
  match nth_error (traces s) c with
  | None => None
  | Some tr => option_map st_x (nth_error tr i)
  end.
(** the rows burnin.. of x[c] up to the end of the allocated array of [1 + n_total] rows: what 214-223, 1181-1212
    read *)
Definition whole_chain_rows (n_total burnin c : nat) (s : mh) : list (option X) :=
  map (x_row s c) (seq burnin (1 + n_total - burnin)).
(** 909-925 ks_statistics: rows read for chain c, the last n_blocks * n_block_size of the allocated array *)
Definition ks_rows (n_total n_blocks n_block_size c : nat) (s : mh) : option (list (option X)) :=
  let needed := (n_blocks * n_block_size)%nat in
  let n_steps := (1 + n_total)%nat in
  if (n_steps <? needed)%nat then None
  else Some (map (x_row s c) (seq (n_steps - needed) needed)).
(** param_posterior.py 281-328 get_log_target_values: the allocated array, cut at burnin_period *)
Definition log_target_row (n_total : nat) (discard : bool) (s : mh) (tr : trace) : list fl :=
  let vals := map st_lt tr ++ repeat NaN (1 + n_total - length tr) in
  if discard then skipn (burnin_period s) vals else vals.
End Mh.

(** param_posterior.py 229-252 _make_log_prob_mh: criterion value or exception, optional box, temperature;
    None: ValueError *)
Definition out_of_box (box : option (list R * list R)) (p : list R) : bool :=
  match box with
  | None => false
  | Some (lo, up) =>
      existsb (fun b => b) (zip2 (fun a b => rltb a b) p lo) || existsb (fun b => b) (zip2 (fun a b => rltb b a) p up)
  end.
Definition make_log_prob_mh (crit : list R -> option fl) (box : option (list R * list R)) (temperature : R)
  : option (list R -> option fl) :=
  if rleb temperature 0 then None
  else Some (fun p =>
    if out_of_box box p then Some NInf
    else match crit p with
         | None => Some NInf
         | Some v => Some (fl_div (fl_opp v) (Fin temperature))
         end).

(** mh.py 930-955 ks_statistics: the matrix of p-values of one coordinate: only pairs i < j are tested, the
    diagonal keeps its initial zero *)
Definition pvalue_entry (pv : nat -> nat -> R) (i j : nat) : R :=
  if (i <? j)%nat then pv i j else if (j <? i)%nat then pv j i else 0.
Definition significant (alpha : R) (B : nat) (pv : nat -> nat -> R) : list bool :=
  flat_map (fun i => map (fun j => rltb (pvalue_entry pv i j) alpha) (seq 0 B)) (seq 0 B).
(** 1016, 1033: sum(sig) / sig.size over all coordinates *)
Definition frac_significant (alpha : R) (B dim : nat) (pv : nat -> nat -> nat -> R) : R :=
  let sig := flat_map (fun d => significant alpha B (pv d)) (seq 0 dim) in
  INR (length (filter (fun b => b) sig)) / INR (length sig).
(** 1036-1038 check_convergence_ks["ok"] *)
Definition ks_ok (alpha threshold : R) (n_chains n_blocks dim : nat)
  (pv_multi pv_single : nat -> nat -> nat -> R) : bool :=
  rltb (frac_significant alpha (n_blocks * n_chains) dim pv_multi) threshold
  && rltb (frac_significant alpha (1 * n_chains) dim pv_single) threshold.
