(** Model of gpmp/mcmc/param_posterior.py: preparation of the arguments of the samplers, the targets they are given
    and the MH and SMC entry points.  Definitions only.  Raised exceptions are [None].
    Arrays contain real numbers.  Sides of a box are numbers or one-dimensional arrays. *)
From Coq Require Import List Arith ZArith Reals Bool.
From Verif Require Import ConfigModel FlModel PriorModel SmcModel MhModel DesignModel.
Import ListNotations.
Local Open Scope R_scope.

(** gnp.asarray(param_initial_states): number, vector, matrix with [c] columns (its rows), or an array with more
    than two axes *)
Inductive arr := A0 (v : R) | A1 (l : list R) | A2 (c : nat) (rows : list (list R)) | Ahigh.
(** one side of a box *)
Inductive bside := Bnum (v : R) | Bvec (l : list R).
Definition box := (bside * bside)%type.

Section Post.
(** type of criterion callables *)
Variable C : Type.
(** the attributes of [info] that are read; a missing criterion is None (a non-callable one is not modelled) *)
Record info := mkInfo { i_covparam : arr; i_crit : option C; i_nograd : option C }.

(** param_posterior.py 64-97 _resolve_selection_criterion.  The last test (88-95) cannot be true: crit would be None *)
Definition resolve_criterion (inf : option info) (crit : option C) (require_differentiable : bool) : option C :=
  match inf, crit with
  | None, None | Some _, Some _ => None
  | None, Some f => Some f
  | Some i, None =>
      if require_differentiable then i_crit i
      else match i_nograd i with Some f => Some f | None => i_crit i end
  end.

(** 100-131 _infer_dim *)
Definition infer_dim (inf : option info) (states : option arr) (b : option box) : option nat :=
  match states with
  | Some (A0 _) => Some 1%nat
  | Some (A1 l) => Some (length l)
  | Some (A2 c _) => Some c
  | Some Ahigh => None
  | None =>
      match inf with
      | Some i => match i_covparam i with A1 l => Some (length l) | _ => None end
      | None =>
          match b with
          | Some (Bvec l, _) => Some (length l)
          | _ => None
          end
      end
  end.

(** 134-162 _normalize_bounds *)
Definition flat_side (s : bside) (dim : nat) : list R :=
  match s with
  | Bnum v => repeat v dim
  | Bvec l => match l with [v] => repeat v dim | _ => l end
  end.
Definition normalize_box (b : box) (dim : nat) : option (list R * list R) :=
  let lo := flat_side (fst b) dim in
  let up := flat_side (snd b) dim in
  if (length lo =? dim)%nat && (length up =? dim)%nat then Some (lo, up) else None.

(** theta.T *)
Definition transpose (c : nat) (rows : list (list R)) : list (list R) :=
  map (fun j => map (fun r => nth j r 0) rows) (seq 0 c).
(** 165-216 _normalize_initial_states *)
Definition normalize_states (inf : option info) (states : option arr) (n_chains dim : nat) : option (list (list R)) :=
  match states with
  | None =>
      match inf with
      | None => None
      | Some i =>
          match i_covparam i with
          | A1 x0 => if (length x0 =? dim)%nat then Some (repeat x0 n_chains) else None
          | _ => None
          end
      end
  | Some (A0 v) => if (dim =? 1)%nat then Some (repeat [v] n_chains) else None
  | Some (A1 l) =>
      if (length l =? dim)%nat then Some (repeat l n_chains)
      else if (dim =? 1)%nat && (length l =? n_chains)%nat then Some (map (fun v => [v]) l)
      else None
  | Some (A2 c rows) =>
      let r := length rows in
      if (r =? n_chains)%nat && (c =? dim)%nat then Some rows
      else if (r =? 1)%nat && (c =? dim)%nat then Some (concat (repeat rows n_chains))
      else if (r =? dim)%nat && (c =? n_chains)%nat then Some (transpose c rows)
      else None
  | Some Ahigh => None
  end.

(** 413-439 (MH) and 592-618 (NUTS): criterion, dimension, sampling box and initial states.
    [rand] is the uniform sample drawn by randunif *)
Record prepared := mkPrep { p_crit : C; p_dim : nat; p_box : option (list R * list R); p_states : list (list R) }.
Definition prepare (require_differentiable : bool) (inf : option info) (crit : option C) (states : option arr)
  (random_init : bool) (init_box sampling_box : option box) (n_chains : nat) (rand : list (list R)) : option prepared :=
  match resolve_criterion inf crit require_differentiable with
  | None => None
  | Some f =>
      match infer_dim inf states (match init_box with Some b => Some b | None => sampling_box end) with
      | None => None
      | Some dim =>
          let norm b := match b with
                        | None => Some None
                        | Some b => option_map Some (normalize_box b dim)
                        end in
          match norm init_box, norm sampling_box with
          | Some ib, Some sb =>
              let theta0 :=
                if random_init then
                  match ib with
                  | None => None
                  | Some (lo, up) => randunif dim rand lo up
                  end
                else normalize_states inf states n_chains dim in
              option_map (mkPrep f dim sb) theta0
          | _, _ => None
          end
      end
  end.
End Post.
Arguments mkInfo {C}. Arguments mkPrep {C}.
Arguments i_covparam {C}. Arguments i_crit {C}. Arguments i_nograd {C}.
Arguments p_crit {C}. Arguments p_dim {C}. Arguments p_box {C}. Arguments p_states {C}.

(** 255-278 _make_log_prob_nuts: as _make_log_prob_mh, with gnp.safe_neginf() for -inf *)
Definition make_log_prob_nuts := make_log_prob_mh.

(** 336-484 sample_from_selection_criterion_mh.  Proposals and uniforms are [Y], [U]; options 445-464 with the
    defaults of MHOptions (mh.py 81-113): acceptance between 0.15 and 0.45, sliding width 200, interval 50.
    Result: samples_post_burnin and the sampler.  The two reports at 473-476 raise when fewer than two rows follow
    the burn-in, or when there are fewer than two chains *)
Definition coordinate (d : nat) (x : list R) : R := nth d x 0.
Definition sample_mh (Y : nat -> nat -> list R) (U : nat -> nat -> R) (inf : option (info (list R -> option fl)))
  (crit : option (list R -> option fl)) (states : option arr) (random_init : bool) (init_box sampling_box : option box)
  (temperature : R) (n_total burnin n_chains n_pool : nat) (silent : bool) (rand : list (list R))
  : option (list (list (list R)) * mh (list R)) :=
  match prepare _ false inf crit states random_init init_box sampling_box n_chains rand with
  | None => None
  | Some p =>
      if (n_total <? burnin)%nat then None else
      match make_log_prob_mh (p_crit p) (p_box p) temperature with
      | None => None
      | Some f =>
          (* mh.py 632-646: the initial array must have shape (n_chains, dim) *)
          if negb ((length (p_states p) =? n_chains)%nat && forallb (fun r => length r =? p_dim p)%nat (p_states p)) then None else
          match scheduler (list R) f Y U true (fun _ _ _ _ => Fin 0) 50 (Some n_pool) (3 / 20) (9 / 20) 200%Z
                  (p_dim p) coordinate false n_total burnin (p_states p) with
          | None => None
          | Some s =>
              if silent then Some (samples_post_burnin (list R) s, s)
              else if (global_iter (list R) s - burnin_period (list R) s <=? 1)%nat then None
              else match gelman_rubin (list R) (p_dim p) coordinate (burnin_period (list R) s) (global_iter (list R) s) s with
                   | None => None
                   | Some _ => Some (samples_post_burnin (list R) s, s)
                   end
          end
      end
  end.

(** 742-760 logpdf_temp of sample_from_selection_criterion_smc: on one point, then on an array of points.  The
    criterion is not protected: an exception (None) goes through, and all rows are evaluated, in the box or not *)
Definition smc_logpdf_1d (crit : list R -> option fl) (b : option (list R * list R)) (temperature : R) (x : list R) : option fl :=
  if out_of_box b x then Some NInf
  else option_map (fun v => fl_div (fl_opp v) (Fin temperature)) (crit x).
Definition in_box_row (lo up x : list R) : bool :=
  forallb (fun c => c) (zip2 (fun a l => rleb l a) x lo) && forallb (fun c => c) (zip2 (fun a u => rleb a u) x up).
Fixpoint all_values {V} (l : list (option V)) : option (list V) :=
  match l with [] => Some [] | Some v :: l => option_map (cons v) (all_values l) | None :: _ => None end.
Definition smc_logpdf_2d (crit : list R -> option fl) (b : option (list R * list R)) (temperature : R)
  (xs : list (list R)) : option (list fl) :=
  match all_values (map crit xs) with
  | None => None
  | Some vals =>
      let out := map (fun v => fl_div (fl_opp v) (Fin temperature)) vals in
      Some (match b with
            | None => out
            | Some (lo, up) => zip2 (fun x v => if in_box_row lo up x then v else NInf) xs out
            end)
  end.
