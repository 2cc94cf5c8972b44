(** Model of sample_from_selection_criterion_svgd (gpmp/mcmc/param_posterior.py 782-991) and of the start of
    svgd_sample (gpmp/mcmc/svgd.py 394-426).  Definitions only.  Raised exceptions are [None]. *)
From Coq Require Import List Arith Reals Bool.
From Verif Require Import ConfigModel FlModel PriorModel SmcModel MhModel DesignModel PostModel.
From Verif Require SvgdModel.
Import ListNotations.
Local Open Scope R_scope.

(** the box as svgd.py receives it *)
Definition to_side (s : bside) : SvgdModel.side := match s with Bnum v => SvgdModel.Scalar v | Bvec l => SvgdModel.Array l end.
Definition to_box (b : box) : SvgdModel.side * SvgdModel.side := (to_side (fst b), to_side (snd b)).

(** a point replicated n times, plus init_jitter times gaussian noise when n > 1 and init_jitter > 0 (910-914, 921-925,
    929-933, 938-942).  [noise] is the n x dim sample drawn by gnp.randn *)
Definition spread (n : nat) (init_jitter : R) (noise : list (list R)) (x : list R) : list (list R) :=
  if (1 <? n)%nat && rltb 0 init_jitter
  then zip2 (fun x e => zip2 (fun a b => a + init_jitter * b) x e) (repeat x n) noise
  else repeat x n.
(** 896-945: explicit cloud, or None when it is left to svgd_sample and init_box *)
Definition svgd_cloud {C} (inf : option (info C)) (states : option arr) (random_init : bool) (init_box : option box)
  (n : nat) (init_jitter : R) (noise : list (list R)) (dim : nat) : option (option (list (list R)) * option box) :=
  match states with
  | None =>
      if random_init then match init_box with None => None | Some b => Some (None, Some b) end
      else match inf with
           | None => None
           | Some i =>
               match i_covparam i with
               | A1 x0 => if (length x0 =? dim)%nat then Some (Some (spread n init_jitter noise x0), None) else None
               | _ => None
               end
           end
  | Some (A0 v) => if (dim =? 1)%nat then Some (Some (spread n init_jitter noise [v]), None) else None
  | Some (A1 l) => if (length l =? dim)%nat then Some (Some (spread n init_jitter noise l), None) else None
  | Some (A2 c rows) =>
      if (c =? dim)%nat then
        match rows with
        | [x] => if (1 <? n)%nat then Some (Some (spread n init_jitter noise x), None) else Some (Some rows, None)
        | _ => Some (Some rows, None)
        end
      else None
  | Some Ahigh => None
  end.
(** 947-955 gnp.clip to the sampling box *)
Definition clip_cloud (b : option (list R * list R)) (xs : list (list R)) : list (list R) :=
  match b with None => xs | Some (lo, up) => map (fun x => SvgdModel.clip x lo up) xs end.

(** SVGDOptions, the fields that change the result *)
Record svgd_options := mkSvgdOptions {
  so_step : SvgdModel.options; so_n_steps : nat; so_t0 : R; so_t1 : R; so_schedule : SvgdModel.schedule }.
(** 964-981: the options built from the arguments carry the sampling box; [given] replaces them all *)
Definition own_options (o : svgd_options) (sampling_box : option box) : svgd_options :=
  mkSvgdOptions
    (SvgdModel.mkOptions (SvgdModel.o_step_size (so_step o)) (SvgdModel.o_bandwidth (so_step o)) (SvgdModel.o_scale (so_step o))
       (SvgdModel.o_bmin (so_step o)) (SvgdModel.o_precond (so_step o)) (option_map to_box sampling_box) (SvgdModel.o_jitter (so_step o)))
    (so_n_steps o) (so_t0 o) (so_t1 o) (so_schedule o).

(** 881-991.  [args]: the arguments of the call that go into the options; [rand]: the uniform sample of svgd.py 413.
    The final evaluation of the particles (svgd.py 497-500) cannot raise and is not part of the result here *)
Definition sample_svgd (vg : (list R -> option fl) -> list R -> option (fl * list fl)) (inf : option (info (list R -> option fl)))
  (crit : option (list R -> option fl)) (states : option arr) (random_init : bool) (init_box sampling_box : option box) (n : nat)
  (init_jitter : R) (noise rand : list (list R)) (args : svgd_options) (given : option svgd_options)
  : option (list (list R) * list R * list (list (list R))) :=
  match resolve_criterion _ inf crit true with
  | None => None
  | Some f =>
      match infer_dim _ inf states (match init_box with Some b => Some b | None => sampling_box end) with
      | None => None
      | Some dim =>
          match match sampling_box with None => Some None | Some b => option_map Some (normalize_box b dim) end with
          | None => None
          | Some sb =>
              match svgd_cloud inf states random_init init_box n init_jitter noise dim with
              | None => None
              | Some (cloud, ib) =>
                  match make_log_prob_nuts f sb 1 with
                  | None => None
                  | Some log_prob =>
                      let o := match given with Some o => o | None => own_options args sampling_box end in
                      (* svgd.py 398-426 *)
                      let start :=
                        match cloud with
                        | Some xs => Some (clip_cloud sb xs)
                        | None =>
                            match ib with
                            | None => None
                            | Some b =>
                                if (n =? 0)%nat then None
                                else match SvgdModel.normalize_bounds (to_box b) dim with
                                     | None => None
                                     | Some (lo, up) => randunif dim rand lo up
                                     end
                            end
                        end in
                      match start with
                      | None => None
                      | Some xs => SvgdModel.svgd_sample vg log_prob dim (so_step o) (so_n_steps o) (so_t0 o) (so_t1 o) (so_schedule o) xs
                      end
                  end
              end
          end
      end
  end.
