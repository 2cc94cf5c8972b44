(** Model of moving_average and plot_nuts_diagnostics (gpmp/mcmc/nuts.py 1139-1246), of their use at the end of
    sample_from_selection_criterion_nuts (gpmp/mcmc/param_posterior.py 640-650) and of plot_loo (gpmp/plot/plotutils.py 398-420).  Definitions only.
    Simplified: a figure is the curves drawn in it; labels and image contents are left out; matplotlib does not fail. *)
From Coq Require Import List Arith Reals Bool String.
From Verif Require Import PriorModel MhModel.
Import ListNotations.
Local Open Scope R_scope.

(** an entry of info: one value per iteration, or one row of chains per iteration *)
Inductive series := PerIter (l : list R) | PerChain (rows : list (list R)).
(** 1175, 1182, 1185, 1192: numpy.mean(axis=1) when there is a second axis *)
Definition averaged (s : series) : list R := match s with PerIter l => l | PerChain rows => map mean_l rows end.

(** the attribute convolve of gpmp.num: neither numpy_backend.py (imports at 63-135) nor torch_backend.py defines it, and gpmp/num/__init__.py adds
    the names of the backend and of shared.py only *)
Definition gnp_convolve : option (list R -> list R -> list R) := None.
(** numpy.convolve(y, w, mode="valid") for at most as many weights as values *)
Definition valid_convolve (y w : list R) : list R :=
  map (fun k => sum_list (map (fun j => nth (k + j) y 0 * nth (List.length w - 1 - j) w 0) (seq 0 (List.length w)))) (seq 0 (List.length y - List.length w + 1)).

Section Plot.
Variable convolve : option (list R -> list R -> list R).
(** 1139-1144; None: AttributeError *)
Definition moving_average (y : list R) (window : nat) : option (list R) :=
  if (window <=? 1)%nat then Some y
  else match convolve with Some c => Some (c y (repeat (1 / INR window) window)) | None => None end.

(** a figure: the curve, and the smoothed curve with its abscissas *)
Record figure := Fig { main : list R; smooth : option (list (nat * R)) }.
Record progress := Prog { figs : list figure; files : list string; failed : bool }.
(** one figure: 1197-1203 and following; curves of acceptance are smoothed *)
Definition draw (window : nat) (save : bool) (p : progress) (item : string * list R * bool) : progress :=
  let '(name, y, acc) := item in
  if failed p then p else
  let add sm := Prog (figs p ++ [Fig y sm]) (if save then files p ++ [name] else files p) false in
  if acc && (1 <? window)%nat && (window <=? List.length y)%nat
  then match moving_average y window with
       | Some ma => add (Some (combine (seq (window - 1) (List.length y - (window - 1))) ma))
       | None => Prog (figs p) (files p) true
       end
  else add None.

Record info := Info { warm_eps : list R; warm_acc : series; warm_div : series; samp_acc : series; samp_div : series }.
(** 1173-1246; the figures returned (None: AttributeError) and the files written *)
Definition plot_nuts_diagnostics (i : info) (window : nat) (save : bool) : option (list figure) * list string :=
  let p := fold_left (draw window save)
    [("warmup_step_size.png"%string, warm_eps i, false); ("warmup_accept.png"%string, averaged (warm_acc i), true);
     ("warmup_divergence.png"%string, averaged (warm_div i), false); ("sample_accept.png"%string, averaged (samp_acc i), true);
     ("sample_divergence.png"%string, averaged (samp_div i), false)] (Prog [] [] false) in
  (if failed p then None else Some (figs p), files p).

(** param_posterior.py 640-650: the samples of nuts_sample are returned after the plots *)
Definition finish {A} (samples : A) (i : info) (plot_diagnostics : bool) (window : nat) (save : bool) : option (A * info) :=
  if plot_diagnostics
  then match fst (plot_nuts_diagnostics i window save) with Some _ => Some (samples, i) | None => None end
  else Some (samples, i).
End Plot.

(** plot_loo: points with bars (None: the variance is negative, its root NaN) and the diagonal; auto: the axis limits matplotlib chooses for data *)
Record loo_fig := Loo { points : list (R * R * option (R * R)); from : R; upto : R }.
Definition bar (m v : R) : option (R * R) := if Rle_dec 0 v then Some (m - 196 / 100 * sqrt v, m + 196 / 100 * sqrt v) else None.
Definition plot_loo (auto : list R -> R * R) (data : list (R * R * R)) : loo_fig :=
  let zs := map (fun d => fst (fst d)) data in
  let ms := map (fun d => snd (fst d)) data in
  let ends := flat_map (fun d => match bar (snd (fst d)) (snd d) with Some (a, b) => [a; b] | None => [] end) data in
  let (xmin, xmax) := auto zs in
  let (ymin, ymax) := auto (ms ++ ends) in
  Loo (map (fun d => (fst d, bar (snd (fst d)) (snd d))) data) (Rmin xmin ymin) (Rmax xmax ymax).
