(** Model of gpmp/misc/scoringrules.py.  Definitions only, one entry of the arrays at a time.
    gnp.normal.pdf and gnp.normal.cdf are the density and distribution function of the standard normal law
    ([npdf], [ncdf] of GaussProofs); the bivariate distribution function called at line 96 is an argument. *)
From Coq Require Import Reals Bool.
From Verif Require Import ConfigModel FlModel GaussProofs.
Local Open Scope R_scope.

(** crps_gaussian, scoringrules.py 16-43 *)
Definition crps_gaussian (mu sigma z : R) : R :=
  let t := (z - mu) / sigma in
  let term1 := t * (2 * ncdf t - 1) in
  let term2 := 2 * npdf t in
  let term3 := 1 / sqrt PI in
  sigma * (term1 + term2 - term3).
(** h1 46-47 and 106-107 *)
Definition h1 (t : R) : R := t * ncdf t + npdf t.
(** ei1_up 50-69 *)
Definition ei1_up (mu sigma z : R) : R := sigma * h1 ((mu - z) / sigma).

Section Bivariate.
(** [mvcdf t]: gnp.multivariate_normal.cdf((t, 0), mean 0, cov D_2 D_2^T) with D_2 = ((-1,0),(-1,1)) *)
Variable mvcdf : R -> R.
(** ei2_up 72-103 *)
Definition ei2_up (mu sigma z : R) : R :=
  let t := (mu - z) / sigma in
  let term1 := 2 * t * mvcdf t in
  let term2 := 2 * npdf t * ncdf (- t) in
  let term3 := 1 / sqrt PI * ncdf (t / sqrt (1 / 2)) in
  sigma * (term1 + term2 + term3).
(** tcrps_gaussian 137-143 *)
Definition tcrps_both (mu sigma z a b : R) : R :=
  let term1 := Rmax (Rmin b z - a) 0 in
  let term2 := ei2_up mu sigma b - ei2_up mu sigma a in
  let term3 := -2 * (if rleb z b then ei1_up mu sigma b - ei1_up mu sigma (Rmax a z) else 0) in
  term1 + term2 + term3.
(** tcrps_gaussian 144-148 *)
Definition tcrps_left (mu sigma z b : R) : R :=
  let term1 := Rmin b z in
  let term2 := ei2_up mu sigma b - (mu + sigma / sqrt PI) in
  let term3 := -2 * (if rleb z b then ei1_up mu sigma b - ei1_up mu sigma z else 0) in
  term1 + term2 + term3.
(** tcrps_gaussian 110-152 *)
Definition tcrps_gaussian (mu sigma z : R) (a b : fl) : R :=
  match a, b with
  | Fin a, Fin b => tcrps_both mu sigma z a b
  | _, Fin b => tcrps_left mu sigma z b
  | Fin a, _ => tcrps_left (- mu) sigma (- z) (- a)
  | _, _ => crps_gaussian mu sigma z
  end.
End Bivariate.
