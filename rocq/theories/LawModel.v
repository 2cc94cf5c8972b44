(** Model of the normal law and of random choices in the two backends (gpmp/num).  Definitions only. *)
From Coq Require Import Reals List Arith.
From Coquelicot Require Import Coquelicot.
From Verif Require Import ConfigModel FlModel GaussProofs DiagModel.
Import ListNotations.
Local Open Scope R_scope.

(** NumPy backend: gnp.normal is scipy.stats.norm (numpy_backend.py 142), modelled by its documented formulas *)
Definition np_pdf (x loc scale : R) : R := exp (- (((x - loc) / scale) * ((x - loc) / scale) / 2)) / sqrt (2 * PI) / scale.
Definition np_logpdf (x loc scale : R) : R := - (((x - loc) / scale) * ((x - loc) / scale) / 2) - ln (2 * PI) / 2 - ln scale.
Definition np_logcdf (x loc scale : R) : R := ln (ncdf ((x - loc) / scale)).

(** Torch backend, torch_backend.py 958-980.  [rnd] rounds to a floating-point number; torch.distributions.Normal.cdf is
    0.5 * (1 + erf((x - loc) / scale / sqrt 2)), and erf(u / sqrt 2) = 2 ncdf u - 1 *)
Definition torch_cdf (rnd : R -> R) (x loc scale : R) : R := 1 / 2 * (1 + rnd (2 * ncdf ((x - loc) / scale) - 1)).
(** 965-969: the logarithm of 0 is -inf *)
Definition torch_logcdf (rnd : R -> R) (x loc scale : R) : fl :=
  let c := torch_cdf rnd x loc scale in if Req_EM_T c 0 then NInf else Fin (ln c).
(** 971-975 *)
Definition torch_pdf (x loc scale : R) : R := let t := (x - loc) / scale in 1 / sqrt (2 * PI) * exp (- (1 / 2) * (t * t)).
(** 977-980, torch.distributions.Normal.log_prob *)
Definition torch_logpdf (x loc scale : R) : R :=
  - ((x - loc) * (x - loc)) / (2 * (scale * scale)) - ln scale - ln (sqrt (2 * PI)).

(** performance.py 131-134, 169-171 with targets given as a vector: NumPy gives NaN at the entries where the scale is not positive
    (DiagModel.pit_one); Normal(loc, scale) of Torch checks its arguments and raises (None) if one scale is not positive *)
Definition np_pit (z m v : list R) : list fl := map (fun p => pit_one (fst (fst p)) (snd (fst p)) (snd p)) (combine (combine z m) v).
Definition torch_pit (rnd : R -> R) (z m v : list R) : option (list R) :=
  if forallb (fun s => if Rlt_dec 0 s then true else false) (map (fun y => sqrt (Rmax y 0)) v)
  then Some (map (fun p => torch_cdf rnd (fst (fst p)) (snd (fst p)) (sqrt (Rmax (snd p) 0))) (combine (combine z m) v))
  else None.

(** gnp.choice(a, size, replace=False) without weights, for the rows 0..n-1 of a; perm: the permutation drawn.
    numpy_backend.py 490-496: Generator.choice takes size distinct rows, raises (None) if there are not so many, and without a
    size gives one entry of a rather than an array; which rows: the first of perm.
    torch_backend.py 918-945 *)
Inductive chosen (A : Type) := One (a : A) | Many (l : list A).
Arguments One {A}. Arguments Many {A}.
Definition np_choice {A} (a : list A) (size : option nat) (perm : list nat) (d : A) : option (chosen A) :=
  match size with
  | None => match perm with [] => None | i :: _ => Some (One (nth i a d)) end
  | Some k => if Nat.leb k (length a) then Some (Many (map (fun i => nth i a d) (firstn k perm))) else None
  end.
Definition torch_choice {A} (a : list A) (size : option nat) (perm : list nat) (d : A) : option (chosen A) :=
  let size := match size with None => 1%nat | Some k => k end in
  Some (Many (map (fun i => nth i a d) (firstn size perm))).

(** the mean given to gnp.multivariate_normal for a covariance matrix of size d: numpy_backend.py 502-510, torch_backend.py
    991-1004; None: ValueError *)
Inductive mean_arg := MScalar (m : R) | MVector (l : list R).
Definition np_mean (m : mean_arg) (d : nat) : option (list R) :=
  match m with
  | MScalar x => Some (repeat x d)
  | MVector l => if Nat.eqb (length l) d then Some l else None
  end.
Definition torch_mean (m : mean_arg) (d : nat) : option (list R) :=
  match m with
  | MScalar x => Some (repeat x d)
  | MVector [x] => Some (repeat x d)
  | MVector [] => None
  | MVector l => if Nat.eqb (length l) d then Some l else None
  end.
