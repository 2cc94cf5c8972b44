(** Model of gnp.min, gnp.max, gnp.cov, gnp.clip and gnp.split of gpmp/num/torch_backend.py beside the functions of NumPy that
    gpmp/num/numpy_backend.py (lines 63-135) takes over.  Definitions only.  numpy.min, numpy.max, numpy.cov, numpy.clip, numpy.split, torch.min,
    torch.max, torch.cov, torch.clamp and torch.split enter by their documented results.  Simplified: numbers are reals, integer elements are
    integers; weights and second variables of cov, and the dtype arguments, are left out. *)
From Coq Require Import List Arith ZArith Reals Bool.
From Verif Require Import ConfigModel FlModel PriorModel SmcModel MhModel DataModel ConvModel.
Import ListNotations.
Local Open Scope R_scope.

(** arrays with no, one or two axes; c: number of columns *)
Inductive nd := Sc (x : R) | Vec (l : list R) | Mat (c : nat) (rows : list (list R)).
Definition entries (x : nd) : list R := match x with Sc v => [v] | Vec l => l | Mat _ rows => concat rows end.

(** the smallest and the largest element; None: ValueError or IndexError for no element *)
Fixpoint least (l : list R) : option R :=
  match l with [] => None | [v] => Some v | v :: l => match least l with Some w => Some (Rmin v w) | None => None end end.
Fixpoint greatest (l : list R) : option R :=
  match l with [] => None | [v] => Some v | v :: l => match greatest l with Some w => Some (Rmax v w) | None => None end end.
Fixpoint sequence {A} (l : list (option A)) : option (list A) :=
  match l with
  | [] => Some []
  | Some v :: l => match sequence l with Some r => Some (v :: r) | None => None end
  | None :: _ => None
  end.
Definition column (rows : list (list R)) (j : nat) : list R := map (fun r => nth j r 0) rows.

(** along one axis; None: no such axis, or an empty one *)
Definition along (f : list R -> option R) (axis : nat) (keepdims : bool) (x : nd) : option nd :=
  match x, axis with
  | Vec l, 0%nat => option_map (fun v => if keepdims then Vec [v] else Sc v) (f l)
  | Mat c rows, 0%nat =>
      option_map (fun w => if keepdims then Mat c [w] else Vec w) (sequence (map (fun j => f (column rows j)) (seq 0 c)))
  | Mat c rows, 1%nat =>
      option_map (fun w => if keepdims then Mat 1 (map (fun v => [v]) w) else Vec w) (sequence (map f rows))
  | _, _ => None
  end.
(** numpy.min and numpy.max: without axis, of all elements *)
Definition np_extreme (f : list R -> option R) (axis : option nat) (keepdims : bool) (x : nd) : option nd :=
  match axis with
  | Some a => along f a keepdims x
  | None => option_map (fun v => if keepdims then match x with Sc _ => Sc v | Vec _ => Vec [v] | Mat _ _ => Mat 1 [[v]] end else Sc v) (f (entries x))
  end.
(** torch_backend.py 463-470: the default of axis is 0; torch.min(x, dim=0) of a number is the number *)
Definition torch_extreme (f : list R -> option R) (axis : option nat) (keepdims : bool) (x : nd) : option nd :=
  let a := match axis with Some a => a | None => 0%nat end in
  match x, a with
  | Sc v, 0%nat => Some (if keepdims then Vec [v] else Sc v)
  | _, _ => along f a keepdims x
  end.

(** numpy.cov and torch.cov of k variables given as rows with n observations each: a matrix, or a number for one variable *)
Definition cov_entry (ddof : R) (u v : list R) : fl :=
  let s := sum_list (map (fun p => (fst p - mean_l u) * (snd p - mean_l v)) (combine u v)) in
  fl_div (Fin s) (Fin (Rmax 0 (INR (length u) - ddof))).
Inductive cov_res := CNum (x : fl) | CMat (rows : list (list fl)).
Definition cov_rows (ddof : R) (vars : list (list R)) : cov_res :=
  match vars with
  | [v] => CNum (cov_entry ddof v v)
  | _ => CMat (map (fun u => map (cov_entry ddof u) vars) vars)
  end.
(** numpy.cov of a vector: one variable, whatever rowvar is *)
Definition np_cov_vec (rowvar : bool) (ddof : R) (l : list R) : cov_res := cov_rows ddof [l].
(** torch_backend.py 409-433 for a vector: reshaped to one row, transposed when rowvar is False *)
Definition torch_cov_vec (rowvar : bool) (ddof : R) (l : list R) : cov_res :=
  cov_rows ddof (if rowvar then [l] else map (fun v => [v]) l).

(** numpy.clip of an element: the bounds are not converted *)
Definition np_clip (x lo hi : R) : R := Rmin (Rmax x lo) hi.
(** torch_backend.py 485-492: the bounds, given as numbers, are converted to the type of x *)
Definition torch_clip_float (x lo hi : R) : R := Rmin (Rmax x lo) hi.
Definition torch_clip_int (z : Z) (lo hi : R) : Z := Z.min (Z.max z (trunc lo)) (trunc hi).

(** numpy.split(x, n): n equal parts; None: ValueError *)
Definition np_split_int {A} (l : list A) (n : nat) : option (list (list A)) :=
  if (length l mod n =? 0)%nat then Some (chop l (repeat (length l / n)%nat n)) else None.
(** torch_backend.py 337-338: torch.split(x, n), parts of n elements, the last one possibly shorter *)
Fixpoint pieces {A} (fuel : nat) (l : list A) (n : nat) : list (list A) :=
  match fuel with
  | 0%nat => []
  | S fuel => if (length l <=? n)%nat then [l] else firstn n l :: pieces fuel (skipn n l) n
  end.
Definition torch_split_int {A} (l : list A) (n : nat) : option (list (list A)) := Some (pieces (S (length l)) l n).
