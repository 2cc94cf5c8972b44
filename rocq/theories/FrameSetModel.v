(** Model of DataFrame.__setitem__, gpmp/misc/dataframe.py 63-82, for all forms of keys and scalar, one- and two-dimensional values.
    Definitions only. *)
From Coq Require Import String List Arith ZArith Bool.
From Verif Require Import DataModel ParamModel FrameModel.
Import ListNotations.

(** the value assigned: a scalar, a vector, or an array with [w] columns *)
Inductive value (A : Type) := VScalar (a : A) | V1 (l : list A) | V2 (w : nat) (rows : list (list A)).
Arguments VScalar {A} a. Arguments V1 {A} l. Arguments V2 {A} w rows.

(** NumPy assignment: an axis of length one is repeated *)
Definition stretch (A : Type) (n : nat) (l : list A) : option (list A) :=
  if Nat.eqb (length l) n then Some l else match l with [a] => Some (repeat a n) | _ => None end.
Arguments stretch {A} n l.
(** to a target of shape (R, C) *)
Definition bcast2 (A : Type) (nr nc : nat) (v : value A) : option (list (list A)) :=
  match v with
  | VScalar a => Some (repeat (repeat a nc) nr)
  | V1 l => match stretch nc l with Some l' => Some (repeat l' nr) | None => None end
  | V2 w rows =>
      if Nat.eqb w nc || Nat.eqb w 1 then
        match stretch nr rows with Some rows' => opt_all (stretch nc) rows' | None => None end
      else None
  end.
(** to a target of shape (n,); leading axes of length one are dropped *)
Definition bcast1 (A : Type) (n : nat) (v : value A) : option (list A) :=
  match v with
  | VScalar a => Some (repeat a n)
  | V1 l => stretch n l
  | V2 _ [r] => stretch n r
  | V2 _ _ => None
  end.
Arguments bcast2 {A}. Arguments bcast1 {A}.

(** [data[rp, cp] = vals], cell by cell *)
Definition assign_row (A : Type) (row : list A) (cp : list nat) (vals : list A) : list A :=
  fold_left (fun r jv => upd r (fst jv) (snd jv)) (combine cp vals) row.
Definition assign (A : Type) (rows : list (list A)) (rp cp : list nat) (vals : list (list A)) : list (list A) :=
  fold_left (fun d iv => match nth_error d (fst iv) with Some r => upd d (fst iv) (assign_row A r cp (snd iv)) | None => d end)
    (combine rp vals) rows.
Arguments assign_row {A}. Arguments assign {A}.

(** an index beyond the data is an IndexError *)
Definition put (A : Type) (df : frame A) (rows : list (list A)) (rp cp : list nat) (vals : option (list (list A))) : frame A * bool :=
  match vals with
  | Some m => if forallb (fun i => Nat.ltb i (length rows)) rp && forallb (fun j => Nat.ltb j (ncols rows)) cp
              then (mkFrame (D2 (assign rows rp cp m)) (f_colnames df) (f_rownames df), true) else (df, false)
  | None => (df, false)
  end.
Arguments put {A}.
Definition one_row (A : Type) (o : option (list A)) : option (list (list A)) := match o with Some l => Some [l] | None => None end.
Definition one_col (A : Type) (o : option (list A)) : option (list (list A)) :=
  match o with Some l => Some (map (fun a => [a]) l) | None => None end.
Arguments one_row {A}. Arguments one_col {A}.
(** [__setitem__] 63-82; [false]: an exception.  Two names: a scalar value only (an array of one entry, which NumPy
    accepts with a warning, is not modelled) *)
Definition setitem (A : Type) (df : frame A) (k : index) (v : value A) : frame A * bool :=
  match f_data df with
  | D1 _ => (df, false)
  | D2 rows =>
    match k with
    | Pair (KSlice a) (KSlice b) =>
        match slice_positions a (length rows), slice_positions b (ncols rows) with
        | Some rp, Some cp => put df rows rp cp (bcast2 (length rp) (length cp) v)
        | _, _ => (df, false)
        end
    | Pair (KSlice a) (KName c) =>
        match slice_positions a (length rows), index_of c (f_colnames df) with
        | Some rp, Some j => put df rows rp [j] (one_col (bcast1 (length rp) v))
        | _, _ => (df, false)
        end
    | Pair (KName r) (KSlice b) =>
        match index_of r (f_rownames df), slice_positions b (ncols rows) with
        | Some i, Some cp => put df rows [i] cp (one_row (bcast1 (length cp) v))
        | _, _ => (df, false)
        end
    | Pair (KName r) (KName c) =>
        match index_of r (f_rownames df), index_of c (f_colnames df), v with
        | Some i, Some j, VScalar a => put df rows [i] [j] (Some [[a]])
        | _, _, _ => (df, false)
        end
    | Single n =>
        match index_of n (f_rownames df) with
        | Some i => put df rows [i] (seq 0 (ncols rows)) (one_row (bcast1 (ncols rows) v))
        | None =>
          match index_of n (f_colnames df) with
          | Some j => put df rows (seq 0 (length rows)) [j] (one_col (bcast1 (length rows) v))
          | None => (df, false)
          end
        end
    end
  end.
Arguments setitem {A}.
