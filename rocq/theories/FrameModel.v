(** Model of gpmp/misc/dataframe.py (class DataFrame, without printing).  Definitions only. *)
From Coq Require Import String Ascii List Arith ZArith Bool.
From Verif Require Import DataModel ParamModel.
Import ListNotations.

(** Python slice object and [slice.indices(n)]; a zero step is a ValueError. *)
Record slice := mkSlice { sl_start : option Z; sl_stop : option Z; sl_step : option Z }.
Definition full_slice := mkSlice None None None.
Definition clip_bound (n lower upper v : Z) : Z :=
  (if v <? 0 then Z.max (v + n) lower else Z.min v upper)%Z.
Fixpoint z_range (start step : Z) (count : nat) : list Z :=
  match count with O => [] | S c => start :: z_range (start + step)%Z step c end.
Definition slice_positions (s : slice) (n : nat) : option (list nat) :=
  let len := Z.of_nat n in
  let step := match sl_step s with None => 1%Z | Some k => k end in
  if (step =? 0)%Z then None else
  let lower := (if step <? 0 then -1 else 0)%Z in
  let upper := (if step <? 0 then len - 1 else len)%Z in
  let start := match sl_start s with
    | None => if (step <? 0)%Z then upper else lower
    | Some v => clip_bound len lower upper v end in
  let stop := match sl_stop s with
    | None => if (step <? 0)%Z then lower else upper
    | Some v => clip_bound len lower upper v end in
  let count := if (step <? 0)%Z then ((start - stop - step - 1) / (- step))%Z
               else ((stop - start + step - 1) / step)%Z in
  Some (map Z.to_nat (z_range start step (Z.to_nat count))).

(** [np.array] data: two- or one-dimensional *)
Inductive arr (A : Type) := D2 (rows : list (list A)) | D1 (v : list A).
Arguments D2 {A} rows. Arguments D1 {A} v.

(** [__init__] 37-40; note the argument order data, colnames, rownames *)
Record frame (A : Type) := mkFrame { f_data : arr A; f_colnames : list string; f_rownames : list string }.
Arguments mkFrame {A}. Arguments f_data {A}. Arguments f_colnames {A}. Arguments f_rownames {A}.

Inductive key := KSlice (s : slice) | KName (n : string).
Inductive index := Pair (r c : key) | Single (n : string).

Fixpoint opt_all (A B : Type) (f : A -> option B) (l : list A) : option (list B) :=
  match l with
  | [] => Some []
  | a :: r => match f a, opt_all A B f r with Some b, Some t => Some (b :: t) | _, _ => None end
  end.
Arguments opt_all {A B} f l.

(** [data[rows, cols]] for lists of positions *)
Definition sub2 (A : Type) (rows : list (list A)) (rp cp : list nat) : option (list (list A)) :=
  match take rows rp with
  | None => None
  | Some rs => opt_all (fun r => take r cp) rs
  end.
(** [data[rows, j]], [data[i, cols]], [data[i, j]] *)
Definition sub_col (A : Type) (rows : list (list A)) (rp : list nat) (j : nat) : option (list A) :=
  match take rows rp with
  | None => None
  | Some rs => opt_all (fun r => nth_error r j) rs
  end.
Definition sub_row (A : Type) (rows : list (list A)) (i : nat) (cp : list nat) : option (list A) :=
  match nth_error rows i with None => None | Some r => take r cp end.
Definition sub_elt (A : Type) (rows : list (list A)) (i j : nat) : option A :=
  match nth_error rows i with None => None | Some r => nth_error r j end.
Arguments sub2 {A}. Arguments sub_col {A}. Arguments sub_row {A}. Arguments sub_elt {A}.

(** [data.shape[1]]; simplified: a table with no row is taken to have no column *)
Definition ncols (A : Type) (rows : list (list A)) : nat :=
  match rows with [] => 0 | r :: _ => length r end.
Arguments ncols {A}.
(** [l[slice]] on a list *)
Definition list_slice (A : Type) (l : list A) (s : slice) : option (list A) :=
  match slice_positions s (length l) with Some ps => take l ps | None => None end.
Arguments list_slice {A}.

(** [__getitem__] 42-61.  [inl] is a scalar.  The slices of [data] are taken with respect to the
    shape of the data, those of the label lists with respect to their lengths.  One-dimensional data
    indexed by a pair is an IndexError. *)
Definition getitem (A : Type) (df : frame A) (k : index) : option (A + frame A) :=
  match f_data df with
  | D1 _ => None
  | D2 rows =>
    match k with
    | Pair (KSlice a) (KSlice b) =>
        match slice_positions a (length rows), slice_positions b (ncols rows) with
        | Some rp, Some cp =>
            match sub2 rows rp cp, list_slice (f_rownames df) a, list_slice (f_colnames df) b with
            | Some d, Some rn, Some cn => Some (inr (mkFrame (D2 d) rn cn))
            | _, _, _ => None
            end
        | _, _ => None
        end
    | Pair (KSlice a) (KName c) =>
        match slice_positions a (length rows), index_of c (f_colnames df) with
        | Some rp, Some j =>
            match sub_col rows rp j, list_slice (f_rownames df) a with
            | Some d, Some rn => Some (inr (mkFrame (D1 d) rn [c]))
            | _, _ => None
            end
        | _, _ => None
        end
    | Pair (KName r) (KSlice b) =>
        match index_of r (f_rownames df), slice_positions b (ncols rows) with
        | Some i, Some cp =>
            match sub_row rows i cp, list_slice (f_colnames df) b with
            | Some d, Some cn => Some (inr (mkFrame (D1 d) [r] cn))
            | _, _ => None
            end
        | _, _ => None
        end
    | Pair (KName r) (KName c) =>
        match index_of r (f_rownames df), index_of c (f_colnames df) with
        | Some i, Some j => match sub_elt rows i j with Some v => Some (inl v) | None => None end
        | _, _ => None
        end
    | Single n =>
        match index_of n (f_rownames df) with
        | Some i => match nth_error rows i with
                    | Some d => Some (inr (mkFrame (D1 d) [n] (f_colnames df)))
                    | None => None end
        | None =>
          match index_of n (f_colnames df) with
          | Some j => match opt_all (fun r => nth_error r j) rows with
                      | Some d => Some (inr (mkFrame (D1 d) (f_rownames df) [n]))
                      | None => None end
          | None => None
          end
        end
    end
  end.
Arguments getitem {A}.

(** [__setitem__] 63-82 for a pair of names and a scalar value (2-D data) *)
Definition set_elt (A : Type) (df : frame A) (r c : string) (v : A) : frame A * bool :=
  match f_data df, index_of r (f_rownames df), index_of c (f_colnames df) with
  | D2 rows, Some i, Some j =>
      match nth_error rows i with
      | Some row => if Nat.ltb j (length row)
                    then (mkFrame (D2 (upd rows i (upd row j v))) (f_colnames df) (f_rownames df), true)
                    else (df, false)
      | None => (df, false)
      end
  | _, _, _ => (df, false)
  end.
Arguments set_elt {A}.

(** ** Objects with shared label lists: [append_row], [append_col], [concat] 109-123.
    Label lists are mutable objects: a store maps addresses to lists, a frame holds two addresses.
    The result of [concat] along axis 0 keeps the address of self.colnames, along axis 1 that of
    self.rownames; the other list is new. *)
Record hframe (A : Type) := mkHF { h_rows : list (list A); h_cols_at : nat; h_rows_at : nat }.
Arguments mkHF {A}. Arguments h_rows {A}. Arguments h_cols_at {A}. Arguments h_rows_at {A}.
Definition store := list (list string).
Definition sget (s : store) (a : nat) : list string := nth a s [].
(** [np.vstack([data, row_data])]: the row must have the width of the data *)
Definition append_row (A : Type) (width : nat) (s : store) (df : hframe A) (row : list A) (name : string)
  : option (store * hframe A) :=
  if Nat.eqb (length row) width
  then Some (upd s (h_rows_at df) (sget s (h_rows_at df) ++ [name]),
             mkHF (h_rows df ++ [row]) (h_cols_at df) (h_rows_at df))
  else None.
(** [np.hstack([data, np.atleast_2d(col_data).T])] *)
Definition append_col (A : Type) (s : store) (df : hframe A) (col : list A) (name : string)
  : option (store * hframe A) :=
  if Nat.eqb (length col) (length (h_rows df))
  then Some (upd s (h_cols_at df) (sget s (h_cols_at df) ++ [name]),
             mkHF (zip_with (fun r x => r ++ [x]) (h_rows df) col) (h_cols_at df) (h_rows_at df))
  else None.
Fixpoint names_eqb (a b : list string) : bool :=
  match a, b with
  | [], [] => true
  | x :: a', y :: b' => String.eqb x y && names_eqb a' b'
  | _, _ => false
  end.
(** [np.concatenate] needs equal widths (axis 0) or heights (axis 1), implied by equal labels for
    well-formed frames *)
Definition concat0 (A : Type) (s : store) (df other : hframe A) : option (store * hframe A) :=
  if names_eqb (sget s (h_cols_at df)) (sget s (h_cols_at other))
  then Some (s ++ [sget s (h_rows_at df) ++ sget s (h_rows_at other)],
             mkHF (h_rows df ++ h_rows other) (h_cols_at df) (length s))
  else None.
Definition concat1 (A : Type) (s : store) (df other : hframe A) : option (store * hframe A) :=
  if names_eqb (sget s (h_rows_at df)) (sget s (h_rows_at other))
  then Some (s ++ [sget s (h_cols_at df) ++ sget s (h_cols_at other)],
             mkHF (zip_with (fun a b => a ++ b) (h_rows df) (h_rows other)) (length s) (h_rows_at df))
  else None.
Arguments append_row {A}. Arguments append_col {A}. Arguments concat0 {A}. Arguments concat1 {A}.
