(** Model of the reducers, DataLoader.reduce_mean and the scalers of
    gpmp/dataloader.py.  An array is a list of rows, a row maps a column index to a
    real number (axis=0 reductions act on every column).  Definitions only. *)
From Coq Require Import List Arith Reals Bool.
From Verif Require Import DataModel.
Import ListNotations.
Local Open Scope R_scope.

Definition row := nat -> R.
Definition radd (a b : row) : row := fun j => a j + b j.
Definition rsub (a b : row) : row := fun j => a j - b j.
Definition rsq (a : row) : row := fun j => a j * a j.
Definition rzero : row := fun _ => 0.
Definition rmin (a b : row) : row := fun j => Rmin (a j) (b j).
Definition rmax (a b : row) : row := fun j => Rmax (a j) (b j).

(** Result of a reducer: an exception, an array of reals, or an array of NaN (0/0). *)
Inductive out := Raise | Arr (a : row) | NanArr.

(** [gnp.min(data, axis=0)]: ValueError on zero rows. *)
Definition np_min (data : list row) : option row :=
  match data with [] => None | r :: t => Some (fold_left rmin t r) end.
Definition np_max (data : list row) : option row :=
  match data with [] => None | r :: t => Some (fold_left rmax t r) end.
(** [gnp.sum(data, axis=0)] *)
Definition np_sum (data : list row) : row := fold_left radd data rzero.

(** [_reduce_min] 222-232: [acc = None] is [first = True]; returning the unbound
    [global_min] after zero shards raises UnboundLocalError. *)
Fixpoint reduce_min_loop (acc : option row) (lst : list (list row)) : out :=
  match lst with
  | [] => match acc with None => Raise | Some m => Arr m end
  | data :: r =>
      match np_min data with
      | None => Raise
      | Some shard_min =>
          reduce_min_loop (Some match acc with None => shard_min
                                | Some global_min => rmin global_min shard_min end) r
      end
  end.
Definition reduce_min (lst : list (list row)) : out := reduce_min_loop None lst.

(** [_reduce_max] 234-244 *)
Fixpoint reduce_max_loop (acc : option row) (lst : list (list row)) : out :=
  match lst with
  | [] => match acc with None => Raise | Some m => Arr m end
  | data :: r =>
      match np_max data with
      | None => Raise
      | Some shard_max =>
          reduce_max_loop (Some match acc with None => shard_max
                                | Some global_max => rmax global_max shard_max end) r
      end
  end.
Definition reduce_max (lst : list (list row)) : out := reduce_max_loop None lst.

(** The accumulation loop shared by [_reduce_mean] (248-256) and [_reduce_var]
    (263-272): [f] is applied to each shard before the sum. *)
Fixpoint sum_loop (f : list row -> list row) (total : option row) (n : nat)
    (lst : list (list row)) : option row * nat :=
  match lst with
  | [] => (total, n)
  | data :: r =>
      let shard_sum := np_sum (f data) in
      sum_loop f (Some match total with None => shard_sum
                       | Some t => radd t shard_sum end) (n + length data) r
  end.

(** [_reduce_mean] 246-257; [None / n] is a TypeError, and a division of 0 by 0 is NaN. *)
Definition reduce_mean (lst : list (list row)) : out :=
  match sum_loop (fun d => d) None 0 lst with
  | (None, _) => Raise
  | (Some t, 0%nat) => NanArr
  | (Some t, n) => Arr (fun j => t j / INR n)
  end.

(** [_reduce_var] 259-273.  With zero rows in all the shards together, the sum is the
    empty sum and the divisor -1; with one row the result is 0/0. *)
Definition reduce_var (lst : list (list row)) : out :=
  match reduce_mean lst with
  | Raise => Raise
  | NanArr => Arr (fun j => 0 / - 1)
  | Arr mean =>
      match sum_loop (map (fun x => rsq (rsub x mean))) None 0 lst with
      | (None, _) => Raise
      | (Some t, n) => if Nat.eqb n 1 then NanArr else Arr (fun j => t j / (INR n - 1))
      end
  end.

(** [DataLoader.reduce_mean] 484-513 for a scalar criterion, over what [__iter__] yields
    ([None]: the iteration raises).  [None / 0] after no batch is a TypeError. *)
Fixpoint rm_loop (X Z : Type) (func : list X * list Z -> R) (total : option R) (w : nat)
    (ys : list (option (list X * list Z))) : option R :=
  match ys with
  | [] => match total with None => None | Some t => Some (t / INR w) end
  | None :: _ => None
  | Some b :: r =>
      let batch_size := length (fst b) in
      let weighted_value := func b * INR batch_size in
      rm_loop X Z func (Some match total with None => 0 + weighted_value
                             | Some t => t + weighted_value end) (w + batch_size) r
  end.
Definition loader_reduce_mean (X Z : Type) (func : list X * list Z -> R)
    (ys : list (option (list X * list Z))) : option R := rm_loop X Z func None 0 ys.

(** ** Scalers, one column (611-630 for observations) *)
Definition EPS : R := / 100000000.
(** [gnp.where(s < _EPS, 1.0, s)] 544, 566, 592, 616 *)
Definition guard_scale (s : R) : R := if Rlt_dec s EPS then 1 else s.

Record scaler := mkScaler { loc : R; scale : R }.
(** Normalizer 542-544, RobustScaler 564-566, ObservationScaler 614-616: (centre, spread);
    MinMaxScaler 590-592: (x_min, x_max). *)
Definition normalizer_init (mean std : R) : scaler := mkScaler mean (guard_scale std).
Definition robust_init (median iqr : R) : scaler := mkScaler median (guard_scale iqr).
Definition observation_init (mean std : R) : scaler := mkScaler mean (guard_scale std).
Definition minmax_init (x_min x_max : R) : scaler := mkScaler x_min (guard_scale (x_max - x_min)).
(** transform 546-549, 568-571, 594-597, 618-621 *)
Definition transform (s : scaler) (x : R) : R := (x - loc s) / scale s.
(** inverse_transform 551-554, 573-576, 599-602, 623-626 *)
Definition inverse_transform (s : scaler) (x : R) : R := x * scale s + loc s.

(** NumPy [x.mean(axis=0)], [x.std(axis=0)] (population form), and extrema of a column *)
Definition col_mean (l : list R) : R := fold_left Rplus l 0 / INR (length l).
Definition col_std (l : list R) : R :=
  sqrt (fold_left Rplus (map (fun x => (x - col_mean l) * (x - col_mean l)) l) 0 / INR (length l)).
Definition col_min (l : list R) : R := match l with [] => 0 | a :: r => fold_left Rmin r a end.
Definition col_max (l : list R) : R := match l with [] => 0 | a :: r => fold_left Rmax r a end.
(** Normalizer.fit 556-558 and MinMaxScaler.fit 604-608 *)
Definition normalizer_fit (l : list R) : scaler := normalizer_init (col_mean l) (col_std l).
Definition minmax_fit (l : list R) : scaler := minmax_init (col_min l) (col_max l).
