(** Model of gpmp/dataloader.py (Dataset, DataLoader, k-fold) and of the two
    backend [split] functions it relies on.

    Arrays with first dimension n are lists of length n of rows; the row types
    [X] (covariates) and [Z] (observations) are arbitrary.  Exceptions are [None].
    Random permutations are arguments. *)
From Coq Require Import List Arith ZArith Lia Bool.
Import ListNotations.

Set Implicit Arguments.

(** ** Python / NumPy primitives *)

(** Python/NumPy scalar indexing of a length-n sequence: 0 <= i < n, or
    -n <= i < 0 counted from the end, IndexError otherwise. *)
Definition py_index (A : Type) (l : list A) (i : Z) : option A :=
  if (0 <=? i)%Z then nth_error l (Z.to_nat i)
  else if (- Z.of_nat (length l) <=? i)%Z
       then nth_error l (Z.to_nat (Z.of_nat (length l) + i))
       else None.

(** Fancy indexing [a[idx]] with an integer array. *)
Fixpoint py_take (A : Type) (l : list A) (idx : list Z) : option (list A) :=
  match idx with
  | [] => Some []
  | i :: r => match py_index l i, py_take l r with
              | Some a, Some t => Some (a :: t)
              | _, _ => None
              end
  end.

(** [bisect.bisect_right] on a non-decreasing list: number of leading elements <= x. *)
Fixpoint bisect_right (l : list Z) (x : Z) : nat :=
  match l with
  | [] => 0
  | a :: r => if (a <=? x)%Z then S (bisect_right r x) else 0
  end.

(** Python slice [l[a:b]] with 0 <= a and 0 <= b. *)
Definition py_slice (A : Type) (l : list A) (a b : nat) : list A :=
  firstn (b - a) (skipn a l).

(** [range(0, n, step)] for step >= 1: the multiples of step below n. *)
Definition py_range0 (n step : nat) : list nat :=
  map (fun k => k * step) (seq 0 ((n + step - 1) / step)).

(** [gnp.concatenate] of a list of arrays: ValueError on the empty list. *)
Definition np_concatenate (A : Type) (l : list (list A)) : option (list A) :=
  match l with [] => None | _ => Some (concat l) end.

(** ** Dataset (dataloader.py 55-299) *)

Record dataset (X Z : Type) := mkDataset { x_list : list (list X); z_list : list (list Z) }.

(** [Dataset.__init__] 66-89: shard counts and shard lengths must agree
    (AssertionError otherwise). *)
Definition dataset_init (X Z : Type) (xs : list (list X)) (zs : list (list Z))
  : option (dataset X Z) :=
  if Nat.eqb (length xs) (length zs)
     && forallb (fun p => Nat.eqb (length (fst p)) (length (snd p))) (combine xs zs)
  then Some (mkDataset xs zs) else None.

(** [self.size] 88. *)
Definition ds_size (X Z : Type) (d : dataset X Z) : nat :=
  fold_left (fun s xi => s + length xi) (x_list d) 0.

(** [_compute_shard_bounds] 91-98. *)
Fixpoint bounds_loop (A : Type) (cum : nat) (l : list (list A)) : list nat :=
  match l with
  | [] => []
  | xi :: r => (cum + length xi) :: bounds_loop (cum + length xi) r
  end.
Definition shard_bounds (X Z : Type) (d : dataset X Z) : list nat := bounds_loop 0 (x_list d).

(** [Dataset.__getitem__] 105-110.  [self.x_list[shard_idx]] is Python list indexing with
    a non-negative index. *)
Definition ds_getitem (X Z : Type) (d : dataset X Z) (idx : BinInt.Z) : option (X * Z) :=
  let bounds := shard_bounds d in
  let shard_idx := bisect_right (map Z.of_nat bounds) idx in
  let start := match shard_idx with 0 => 0 | S k => nth k bounds 0 end in
  let local_idx := (idx - Z.of_nat start)%Z in
  match nth_error (x_list d) shard_idx, nth_error (z_list d) shard_idx with
  | Some xs, Some zs =>
      match py_index xs local_idx, py_index zs local_idx with
      | Some a, Some b => Some (a, b)
      | _, _ => None
      end
  | _, _ => None
  end.

(** [gnp.sort] (line 130), as insertion sort on integers. *)
Fixpoint z_insert (a : BinInt.Z) (l : list BinInt.Z) : list BinInt.Z :=
  match l with
  | [] => [a]
  | b :: r => if (a <=? b)%Z then a :: l else b :: z_insert a r
  end.
Fixpoint z_sort (l : list BinInt.Z) : list BinInt.Z :=
  match l with [] => [] | a :: r => z_insert a (z_sort r) end.

(** The shard loop shared by [Dataset.subset] (134-144) and [DataLoader._fetch_batch]
    (413-423): for each shard with global range [start, end), the requested indices
    falling in that range, shifted to local ones, select rows of the shard; shards
    hit by no index contribute nothing.  [shard_starts] is the running [start]
    ([0] + bounds[:-1]) and [shard_ends] the running [end] (bounds). *)
Fixpoint select_loop (X Z : Type) (start : nat) (xs : list (list X)) (zs : list (list Z))
    (idx : list BinInt.Z) : option (list (list X) * list (list Z)) :=
  match xs, zs with
  | x :: xs', z :: zs' =>
      let stop := start + length x in
      let hit := filter (fun i => (Z.of_nat start <=? i)%Z && (i <? Z.of_nat stop)%Z) idx in
      match select_loop stop xs' zs' idx with
      | None => None
      | Some (rx, rz) =>
          match hit with
          | [] => Some (rx, rz)
          | _ => let local := map (fun i => (i - Z.of_nat start)%Z) hit in
                 match py_take x local, py_take z local with
                 | Some a, Some b => Some (a :: rx, b :: rz)
                 | _, _ => None
                 end
          end
      end
  | _, _ => Some ([], [])
  end.

(** [Dataset.subset] 122-146 for a 1-D index array. *)
Definition ds_subset (X Z : Type) (d : dataset X Z) (indices : list BinInt.Z)
  : option (dataset X Z) :=
  match select_loop 0 (x_list d) (z_list d) (z_sort indices) with
  | None => None
  | Some (xs, zs) => dataset_init xs zs
  end.

(** [Dataset.split] 149-173.  [perm] is [gnp.permutation(n)]; [n_tr] and [n_va] are
    [int(ratios[0]*n)] and [int(ratios[1]*n)], computed by [split_counts]. *)
Definition ds_split (X Z : Type) (d : dataset X Z) (perm : list nat) (n_tr n_va : nat)
  : option (dataset X Z * dataset X Z * dataset X Z) :=
  let idx := map Z.of_nat perm in
  match ds_subset d (firstn n_tr idx),
        ds_subset d (py_slice idx n_tr (n_tr + n_va)),
        ds_subset d (skipn (n_tr + n_va) idx) with
  | Some a, Some b, Some c => Some (a, b, c)
  | _, _, _ => None
  end.

(** [int(ratio*n)] with the ratio an exact rational [num/den] (floats are dyadic
    rationals; the product is not rounded here). *)
Definition split_count (num den : nat) (n : nat) : nat := num * n / den.

(** ** k-fold (dataloader.py 176-219) *)

(** NumPy [split(idx, bounds)]: pieces between consecutive points of [0] + bounds + [n]. *)
Fixpoint np_split_from (A : Type) (l : list A) (st : nat) (bounds : list nat) : list (list A) :=
  match bounds with
  | [] => [skipn st l]
  | b :: r => py_slice l st b :: np_split_from l b r
  end.
Definition np_split (A : Type) (l : list A) (bounds : list nat) : option (list (list A)) :=
  Some (np_split_from l 0 bounds).

(** [torch.split(x, sizes)]: sizes must be non-negative and sum to the length. *)
Fixpoint chop (A : Type) (l : list A) (sizes : list nat) : list (list A) :=
  match sizes with
  | [] => []
  | s :: r => firstn s l :: chop (skipn s l) r
  end.
Definition torch_split_sizes (A : Type) (l : list A) (sizes : list BinInt.Z)
  : option (list (list A)) :=
  if forallb (fun s => (0 <=? s)%Z) sizes
     && (fold_right Z.add 0 sizes =? Z.of_nat (length l))%Z
  then Some (chop l (map Z.to_nat sizes)) else None.

(** [_sizes_from_bounds] torch_backend.py 305-323. *)
Fixpoint z_diff (prev : BinInt.Z) (l : list BinInt.Z) (total : BinInt.Z) : list BinInt.Z :=
  match l with
  | [] => [(total - prev)%Z]
  | b :: r => (b - prev)%Z :: z_diff b r total
  end.
Definition sizes_from_bounds (bounds : list BinInt.Z) (len : BinInt.Z) : list BinInt.Z :=
  z_diff 0 bounds len.

(** [gnp.split] of the Torch backend, torch_backend.py 326-354, on a list/tensor argument. *)
Definition torch_split (A : Type) (l : list A) (bounds : list nat) : option (list (list A)) :=
  let vec := map Z.of_nat bounds in
  match vec with
  | [] => None
  | _ => let total := fold_right Z.add 0%Z vec in
         let len := Z.of_nat (length l) in
         let sizes := if (total =? len)%Z then vec else sizes_from_bounds vec len in
         torch_split_sizes l sizes
  end.

Fixpoint cumsum_from (acc : nat) (l : list nat) : list nat :=
  match l with [] => [] | a :: r => (acc + a) :: cumsum_from (acc + a) r end.

(** [folds[j] for j in range(n_splits) if j != k]; an out-of-range [folds[j]] is an IndexError. *)
Fixpoint get_folds (A : Type) (folds : list (list A)) (js : list nat) : option (list (list A)) :=
  match js with
  | [] => Some []
  | j :: r => match nth_error folds j, get_folds folds r with
              | Some f, Some t => Some (f :: t)
              | _, _ => None
              end
  end.

Fixpoint kfold_loop (A : Type) (folds : list (list A)) (k : nat) (ks : list nat)
  : option (list (list A * list A)) :=
  match ks with
  | [] => Some []
  | j :: r =>
      match nth_error folds j,
            get_folds folds (filter (fun i => negb (Nat.eqb i j)) (seq 0 k)) with
      | Some val, Some others =>
          match np_concatenate others, kfold_loop folds k r with
          | Some train, Some t => Some ((train, val) :: t)
          | _, _ => None
          end
      | _, _ => None
      end
  end.

(** [sizes] and [bounds] of [k_fold_indices], lines 188-195. *)
Definition kfold_sizes (n k : nat) : list nat :=
  repeat (n / k + 1) (n mod k) ++ repeat (n / k) (k - n mod k).
Definition kfold_bounds (n k : nat) : list nat := removelast (cumsum_from 0 (kfold_sizes n k)).

(** [k_fold_indices] 176-203; [split] is the backend's split, [perm] the permutation.
    [n_splits = 0] raises ZeroDivisionError. *)
Definition k_fold_indices (split : list nat -> list nat -> option (list (list nat)))
    (perm : list nat) (n k : nat) : option (list (list nat * list nat)) :=
  match k with
  | 0 => None
  | _ => match split perm (kfold_bounds n k) with
         | None => None
         | Some folds => kfold_loop folds k (seq 0 k)
         end
  end.

(** [repeated_k_fold_indices] 206-219; [perms r] is the permutation drawn in repetition [r]. *)
Fixpoint repeated_k_fold (split : list nat -> list nat -> option (list (list nat)))
    (perms : list (list nat)) (n k : nat) : option (list (list nat * list nat)) :=
  match perms with
  | [] => Some []
  | p :: r => match k_fold_indices split p n k, repeated_k_fold split r n k with
              | Some a, Some b => Some (a ++ b)
              | _, _ => None
              end
  end.

(** ** DataLoader (dataloader.py 322-513) *)

(** [__init__] 344-380: [batch_size=None] means the dataset length; non-positive raises. *)
Definition loader_batch_size (n : nat) (batch_size : option BinInt.Z) : option nat :=
  let b := match batch_size with None => Z.of_nat n | Some b => b end in
  if (b <=? 0)%Z then None else Some (Z.to_nat b).

(** [_fetch_batch] 408-425. *)
Definition fetch_batch (X Z : Type) (d : dataset X Z) (batch_idx : list BinInt.Z)
  : option (list X * list Z) :=
  match select_loop 0 (x_list d) (z_list d) batch_idx with
  | None => None
  | Some (xs, zs) => match np_concatenate xs, np_concatenate zs with
                     | Some a, Some b => Some (a, b)
                     | _, _ => None
                     end
  end.

(** The inner [for] loop of [__iter__] 397-402: what is yielded, [None] standing for an
    exception raised by [_fetch_batch]. *)
Fixpoint epoch_loop (X Z : Type) (d : dataset X Z) (n b : nat) (drop_last : bool)
    (idx : list nat) (starts : list nat) : list (option (list X * list Z)) :=
  match starts with
  | [] => []
  | start :: r =>
      let stop := start + b in
      if (n <? stop) && drop_last then []
      else fetch_batch d (map Z.of_nat (py_slice idx start stop))
           :: epoch_loop d n b drop_last idx r
  end.

(** One pass of the [while True] body of [__iter__] 390-402 for the index order [idx]
    (a permutation when shuffling, [arange(n)] otherwise). *)
Definition epoch (X Z : Type) (d : dataset X Z) (b : nat) (drop_last : bool) (idx : list nat)
  : list (option (list X * list Z)) :=
  epoch_loop d (ds_size d) b drop_last idx (py_range0 (ds_size d) b).

Inductive status := Running | Stopped.

(** [__iter__] 388-406 observed for at most [fuel] passes of the [while True] loop, starting at
    epoch [e]: everything yielded, and whether the generator has finished.
    [idx_of e] is the index order drawn at epoch [e]. *)
Fixpoint iterate (X Z : Type) (d : dataset X Z) (b : nat) (drop_last infinite : bool)
    (idx_of : nat -> list nat) (e : nat) (fuel : nat)
  : list (option (list X * list Z)) * status :=
  match fuel with
  | 0 => ([], Running)
  | S f => let ys := epoch d b drop_last (idx_of e) in
           if infinite
           then let '(rest, st) := iterate d b drop_last infinite idx_of (S e) f in
                (ys ++ rest, st)
           else (ys, Stopped)
  end.

(** [__len__] 428-432. *)
Definition loader_len (X Z : Type) (d : dataset X Z) (b : nat) (drop_last : bool) : nat :=
  let n := ds_size d in
  let full := n / b in
  if drop_last || (n mod b =? 0) then full else full + 1.

(** [__getitem__] with an int, 452-467 ([shuffle] and [infinite] raise RuntimeError). *)
Definition loader_getitem (X Z : Type) (d : dataset X Z) (b : nat)
    (shuffle drop_last infinite : bool) (index : BinInt.Z) : option (list X * list Z) :=
  if shuffle || infinite then None else
  let nb := Z.of_nat (loader_len d b drop_last) in
  let index := if (index <? 0)%Z then (index + nb)%Z else index in
  if (0 <=? index)%Z && (index <? nb)%Z then
    let n := ds_size d in
    let start := Z.to_nat index * b in
    let stop := Nat.min (start + b) n in
    if (n <? stop) && drop_last then None
    else fetch_batch d (map Z.of_nat (seq start (stop - start)))
  else None.

(** [__getitem__] with a slice, 452-453 and 469-471; the index list is
    [range( *index.indices(n_batches))]. *)
Fixpoint getitems (X Z : Type) (d : dataset X Z) (b : nat)
    (drop_last : bool) (is : list BinInt.Z) : option (list (list X * list Z)) :=
  match is with
  | [] => Some []
  | i :: r => match loader_getitem d b false drop_last false i, getitems d b drop_last r with
              | Some a, Some t => Some (a :: t)
              | _, _ => None
              end
  end.
Definition loader_getslice (X Z : Type) (d : dataset X Z) (b : nat)
    (shuffle drop_last infinite : bool) (is : list BinInt.Z) : option (list (list X * list Z)) :=
  if shuffle || infinite then None else getitems d b drop_last is.

(** [collate_batches] 636-648. *)
Definition collate_batches (X Z : Type) (l : list (list X * list Z)) : option (list X * list Z) :=
  match l with
  | [] => None
  | _ => Some (concat (map fst l), concat (map snd l))
  end.
