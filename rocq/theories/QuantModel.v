(** Model of the quantile, median and standard deviation reducers of gpmp/dataloader.py and of RobustScaler.fit.  Arrays as in
    ReduceModel.  Definitions only.  NaN entries are not modelled. *)
From Coq Require Import List Arith Reals ZArith Bool.
From Verif Require Import ReduceModel.
Import ListNotations.
Local Open Scope R_scope.

(** sorting, as done inside [numpy.percentile] and [torch.quantile] *)
Fixpoint insert (x : R) (l : list R) : list R :=
  match l with [] => [x] | y :: t => if Rle_dec x y then x :: l else y :: insert x t end.
Definition sort (l : list R) : list R := fold_right insert [] l.
(** [gnp.percentile(col, 100 q)] with the linear method (numpy; torch_backend.py 437-456), one column: the virtual index is
    q (n - 1); its integer part and the next index, clipped to n - 1, are interpolated *)
Definition percentile_col (q : R) (l : list R) : R :=
  let s := sort l in
  let h := q * (INR (length l) - 1) in
  let j := Z.to_nat (Int_part h) in
  let nxt := Nat.min (j + 1) (length l - 1) in
  nth j s 0 + (h - INR j) * (nth nxt s 0 - nth j s 0).
Definition column (j : nat) (data : list row) : list R := map (fun r : row => r j) data.
(** along axis 0; both backends reject an array without rows *)
Definition np_percentile (q : R) (data : list row) : out :=
  match data with [] => Raise | _ => Arr (fun j => percentile_col q (column j data)) end.

(** [_reduce_std] 274-275 *)
Definition reduce_std (lst : list (list row)) : out :=
  match reduce_var lst with Raise => Raise | NanArr => NanArr | Arr v => Arr (fun j => sqrt (v j)) end.
(** [_reduce_quantile] 277-282; [gnp.concatenate([])] raises *)
Definition reduce_quantile (lst : list (list row)) (q : R) : out :=
  if Rle_dec 0 q then if Rle_dec q 1 then np_percentile q (concat lst) else Raise else Raise.
(** [_reduce_median] 298-299 *)
Definition reduce_median (lst : list (list row)) : out := reduce_quantile lst (1 / 2).
(** [_reduce_quantile_approx] 284-296; [choice k n m]: the indices drawn by [gnp.choice(n, m, replace=False)] for shard k.
    No shard: division by zero *)
Definition take_rows (data : list row) (idx : list nat) : list row := map (fun i => nth i data rzero) idx.
Definition reduce_quantile_approx (choice : nat -> nat -> nat -> list nat) (lst : list (list row)) (q : R) (sample_size : nat) : out :=
  if Rle_dec 0 q then
    if Rle_dec q 1 then
      match lst with
      | [] => Raise
      | _ => np_percentile q (concat (map (fun kd : nat * list row =>
               let n := length (snd kd) in
               take_rows (snd kd) (choice (fst kd) n (Nat.min n (sample_size / length lst))))
               (combine (seq 0 (length lst)) lst)))
      end
    else Raise
  else Raise.
(** RobustScaler.fit 578-584, one column *)
Definition robust_fit (q_low q_high : R) (l : list R) : scaler :=
  robust_init (percentile_col (50 / 100) l) (percentile_col (q_high / 100) l - percentile_col (q_low / 100) l).
