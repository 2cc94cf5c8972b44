(** Property theorems C08 (sharded reducers), C09 (DataLoader.reduce_mean), C11 (scalers). *)
From Coq Require Import List Arith Reals Lra Lia Permutation.
From Verif Require Import DataModel DataProofs DataProofs2 ReduceModel ReduceProofs.
Import ListNotations.
Local Open Scope R_scope.

(** C08: [col j l] is column j of the rows l; [least]/[greatest]: attained bound. *)
Theorem C08_min_max_of_concatenation : forall lst, lst <> [] -> Forall (fun d => d <> []) lst ->
  exists lo hi, reduce_min lst = Arr lo /\ reduce_max lst = Arr hi /\
    forall j, least (lo j) (col j (concat lst)) /\ greatest (hi j) (col j (concat lst)).
Proof.
intros lst H1 H2. destruct (reduce_min_ok lst H1 H2) as (lo & E1 & L1).
destruct (reduce_max_ok lst H1 H2) as (hi & E2 & L2). exists lo, hi. auto.
Qed.
Print Assumptions C08_min_max_of_concatenation.
(** one empty shard is enough to make the extrema raise *)
Theorem C08_min_max_raise_iff : forall lst,
  (reduce_min lst = Raise <-> lst = [] \/ In [] lst) /\
  (reduce_max lst = Raise <-> lst = [] \/ In [] lst).
Proof. exact extrema_raise. Qed.
Print Assumptions C08_min_max_raise_iff.
Theorem C08_mean_of_concatenation : forall lst, concat lst <> [] ->
  exists m, reduce_mean lst = Arr m /\
    forall j, m j = Rsum (col j (concat lst)) / INR (length (col j (concat lst))).
Proof. exact reduce_mean_ok. Qed.
Print Assumptions C08_mean_of_concatenation.
Theorem C08_variance_of_concatenation : forall lst, (2 <= length (concat lst))%nat ->
  exists v, reduce_var lst = Arr v /\
    forall j, v j = Rsum (map (fun x => (x - mean (col j (concat lst))) * (x - mean (col j (concat lst))))
                              (col j (concat lst))) / (INR (length (concat lst)) - 1).
Proof. exact reduce_var_ok. Qed.
Print Assumptions C08_variance_of_concatenation.
Theorem C08_variance_one_row_is_nan : forall lst, length (concat lst) = 1%nat -> reduce_var lst = NanArr.
Proof. exact reduce_var_one. Qed.
Print Assumptions C08_variance_one_row_is_nan.
(** two shards of unequal size, two columns *)
Example C08_case : let r a b : row := fun j => match j with O => a | _ => b end in
  let lst := [[r 1 5]; [r 3 7; r 8 0]] in
  exists m v, reduce_mean lst = Arr m /\ reduce_var lst = Arr v /\ m 0%nat = 4 /\ m 1%nat = 4 /\ v 0%nat = 13.
Proof.
intros r lst. destruct (C08_mean_of_concatenation lst) as (m & E1 & Hm); [discriminate|].
destruct (C08_variance_of_concatenation lst) as (v & E2 & Hv); [simpl; lia|].
exists m, v. split; [exact E1|]. split; [exact E2|]. rewrite !Hm, Hv. unfold mean, col, lst, r; simpl.
repeat split; field.
Qed.

(** C09: the criterion is the mean of g over the rows of a batch; whatever the batch size
    and the order of the rows, the loader's average is the mean of g over all the rows. *)
Theorem C09_reduce_mean_is_row_mean : forall X Z (d : dataset X Z) b idx (g : X * Z -> R),
  wf d -> (1 <= b)%nat -> Permutation idx (seq 0 (ds_size d)) -> rows d <> [] ->
  loader_reduce_mean X Z (fun bt => mean (map g (brows bt))) (epoch d b false idx) = Some (mean (map g (rows d))).
Proof. exact reduce_mean_epoch. Qed.
Print Assumptions C09_reduce_mean_is_row_mean.
Theorem C09_reduce_mean_drop_last : forall X Z (d : dataset X Z) b idx (g : X * Z -> R),
  wf d -> (1 <= b)%nat -> Permutation idx (seq 0 (ds_size d)) ->
  (b <= ds_size d)%nat /\
  (exists kept dropped, Permutation (kept ++ dropped) (rows d) /\ (length dropped < b)%nat /\
     loader_reduce_mean X Z (fun bt => mean (map g (brows bt))) (epoch d b true idx) = Some (mean (map g kept))) \/
  (ds_size d < b)%nat /\
  loader_reduce_mean X Z (fun bt => mean (map g (brows bt))) (epoch d b true idx) = None.
Proof. exact reduce_mean_epoch_drop. Qed.
Print Assumptions C09_reduce_mean_drop_last.
(** any criterion: weights proportional to the batch sizes *)
Theorem C09_weights : forall X Z (func : list X * list Z -> R) bs, bs <> [] ->
  loader_reduce_mean X Z func (map Some bs) =
  Some (Rsum (map (fun b => func b * INR (length (fst b))) bs) / INR (length (concat (map fst bs)))).
Proof. exact rm_ok. Qed.
Print Assumptions C09_weights.
Example C09_case : wf (mkDataset [[1; 2]; [6]] [[0; 0]; [0]]) /\
  loader_reduce_mean R R (fun bt => mean (map fst (brows bt)))
    (epoch (mkDataset [[1; 2]; [6]] [[0; 0]; [0]]) 2 false [0; 1; 2]%nat) = Some 3.
Proof.
split; [reflexivity|]. rewrite C09_reduce_mean_is_row_mean; [|reflexivity|lia|apply Permutation_refl|discriminate].
unfold mean; simpl. f_equal. field.
Qed.

(** C11: the four scalers, whatever statistics they were built from. *)
Theorem C11_scalers_invert : forall a b x,
  let inv s := inverse_transform s (transform s x) = x /\ transform s (inverse_transform s x) = x in
  inv (normalizer_init a b) /\ inv (robust_init a b) /\ inv (observation_init a b) /\ inv (minmax_init a b).
Proof.
intros a b x inv. unfold inv, normalizer_init, robust_init, observation_init, minmax_init.
repeat split; try apply inverse_l; apply inverse_r.
Qed.
Print Assumptions C11_scalers_invert.
Theorem C11_scalers_monotone : forall a b x y,
  let mono s := x < y <-> transform s x < transform s y in
  mono (normalizer_init a b) /\ mono (robust_init a b) /\ mono (observation_init a b) /\ mono (minmax_init a b).
Proof.
intros a b x y mono. unfold mono, normalizer_init, robust_init, observation_init, minmax_init.
repeat apply conj; apply transform_mono.
Qed.
Print Assumptions C11_scalers_monotone.
Theorem C11_minmax_unit_interval : forall l x, In x l -> 0 <= transform (minmax_fit l) x <= 1.
Proof. exact minmax_range. Qed.
Print Assumptions C11_minmax_unit_interval.
Theorem C11_minmax_attains_ends : forall l lo hi, least lo l -> greatest hi l -> / 100000000 <= hi - lo ->
  transform (minmax_fit l) lo = 0 /\ transform (minmax_fit l) hi = 1.
Proof.
intros l lo hi [i1 h1] [i2 h2] H. assert (Hn : l <> []) by (intros ->; destruct i1).
destruct (col_min_least l Hn) as [j1 k1]; destruct (col_max_greatest l Hn) as [j2 k2].
assert (lo = col_min l) as -> by (apply Rle_antisym; auto).
assert (hi = col_max l) as -> by (apply Rle_antisym; auto).
apply minmax_attained; auto.
Qed.
Print Assumptions C11_minmax_attains_ends.
Theorem C11_minmax_constant_column : forall l a x,
  (forall y, In y l -> y = a) -> In x l -> transform (minmax_fit l) x = 0.
Proof. exact minmax_constant. Qed.
Print Assumptions C11_minmax_constant_column.
Theorem C11_normalizer_standardises : forall l, l <> [] ->
  let t := map (transform (normalizer_fit l)) l in
  Rsum t / INR (length t) = 0 /\
  (/ 100000000 <= sqrt (sq_dev l / INR (length l)) -> sq_dev t / INR (length t) = 1).
Proof.
intros l H t. destruct (normalizer_standardises l H) as [H1 H2]. split; [exact H1|].
intros He. apply H2. unfold EPS. replace (col_std l) with (sqrt (sq_dev l / INR (length l))); [exact He|].
unfold col_std. rewrite fold_Rplus, col_mean_mean. unfold sq_dev. do 2 f_equal. lra.
Qed.
Print Assumptions C11_normalizer_standardises.
Example C11_case : transform (minmax_fit [2; 4; 3]) 3 = 1 / 2.
Proof.
unfold transform, minmax_fit, minmax_init, guard_scale, EPS; simpl.
replace (Rmin (Rmin 2 4) 3) with 2 by (rewrite (Rmin_left 2 4), Rmin_left; lra).
replace (Rmax (Rmax 2 4) 3) with 4 by (rewrite (Rmax_right 2 4), Rmax_left; lra).
destruct Rlt_dec; lra.
Qed.
