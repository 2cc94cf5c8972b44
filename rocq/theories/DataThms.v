(** Property theorems C01-C07 and C10 (dataloader.py, torch_backend.split). *)
From Coq Require Import List Arith ZArith Lia Bool Permutation Sorted.
From Verif Require Import DataModel DataProofs DataProofs2.
Import ListNotations.

(** A dataset in three shards (one of them empty) used as a concrete case below. *)
Definition demo : dataset nat nat :=
  mkDataset [[10; 11]; []; [12; 13; 14]] [[20; 21]; []; [22; 23; 24]].
Example demo_wf : wf demo. Proof. reflexivity. Qed.
Example demo_perm : Permutation [3; 0; 4; 1; 2] (seq 0 (ds_size demo)).
Proof.
  apply NoDup_Permutation; [repeat constructor; simpl; intuition lia|apply seq_NoDup|].
  intros x. simpl. intuition.
Qed.

(** C01: one epoch without drop_last. *)
Theorem C01_epoch_exactly_once :
  forall X Z (d : dataset X Z) b idx,
  wf d -> 1 <= b -> Permutation idx (seq 0 (ds_size d)) ->
  exists bs, epoch d b false idx = map Some bs /\
    Forall (fun bt => length (fst bt) = length (snd bt)) bs /\
    Permutation (concat (map (@brows X Z) bs)) (rows d) /\
    (idx = seq 0 (ds_size d) -> concat (map (@brows X Z) bs) = rows d) /\
    length bs = (ds_size d + b - 1) / b /\
    last_ok b (map fst bs).
Proof. exact epoch_keep. Qed.
Print Assumptions C01_epoch_exactly_once.
Example C01_case : epoch demo 2 false [3; 0; 4; 1; 2] =
  [Some ([10; 13], [20; 23]); Some ([11; 14], [21; 24]); Some ([12], [22])].
Proof. reflexivity. Qed.

Theorem C01_epoch_drop_last :
  forall X Z (d : dataset X Z) b idx,
  wf d -> 1 <= b -> Permutation idx (seq 0 (ds_size d)) ->
  exists bs dropped, epoch d b true idx = map Some bs /\
    Forall (fun bt => length (fst bt) = b /\ length (snd bt) = b) bs /\
    Permutation (concat (map (@brows X Z) bs) ++ dropped) (rows d) /\
    (idx = seq 0 (ds_size d) -> concat (map (@brows X Z) bs) ++ dropped = rows d) /\
    length bs = ds_size d / b /\ length dropped < b.
Proof. exact epoch_drop. Qed.
Print Assumptions C01_epoch_drop_last.
Example C01_drop_case : epoch demo 2 true (seq 0 5) =
  [Some ([10; 11], [20; 21]); Some ([12; 13], [22; 23])].
Proof. reflexivity. Qed.

(** Collating the batches of an epoch keeps each input with its observation. *)
Theorem C01_collate_epoch :
  forall X Z (d : dataset X Z) b idx, wf d -> 1 <= b -> 1 <= ds_size d ->
  Permutation idx (seq 0 (ds_size d)) ->
  exists bs xs zs, epoch d b false idx = map Some bs /\ collate_batches bs = Some (xs, zs) /\
    length xs = length zs /\ Permutation (combine xs zs) (rows d) /\
    (idx = seq 0 (ds_size d) -> combine xs zs = rows d).
Proof. exact collate_epoch. Qed.
Print Assumptions C01_collate_epoch.
Example C01_collate_case :
  collate_batches [([10; 13], [20; 23]); ([11; 14], [21; 24]); ([12], [22])]
  = Some ([10; 13; 11; 14; 12], [20; 23; 21; 24; 22]) /\ collate_batches (@nil (list nat * list nat)) = None.
Proof. split; reflexivity. Qed.

(** C02 *)
Theorem C02_len_is_number_of_batches :
  forall X Z (d : dataset X Z) b drop idx, wf d -> 1 <= b ->
  Permutation idx (seq 0 (ds_size d)) ->
  length (epoch d b drop idx) = loader_len d b drop.
Proof. exact loader_len_spec. Qed.
Print Assumptions C02_len_is_number_of_batches.
Example C02_len_case : loader_len demo 2 false = 3 /\ loader_len demo 2 true = 2.
Proof. split; reflexivity. Qed.

Theorem C02_getitem_is_ith_batch :
  forall X Z (d : dataset X Z) b drop k, wf d -> 1 <= b -> k < loader_len d b drop ->
  exists bt, loader_getitem d b false drop false (Z.of_nat k) = Some bt /\
    loader_getitem d b false drop false (Z.of_nat k - Z.of_nat (loader_len d b drop)) = Some bt /\
    nth_error (epoch d b drop (seq 0 (ds_size d))) k = Some (Some bt).
Proof. exact loader_getitem_spec. Qed.
Print Assumptions C02_getitem_is_ith_batch.
Example C02_getitem_case : loader_getitem demo 2 false false false (-1) = Some ([14], [24]).
Proof. reflexivity. Qed.

Theorem C02_getitem_out_of_range :
  forall X Z (d : dataset X Z) b drop i,
  (Z.of_nat (loader_len d b drop) <= i \/ i < - Z.of_nat (loader_len d b drop))%Z ->
  loader_getitem d b false drop false i = None.
Proof. exact loader_getitem_oob. Qed.
Print Assumptions C02_getitem_out_of_range.
Example C02_oob_case : loader_getitem demo 2 false true false 2 = None.
Proof. reflexivity. Qed.

(** C03 *)
Theorem C03_getitem_independent_of_sharding :
  forall X Z (d : dataset X Z) i,
  wf d -> (0 <= i)%Z -> ds_getitem d i = nth_error (rows d) (Z.to_nat i).
Proof. exact ds_getitem_spec. Qed.
Print Assumptions C03_getitem_independent_of_sharding.
Example C03_case : ds_getitem demo 2 = Some (12, 22) /\ ds_getitem demo 5 = None.
Proof. split; reflexivity. Qed.

Theorem C03_negative_index_counts_from_first_shard :
  forall X Z (d : dataset X Z) i,
  wf d -> (i < 0)%Z ->
  ds_getitem d i =
  match x_list d, z_list d with
  | x :: _, z :: _ => py_index (combine x z) i
  | _, _ => None
  end.
Proof. exact ds_getitem_neg. Qed.
Print Assumptions C03_negative_index_counts_from_first_shard.

(** The expectation "dataset[-1] is the last row" fails with several shards. *)
Theorem C03_last_row_refuted :
  exists d : dataset nat nat, wf d /\ rows d <> [] /\
    ds_getitem d (-1) <> nth_error (rows d) (length (rows d) - 1) /\
    ds_getitem d (-1) <> None.
Proof. exists demo. repeat split; discriminate. Qed.
Print Assumptions C03_last_row_refuted.

(** C04 *)
Theorem C04_subset_rows :
  forall X Z (d : dataset X Z) idx,
  wf d -> exists d', ds_subset d idx = Some d' /\ wf d' /\
    exists s, StronglySorted Z.le s /\ Permutation s (filter (in_range (ds_size d)) idx) /\
      map Some (rows d') = map (fun i => nth_error (rows d) (Z.to_nat i)) s.
Proof. exact subset_spec. Qed.
Print Assumptions C04_subset_rows.
Example C04_case : option_map (@rows nat nat) (ds_subset demo [4; 99; 0; -1; 0]%Z) =
  Some [(10, 20); (10, 20); (14, 24)].
Proof. reflexivity. Qed.

(** C05 *)
Theorem C05_split_partitions :
  forall X Z (d : dataset X Z) perm n_tr n_va,
  wf d -> Permutation perm (seq 0 (ds_size d)) -> n_tr + n_va <= ds_size d ->
  exists a b c, ds_split d perm n_tr n_va = Some (a, b, c) /\
    wf a /\ wf b /\ wf c /\
    length (rows a) = n_tr /\ length (rows b) = n_va /\
    length (rows c) = ds_size d - (n_tr + n_va) /\
    Permutation (rows a ++ rows b ++ rows c) (rows d).
Proof. exact split_spec. Qed.
Print Assumptions C05_split_partitions.

(** Rational ratios with r0 + r1 <= 1 meet the size hypothesis of C05. *)
Theorem C05_counts_fit :
  forall p q den n, 0 < den -> p + q <= den ->
  split_count p den n + split_count q den n <= n.
Proof. exact split_counts_fit. Qed.
Print Assumptions C05_counts_fit.
Example C05_case : exists a b c, ds_split demo [3; 0; 4; 1; 2] (split_count 8 10 5) (split_count 1 10 5)
  = Some (a, b, c) /\ rows a = [(10, 20); (11, 21); (13, 23); (14, 24)] /\ rows b = [] /\ rows c = [(12, 22)].
Proof. do 3 eexists. split; [reflexivity|]. repeat split. Qed.

(** C06: NumPy backend. *)
Theorem C06_kfold_partition :
  forall perm n k, Permutation perm (seq 0 n) -> 2 <= k ->
  exists r, k_fold_indices (@np_split nat) perm n k = Some r /\ length r = k /\
    concat (map snd r) = perm /\
    Forall (fun p => Permutation (fst p ++ snd p) (seq 0 n)) r /\
    Forall (fun v => n / k <= length v <= n / k + 1) (map snd r).
Proof. exact kfold_partition. Qed.
Print Assumptions C06_kfold_partition.
Example C06_case : k_fold_indices (@np_split nat) [3; 0; 4; 1; 2] 5 2 =
  Some [([1; 2], [3; 0; 4]); ([3; 0; 4], [1; 2])].
Proof. reflexivity. Qed.

Theorem C06_kfold_one_raises :
  forall perm n, length perm = n ->
  k_fold_indices (@np_split nat) perm n 1 = None /\ k_fold_indices (@torch_split nat) perm n 1 = None.
Proof. exact kfold_one_raises. Qed.
Print Assumptions C06_kfold_one_raises.

(** C07: Torch backend. *)
Theorem C07_torch_kfold_exact_failure_set :
  forall perm n k, Permutation perm (seq 0 n) -> 2 <= k ->
  (k_fold_indices (@torch_split nat) perm n k = None <->
   n = 0 \/ (k = 2 /\ n = 1) \/ (k = 3 /\ n mod 3 = 0)) /\
  (k_fold_indices (@torch_split nat) perm n k <> None ->
   k_fold_indices (@torch_split nat) perm n k = k_fold_indices (@np_split nat) perm n k).
Proof. exact torch_kfold_exact_failure_set. Qed.
Print Assumptions C07_torch_kfold_exact_failure_set.
Example C07_case_fails : k_fold_indices (@torch_split nat) (seq 0 6) 6 3 = None.
Proof. reflexivity. Qed.
Example C07_case_ok : k_fold_indices (@torch_split nat) (seq 0 4) 4 3 =
  Some [([2; 3], [0; 1]); ([0; 1; 3], [2]); ([0; 1; 2], [3])].
Proof. reflexivity. Qed.

(** C10 *)
Theorem C10_infinite_iteration :
  forall X Z (d : dataset X Z) b drop idx_of fuel e,
  iterate d b drop true idx_of e fuel =
  (concat (map (fun k => epoch d b drop (idx_of k)) (seq e fuel)), Running).
Proof. exact iterate_infinite. Qed.
Print Assumptions C10_infinite_iteration.

Theorem C10_finite_iteration_stops :
  forall X Z (d : dataset X Z) b drop idx_of e fuel, 1 <= fuel ->
  iterate d b drop false idx_of e fuel = (epoch d b drop (idx_of e), Stopped).
Proof. exact iterate_finite. Qed.
Print Assumptions C10_finite_iteration_stops.
Example C10_finite_case : iterate demo 3 true false (fun _ => seq 0 5) 0 7 =
  ([Some ([10; 11; 12], [20; 21; 22])], Stopped).
Proof. reflexivity. Qed.

Theorem C10_starved_loader_never_yields :
  forall X Z (d : dataset X Z) b idx_of e fuel, 1 <= b -> ds_size d < b ->
  iterate d b true true idx_of e fuel = ([], Running).
Proof. exact starved_loader_never_yields. Qed.
Print Assumptions C10_starved_loader_never_yields.
Example C10_case : iterate demo 6 true true (fun _ => seq 0 5) 0 100 = ([], Running)
  /\ 1 <= 6 /\ ds_size demo < 6.
Proof. split; [reflexivity|]. cbn. lia. Qed.
