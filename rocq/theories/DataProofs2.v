(** Loader indexing, infinite iteration and k-fold splitting. *)
From Coq Require Import List Arith ZArith Lia Bool Permutation Sorted.
From Verif Require Import DataModel DataProofs.
Import ListNotations.
Set Implicit Arguments.

Lemma seq_perm_refl n : Permutation (seq 0 n) (seq 0 n). Proof. auto. Qed.

Lemma div_ceil n b : 1 <= b ->
  (n + b - 1) / b = if n mod b =? 0 then n / b else n / b + 1.
Proof.
  intros Hb. pose proof (Nat.div_mod n b ltac:(lia)) as E.
  pose proof (Nat.mod_upper_bound n b ltac:(lia)) as M.
  destruct (Nat.eqb_spec (n mod b) 0) as [Z0|Z0].
  - symmetry. apply Nat.div_unique with (r := b - 1); lia.
  - symmetry. apply Nat.div_unique with (r := n mod b - 1); lia.
Qed.

Lemma loader_len_spec X Z (d : dataset X Z) b drop idx : wf d -> 1 <= b ->
  Permutation idx (seq 0 (ds_size d)) ->
  length (epoch d b drop idx) = loader_len d b drop.
Proof.
  intros H Hb P. unfold loader_len. destruct drop; simpl.
  - destruct (epoch_drop H Hb P) as (bs & dr & E & _ & _ & _ & L & _).
    now rewrite E, map_length.
  - destruct (epoch_keep H Hb P) as (bs & E & _ & _ & _ & L & _).
    rewrite E, map_length, L. apply div_ceil; auto.
Qed.

Lemma nth_epoch_slices n b drop idx : 1 <= b -> forall starts k,
  (drop = true -> forall st, In st starts -> st + b <= n) ->
  nth_error (epoch_slices n b drop idx starts) k =
  option_map (fun st => py_slice idx st (st + b)) (nth_error starts k).
Proof.
  intros Hb. induction starts as [|st r IH]; intros k Hd; simpl.
  - destruct k; auto.
  - destruct ((n <? st + b) && drop) eqn:E.
    + apply andb_prop in E as [E1 E2]. apply Nat.ltb_lt in E1.
      specialize (Hd E2 st (or_introl eq_refl)). lia.
    + destruct k; simpl; auto. apply IH. intros; apply Hd; simpl; auto.
Qed.

Lemma epoch_slices_nth n b drop idx : 1 <= b -> forall starts k,
  k < length (epoch_slices n b drop idx starts) ->
  nth_error (epoch_slices n b drop idx starts) k =
  option_map (fun st => py_slice idx st (st + b)) (nth_error starts k).
Proof.
  intros Hb. induction starts as [|st r IH]; intros k Hk; simpl in *; [lia|].
  destruct (_ && drop); simpl in *; [lia|]. destruct k; simpl; auto. apply IH. lia.
Qed.

Lemma epoch_nth X Z (d : dataset X Z) b drop idx k : wf d -> 1 <= b ->
  Permutation idx (seq 0 (ds_size d)) -> k < loader_len d b drop ->
  nth_error (epoch d b drop idx) k =
  Some (fetch_batch d (map Z.of_nat (py_slice idx (k * b) (k * b + b)))).
Proof.
  intros H Hb P Hk. rewrite <- (loader_len_spec drop H Hb P) in Hk.
  unfold epoch in *. rewrite epoch_slices_eq in *. rewrite map_length in Hk.
  rewrite nth_error_map, epoch_slices_nth by auto.
  unfold py_range0. rewrite nth_error_map.
  assert (K : k < (ds_size d + b - 1) / b).
  { eapply Nat.lt_le_trans; [exact Hk|].
    assert (G : forall starts, length (epoch_slices (ds_size d) b drop idx starts) <= length starts).
    { induction starts; simpl; auto. destruct (_ && drop); simpl; lia. }
    etransitivity; [apply G|]. unfold py_range0. rewrite map_length, seq_length. auto. }
  rewrite nth_error_nth' with (d := 0) by (rewrite seq_length; auto).
  rewrite seq_nth by auto. reflexivity.
Qed.

Lemma seq_slice n a b : a <= n -> firstn b (skipn a (seq 0 n)) = seq a (Nat.min (a + b) n - a).
Proof.
  intros Ha.
  assert (E : seq 0 n = seq 0 a ++ seq a (n - a)) by (rewrite <- seq_app; f_equal; lia).
  rewrite E, skipn_app, seq_length, Nat.sub_diag.
  rewrite skipn_all2 by (rewrite seq_length; auto). cbn [app skipn].
  destruct (le_lt_dec (a + b) n) as [L|L].
  - replace (n - a) with (b + (n - a - b)) by lia. rewrite seq_app, firstn_app, seq_length.
    rewrite Nat.sub_diag, firstn_all2, app_nil_r by (rewrite seq_length; lia). f_equal. lia.
  - rewrite firstn_all2 by (rewrite seq_length; lia). f_equal. lia.
Qed.

Lemma loader_getitem_spec X Z (d : dataset X Z) b drop k : wf d -> 1 <= b ->
  k < loader_len d b drop ->
  exists bt, loader_getitem d b false drop false (Z.of_nat k) = Some bt /\
    loader_getitem d b false drop false (Z.of_nat k - Z.of_nat (loader_len d b drop)) = Some bt /\
    nth_error (epoch d b drop (seq 0 (ds_size d))) k = Some (Some bt).
Proof.
  intros H Hb Hk.
  pose proof (epoch_nth drop H Hb (seq_perm_refl _) Hk) as E.
  assert (G : exists bt, nth_error (epoch d b drop (seq 0 (ds_size d))) k = Some (Some bt)).
  { assert (exists bs, epoch d b drop (seq 0 (ds_size d)) = map Some bs) as (bs & Ebs).
    { destruct drop.
      - destruct (epoch_drop H Hb (seq_perm_refl _)) as (bs & ? & ? & _); eauto.
      - destruct (epoch_keep H Hb (seq_perm_refl _)) as (bs & ? & _); eauto. }
    rewrite Ebs, nth_error_map in *.
    destruct (nth_error bs k); [eexists; reflexivity|discriminate]. }
  destruct G as (bt & G). exists bt. rewrite G in E. injection E as E.
  assert (B : loader_getitem d b false drop false (Z.of_nat k) = Some bt).
  { unfold loader_getitem. cbn [orb].
    destruct (Z.ltb_spec (Z.of_nat k) 0); [lia|].
    destruct (Z.leb_spec 0 (Z.of_nat k)); [|lia].
    destruct (Z.ltb_spec (Z.of_nat k) (Z.of_nat (loader_len d b drop))); [|lia].
    cbn [andb]. rewrite Nat2Z.id.
    destruct (Nat.ltb_spec (ds_size d) (Nat.min (k * b + b) (ds_size d))); [lia|]. cbn [andb].
    rewrite E. f_equal. f_equal. unfold py_slice.
    replace (k * b + b - k * b) with b by lia. symmetry. apply seq_slice.
    unfold loader_len in Hk.
    assert (Kb : k <= ds_size d / b).
    { destruct (drop || _); lia. }
    etransitivity; [apply Nat.mul_le_mono_r; exact Kb|].
    rewrite Nat.mul_comm. apply Nat.mul_div_le. lia. }
  split; [exact B|]. split; [|exact G].
  rewrite <- B. unfold loader_getitem. cbn [orb].
  destruct (Z.ltb_spec (Z.of_nat k) 0); [lia|].
  destruct (Z.ltb_spec (Z.of_nat k - Z.of_nat (loader_len d b drop)) 0); [|lia].
  replace (Z.of_nat k - Z.of_nat (loader_len d b drop) + Z.of_nat (loader_len d b drop))%Z
    with (Z.of_nat k) by lia. reflexivity.
Qed.

Lemma loader_getitem_oob X Z (d : dataset X Z) b drop i :
  (Z.of_nat (loader_len d b drop) <= i \/ i < - Z.of_nat (loader_len d b drop))%Z ->
  loader_getitem d b false drop false i = None.
Proof.
  intros Hi. unfold loader_getitem. cbn [orb].
  destruct (Z.ltb_spec i 0).
  - destruct (Z.leb_spec 0 (i + Z.of_nat (loader_len d b drop))); [lia|]. reflexivity.
  - destruct (Z.ltb_spec i (Z.of_nat (loader_len d b drop))); [lia|].
    now rewrite andb_false_r.
Qed.

(** ** Iteration *)

Lemma iterate_finite X Z (d : dataset X Z) b drop idx_of e fuel : 1 <= fuel ->
  iterate d b drop false idx_of e fuel = (epoch d b drop (idx_of e), Stopped).
Proof. destruct fuel; [lia|]. reflexivity. Qed.

Lemma iterate_infinite X Z (d : dataset X Z) b drop idx_of fuel : forall e,
  iterate d b drop true idx_of e fuel =
  (concat (map (fun k => epoch d b drop (idx_of k)) (seq e fuel)), Running).
Proof.
  induction fuel as [|f IH]; intro e; simpl; auto. rewrite IH. reflexivity.
Qed.

Lemma epoch_starved X Z (d : dataset X Z) b idx : 1 <= b -> ds_size d < b ->
  epoch d b true idx = [].
Proof.
  intros Hb L. unfold epoch. destruct (Nat.eq_dec (ds_size d) 0) as [E|E].
  - rewrite E. unfold py_range0. rewrite Nat.div_small by lia. reflexivity.
  - rewrite py_range0_S by lia. cbn [epoch_loop].
    destruct (Nat.ltb_spec (ds_size d) (0 + b)); [reflexivity|lia].
Qed.

(** ** k-fold *)

Lemma list_sum_cons a l : list_sum (a :: l) = a + list_sum l.
Proof. reflexivity. Qed.
Lemma list_sum_nil : list_sum [] = 0. Proof. reflexivity. Qed.
Ltac ls := repeat match goal with
  | H : context [list_sum (?a :: ?l)] |- _ => rewrite (list_sum_cons a l) in H
  | H : context [list_sum nil] |- _ => rewrite list_sum_nil in H
  | |- context [list_sum (?a :: ?l)] => rewrite (list_sum_cons a l)
  | |- context [list_sum nil] => rewrite list_sum_nil
  end.

(** Reference: cut [l] into consecutive pieces of the given sizes. *)
Lemma np_split_chop A (l : list A) sizes : forall st,
  st + list_sum sizes = length l -> sizes <> [] ->
  np_split_from l st (removelast (cumsum_from st sizes)) = chop (skipn st l) sizes.
Proof.
  induction sizes as [|s r IH]; intros st HS NE; [congruence|].
  destruct r as [|s' r].
  - ls. cbn. rewrite (firstn_all2 (n := s)) by (rewrite skipn_length; lia). reflexivity.
  - change (removelast (cumsum_from st (s :: s' :: r)))
      with ((st + s) :: removelast (cumsum_from (st + s) (s' :: r))).
    cbn [np_split_from].
    change (chop (skipn st l) (s :: s' :: r)) with
      (firstn s (skipn st l) :: chop (skipn s (skipn st l)) (s' :: r)).
    f_equal.
    + unfold py_slice. replace (st + s - st) with s by lia. reflexivity.
    + rewrite skipn_skipn_add. apply IH; [ls; lia|discriminate].
Qed.

Lemma kfold_sizes_sum n k : 1 <= k -> list_sum (kfold_sizes n k) = n.
Proof.
  intros Hk. unfold kfold_sizes.
  assert (R : forall a m, list_sum (repeat a m) = m * a).
  { intros a m. induction m; cbn [repeat]; ls; lia. }
  rewrite list_sum_app, !R.
  pose proof (Nat.div_mod n k ltac:(lia)). pose proof (Nat.mod_upper_bound n k ltac:(lia)). nia.
Qed.
Lemma kfold_sizes_length n k : 1 <= k -> length (kfold_sizes n k) = k.
Proof.
  intros Hk. unfold kfold_sizes. rewrite app_length, !repeat_length.
  pose proof (Nat.mod_upper_bound n k ltac:(lia)). lia.
Qed.
Lemma kfold_sizes_balanced n k s : In s (kfold_sizes n k) -> n / k <= s <= n / k + 1.
Proof.
  unfold kfold_sizes. intros H. apply in_app_or in H as [H|H]; apply repeat_spec in H; lia.
Qed.

Lemma chop_length A (l : list A) sizes : length (chop l sizes) = length sizes.
Proof. revert l; induction sizes; simpl; auto. Qed.

Lemma chop_sizes A (l : list A) sizes : list_sum sizes = length l -> map (@length A) (chop l sizes) = sizes.
Proof.
  revert l; induction sizes as [|s r IH]; intros l H; ls; cbn; auto.
  rewrite firstn_length. f_equal; [lia|]. apply IH. rewrite skipn_length. lia.
Qed.

Lemma chop_concat A (l : list A) sizes : list_sum sizes = length l -> concat (chop l sizes) = l.
Proof.
  revert l; induction sizes as [|s r IH]; intros l H; ls; cbn.
  - destruct l; auto; discriminate.
  - rewrite IH by (rewrite skipn_length; lia). apply firstn_skipn.
Qed.

Lemma get_folds_spec A (folds : list (list A)) js :
  Forall (fun j => j < length folds) js ->
  exists r, get_folds folds js = Some r /\ r = map (fun j => nth j folds []) js.
Proof.
  induction 1 as [|j js Hj H (r & E & ->)]; simpl; [eauto|].
  rewrite nth_error_nth' with (d := []) by auto. rewrite E. eauto.
Qed.

Lemma get_folds_fail A (folds : list (list A)) js :
  Exists (fun j => length folds <= j) js -> get_folds folds js = None.
Proof.
  induction 1 as [j js Hj|j js H IH]; simpl.
  - apply nth_error_None in Hj. now rewrite Hj.
  - rewrite IH. destruct (nth_error folds j); auto.
Qed.

Definition others (k j : nat) := filter (fun i => negb (Nat.eqb i j)) (seq 0 k).

Lemma others_perm k j : j < k -> Permutation (j :: others k j) (seq 0 k).
Proof.
  intros H. unfold others. apply NoDup_Permutation.
  - constructor.
    + rewrite filter_In. intros [_ F]. rewrite Nat.eqb_refl in F. discriminate.
    + apply NoDup_filter, seq_NoDup.
  - apply seq_NoDup.
  - intros x. simpl. rewrite filter_In, in_seq, negb_true_iff, Nat.eqb_neq.
    destruct (Nat.eq_dec j x); subst; intuition lia.
Qed.

Lemma map_nth_seq A (l : list A) d : map (fun j => nth j l d) (seq 0 (length l)) = l.
Proof.
  induction l as [|a l IH]; auto. cbn [length seq map]. f_equal.
  rewrite <- seq_shift, map_map. exact IH.
Qed.

Lemma concat_perm A (l m : list (list A)) : Permutation l m -> Permutation (concat l) (concat m).
Proof.
  induction 1; simpl; auto.
  - now apply Permutation_app_head.
  - rewrite !app_assoc. apply Permutation_app_tail, Permutation_app_comm.
  - etransitivity; eauto.
Qed.

Lemma kfold_loop_spec A (folds : list (list A)) k ks : 2 <= k -> length folds = k ->
  Forall (fun j => j < k) ks ->
  exists r, kfold_loop folds k ks = Some r /\
    map snd r = map (fun j => nth j folds []) ks /\
    Forall (fun p => Permutation (fst p ++ snd p) (concat folds)) r.
Proof.
  intros Hk HL. induction 1 as [|j ks Hj H (r & E & V & P)]; simpl.
  - exists []; auto.
  - rewrite nth_error_nth' with (d := []) by lia.
    fold (others k j).
    destruct (@get_folds_spec _ folds (others k j)) as (o & Eo & Ho).
    { apply Forall_forall. intros x Hx. apply filter_In in Hx as [Hx _].
      apply in_seq in Hx. lia. }
    rewrite Eo, E.
    assert (Po : Permutation (nth j folds [] :: o) folds).
    { rewrite Ho. rewrite <- (map_nth_seq folds []) at 2. rewrite HL.
      change (nth j folds [] :: map (fun j0 => nth j0 folds []) (others k j)) with
         (map (fun j0 => nth j0 folds []) (j :: others k j)).
      now apply Permutation_map, others_perm. }
    destruct o as [|o1 o2].
    { apply Permutation_length in Po. simpl in Po. lia. }
    cbn [np_concatenate]. eexists; split; [reflexivity|]. simpl. split.
    + now rewrite V.
    + constructor; auto. cbn [fst snd].
      etransitivity; [apply Permutation_app_comm|].
      apply (concat_perm Po).
Qed.

Lemma kfold_spec split perm n k folds :
  Permutation perm (seq 0 n) -> 2 <= k ->
  split perm (kfold_bounds n k) = Some folds -> folds = chop perm (kfold_sizes n k) ->
  exists r, k_fold_indices split perm n k = Some r /\ length r = k /\
    concat (map snd r) = perm /\
    Forall (fun p => Permutation (fst p ++ snd p) (seq 0 n)) r /\
    map (@length nat) (map snd r) = kfold_sizes n k.
Proof.
  intros P Hk E Ef. unfold k_fold_indices. destruct k as [|k']; [lia|]. set (k := S k') in *.
  rewrite E.
  assert (Ln : length perm = n) by (rewrite (Permutation_length P), seq_length; auto).
  assert (LS : list_sum (kfold_sizes n k) = length perm) by (rewrite kfold_sizes_sum; lia).
  assert (Lf : length folds = k) by (rewrite Ef, chop_length, kfold_sizes_length; lia).
  destruct (@kfold_loop_spec _ folds k (seq 0 k) Hk Lf) as (r & Er & V & F).
  { apply Forall_forall. intros x Hx. apply in_seq in Hx. lia. }
  rewrite Er. exists r.
  assert (V' : map snd r = folds).
  { rewrite V. rewrite <- Lf. apply map_nth_seq. }
  assert (C : concat folds = perm) by (rewrite Ef; apply chop_concat; auto).
  repeat split.
  - rewrite <- Lf, <- V', map_length. auto.
  - rewrite V'. exact C.
  - eapply Forall_impl; [|exact F]. simpl. intros a Ha. rewrite C in Ha.
    etransitivity; [exact Ha|exact P].
  - rewrite V', Ef. apply chop_sizes; auto.
Qed.

Lemma np_kfold_folds (perm : list nat) n k : 1 <= k -> length perm = n ->
  np_split perm (kfold_bounds n k) = Some (chop perm (kfold_sizes n k)).
Proof.
  intros Hk L. unfold np_split, kfold_bounds. f_equal.
  rewrite np_split_chop; auto.
  - rewrite kfold_sizes_sum; lia.
  - intros E. apply (f_equal (@length _)) in E. rewrite kfold_sizes_length in E by auto.
    simpl in E. lia.
Qed.

Lemma np_kfold_one perm n : length perm = n -> k_fold_indices (@np_split nat) perm n 1 = None.
Proof.
  intros L. unfold k_fold_indices. rewrite np_kfold_folds by auto. cbn [seq kfold_loop].
  assert (kfold_sizes n 1 = [n]) as ->.
  { unfold kfold_sizes. rewrite Nat.mod_1_r, Nat.div_1_r. reflexivity. }
  reflexivity.
Qed.

(** ** Torch split *)

Lemma z_sum_nat l : fold_right Z.add 0%Z (map Z.of_nat l) = Z.of_nat (list_sum l).
Proof. induction l as [|a l IH]; auto. cbn [map fold_right]. rewrite IH. ls. lia. Qed.

Lemma sizes_from_bounds_spec sizes : sizes <> [] -> forall acc total,
  Z.of_nat (acc + list_sum sizes) = total ->
  z_diff (Z.of_nat acc) (map Z.of_nat (removelast (cumsum_from acc sizes))) total = map Z.of_nat sizes.
Proof.
  induction sizes as [|s r IH]; [congruence|]. intros _ acc total HT.
  destruct r as [|s' r].
  - ls. cbn. f_equal. lia.
  - change (removelast (cumsum_from acc (s :: s' :: r)))
      with ((acc + s) :: removelast (cumsum_from (acc + s) (s' :: r))).
    cbn [map z_diff]. f_equal; [lia|]. apply IH; [discriminate|]. ls; lia.
Qed.

Lemma torch_split_sizes_ok A (l : list A) sizes : list_sum sizes = length l ->
  torch_split_sizes l (map Z.of_nat sizes) = Some (chop l sizes).
Proof.
  intros H. unfold torch_split_sizes.
  assert (forallb (fun s => (0 <=? s)%Z) (map Z.of_nat sizes) = true) as ->.
  { apply forallb_forall. intros x Hx. apply in_map_iff in Hx as (y & <- & _). apply Z.leb_le. lia. }
  rewrite z_sum_nat, H, Z.eqb_refl. cbn [andb].
  rewrite map_map, (map_ext _ (fun x => x)) by (intros; apply Nat2Z.id). now rewrite map_id.
Qed.

Lemma cumsum_length acc l : length (cumsum_from acc l) = length l.
Proof. revert acc; induction l; simpl; auto. Qed.

Lemma kfold_bounds_length n k : 1 <= k -> length (kfold_bounds n k) = k - 1.
Proof.
  intros Hk. unfold kfold_bounds.
  assert (R : forall l : list nat, length (removelast l) = length l - 1).
  { induction l as [|a [|b l] IH]; auto. cbn [removelast length] in *. rewrite IH. simpl. lia. }
  rewrite R, cumsum_length, kfold_sizes_length; auto.
Qed.

Lemma torch_split_bounds (perm : list nat) n k : 2 <= k -> length perm = n ->
  list_sum (kfold_bounds n k) <> n ->
  torch_split perm (kfold_bounds n k) = Some (chop perm (kfold_sizes n k)).
Proof.
  intros Hk L NS. unfold torch_split.
  destruct (map Z.of_nat (kfold_bounds n k)) as [|v vs] eqn:EV.
  { apply (f_equal (@length _)) in EV. rewrite map_length, kfold_bounds_length in EV by lia.
    simpl in EV. lia. }
  rewrite <- EV. rewrite z_sum_nat, L.
  destruct (Z.eqb_spec (Z.of_nat (list_sum (kfold_bounds n k))) (Z.of_nat n)); [lia|].
  unfold sizes_from_bounds. unfold kfold_bounds.
  change 0%Z with (Z.of_nat 0). rewrite sizes_from_bounds_spec.
  - apply torch_split_sizes_ok. rewrite kfold_sizes_sum; lia.
  - intros E. apply (f_equal (@length _)) in E. rewrite kfold_sizes_length in E by lia. simpl in E. lia.
  - rewrite kfold_sizes_sum by lia. reflexivity.
Qed.

Lemma torch_split_confused (perm : list nat) n k : 2 <= k -> length perm = n ->
  list_sum (kfold_bounds n k) = n ->
  torch_split perm (kfold_bounds n k) = Some (chop perm (kfold_bounds n k)).
Proof.
  intros Hk L NS. unfold torch_split.
  destruct (map Z.of_nat (kfold_bounds n k)) as [|v vs] eqn:EV.
  { apply (f_equal (@length _)) in EV. rewrite map_length, kfold_bounds_length in EV by lia.
    simpl in EV. lia. }
  rewrite <- EV. rewrite z_sum_nat, L.
  destruct (Z.eqb_spec (Z.of_nat (list_sum (kfold_bounds n k))) (Z.of_nat n)); [|lia].
  apply torch_split_sizes_ok. lia.
Qed.

Lemma torch_kfold_confused perm n k : 2 <= k -> length perm = n ->
  list_sum (kfold_bounds n k) = n -> k_fold_indices (@torch_split nat) perm n k = None.
Proof.
  intros Hk L NS. unfold k_fold_indices. destruct k as [|k']; [lia|]. set (k := S k') in *.
  rewrite torch_split_confused by auto.
  assert (Lc : length (chop perm (kfold_bounds n k)) = k - 1)
    by (rewrite chop_length, kfold_bounds_length; lia).
  unfold k at 3. cbn [seq kfold_loop].
  rewrite (@get_folds_fail _ (chop perm (kfold_bounds n k))).
  { destruct (nth_error _ 0); auto. }
  apply Exists_exists. exists (k - 1). split; [|lia].
  apply filter_In. split; [apply in_seq; lia|]. apply negb_true_iff, Nat.eqb_neq. lia.
Qed.

(** The boundaries of k-fold add up to n only for small or special (n, k). *)
Lemma removelast_sum l : l <> [] -> list_sum l = list_sum (removelast l) + last l 0.
Proof.
  intros H. rewrite (app_removelast_last 0 H) at 1. rewrite list_sum_app. ls. lia.
Qed.
Lemma cumsum_last acc l : l <> [] -> last (cumsum_from acc l) 0 = acc + list_sum l.
Proof.
  revert acc; induction l as [|a l IH]; intros acc H; [congruence|].
  destruct l as [|b l].
  - ls. cbn. lia.
  - change (cumsum_from acc (a :: b :: l)) with ((acc + a) :: cumsum_from (acc + a) (b :: l)).
    transitivity (last (cumsum_from (acc + a) (b :: l)) 0); [reflexivity|].
    rewrite IH by discriminate. ls. lia.
Qed.

Fixpoint wsum (l : list nat) : nat := match l with [] => 0 | a :: r => length l * a + wsum r end.
Lemma cumsum_sum acc l : list_sum (cumsum_from acc l) = length l * acc + wsum l.
Proof.
  revert acc; induction l as [|a l IH]; intro acc; [reflexivity|]. cbn [cumsum_from wsum length]. ls. rewrite IH. simpl. lia.
Qed.

Lemma kfold_bounds_sum n k : 1 <= k ->
  list_sum (kfold_bounds n k) + n = wsum (kfold_sizes n k).
Proof.
  intros Hk. unfold kfold_bounds.
  assert (NE : kfold_sizes n k <> []).
  { intros E. apply (f_equal (@length _)) in E. rewrite kfold_sizes_length in E by auto.
    simpl in E. lia. }
  assert (NE' : cumsum_from 0 (kfold_sizes n k) <> []).
  { intros E. apply (f_equal (@length _)) in E. rewrite cumsum_length, kfold_sizes_length in E by auto.
    simpl in E. lia. }
  pose proof (removelast_sum NE') as R. rewrite cumsum_last, kfold_sizes_sum in R by auto.
  rewrite cumsum_sum in R. lia.
Qed.

Lemma wsum_ge l : list_sum l <= wsum l.
Proof. induction l as [|a l IH]; ls; cbn [wsum length]; lia. Qed.

(** [wsum l = length l * l0 + ... + 1 * l_last]. *)
Lemma kfold_confused_iff n k : 2 <= k ->
  (list_sum (kfold_bounds n k) = n <->
   n = 0 \/ (k = 2 /\ n = 1) \/ (k = 3 /\ n mod 3 = 0)).
Proof.
  intros Hk. pose proof (@kfold_bounds_sum n k ltac:(lia)) as E.
  assert (Eq : list_sum (kfold_bounds n k) = n <-> wsum (kfold_sizes n k) = 2 * n) by lia.
  rewrite Eq. clear E Eq.
  destruct (Nat.eq_dec k 2) as [->|K2]; [|destruct (Nat.eq_dec k 3) as [->|K3]].
  - unfold kfold_sizes. pose proof (Nat.div_mod n 2 ltac:(lia)) as D.
    pose proof (Nat.mod_upper_bound n 2 ltac:(lia)) as M.
    assert (n mod 2 = 0 \/ n mod 2 = 1) as [R|R] by lia; rewrite R in *; cbn [repeat app wsum length Nat.sub]; lia.
  - unfold kfold_sizes. pose proof (Nat.div_mod n 3 ltac:(lia)) as D.
    pose proof (Nat.mod_upper_bound n 3 ltac:(lia)) as M.
    assert (n mod 3 = 0 \/ n mod 3 = 1 \/ n mod 3 = 2) as [R|[R|R]] by lia; rewrite R in *; cbn [repeat app wsum length Nat.sub]; lia.
  - assert (k >= 4) by lia. clear K2 K3 Hk.
    pose proof (@kfold_sizes_length n k ltac:(lia)) as L.
    pose proof (@kfold_sizes_sum n k ltac:(lia)) as Sm.
    split; [|intros [-> | [ [? _] | [? _]]]; try lia].
    + intros W. destruct (Nat.eq_dec n 0) as [|Hn]; auto. exfalso.
      destruct (kfold_sizes n k) as [|s1 [|s2 [|s3 [|s4 r]]]] eqn:ES; cbn [length] in L; try lia.
      cbn [wsum length] in W. ls.
      assert (B : forall s, In s (s1 :: s2 :: s3 :: s4 :: r) -> n / k <= s <= n / k + 1).
      { intros s Hs. rewrite <- ES in Hs. now apply kfold_sizes_balanced. }
      pose proof (B s1 ltac:(simpl; auto)). pose proof (B s2 ltac:(simpl; auto)).
      pose proof (B s3 ltac:(simpl; auto)). pose proof (B s4 ltac:(simpl; auto)).
      pose proof (wsum_ge r).
      assert (S1 : 1 <= s1).
      { destruct s1; [|lia]. exfalso.
        assert (n / k = 0) by lia.
        assert (n < k) by (apply Nat.div_small_iff; lia).
        unfold kfold_sizes in ES. rewrite Nat.mod_small in ES by auto.
        destruct n; [lia|]. simpl in ES. injection ES as ES _. lia. }
      (* the first size has weight >= 4 and is the largest *)
      assert (Smax : forall s, In s (s1 :: s2 :: s3 :: s4 :: r) -> s <= s1).
      { rewrite <- ES. intros s Hs. unfold kfold_sizes in *.
        destruct (n mod k) as [|m]; cbn [repeat app] in *.
        - rewrite Nat.sub_0_r in *. destruct k as [|k0]; [lia|]. cbn [repeat] in ES.
          apply repeat_spec in Hs. injection ES; intros; lia.
        - assert (s1 = n / k + 1) by (injection ES; intros; lia).
          destruct Hs as [Hs|Hs]; [lia|]. apply in_app_or in Hs as [Hs|Hs]; apply repeat_spec in Hs; lia. }
      assert (Sr : list_sum r <= length r * s1).
      { assert (Fr : forall s, In s r -> s <= s1) by (intros; apply Smax; simpl; auto).
        clear -Fr. induction r as [|a r IH]; ls; cbn [length]; [lia|].
        pose proof (Fr a (or_introl eq_refl)). specialize (IH (fun s Hs => Fr s (or_intror Hs))). lia. }
      pose proof (Smax s4 ltac:(simpl; auto)).
      nia.
    + unfold kfold_sizes. rewrite Nat.div_0_l, Nat.mod_0_l by lia. cbn [repeat app].
      rewrite Nat.sub_0_r. clear. induction k; simpl; auto. lia.
Qed.

Lemma split_counts_fit :
  forall p q den n, 0 < den -> p + q <= den ->
  split_count p den n + split_count q den n <= n.
Proof.
  intros p q den n Hd H. unfold split_count.
  pose proof (Nat.div_le_upper_bound (p * n + q * n) den n ltac:(lia) ltac:(nia)).
  assert (p * n / den + q * n / den <= (p * n + q * n) / den).
  { apply Nat.div_le_lower_bound; [lia|].
    pose proof (Nat.mul_div_le (p * n) den ltac:(lia)). pose proof (Nat.mul_div_le (q * n) den ltac:(lia)). lia. }
  lia.
Qed.

Lemma kfold_partition :
  forall perm n k, Permutation perm (seq 0 n) -> 2 <= k ->
  exists r, k_fold_indices (@np_split nat) perm n k = Some r /\ length r = k /\
    concat (map snd r) = perm /\
    Forall (fun p => Permutation (fst p ++ snd p) (seq 0 n)) r /\
    Forall (fun v => n / k <= length v <= n / k + 1) (map snd r).
Proof.
  intros perm n k P Hk.
  assert (L : length perm = n) by (rewrite (Permutation_length P), seq_length; auto).
  destruct (@kfold_spec (@np_split nat) perm n k _ P Hk (@np_kfold_folds perm n k ltac:(lia) L) eq_refl)
    as (r & E & Lr & C & F & S).
  exists r. repeat split; auto.
  apply Forall_forall. intros v Hv. apply (kfold_sizes_balanced n k). rewrite <- S. now apply in_map.
Qed.

Lemma kfold_one_raises :
  forall perm n, length perm = n ->
  k_fold_indices (@np_split nat) perm n 1 = None /\ k_fold_indices (@torch_split nat) perm n 1 = None.
Proof. intros perm n L. split; [exact (np_kfold_one perm L)|]. unfold k_fold_indices, kfold_bounds.
  unfold kfold_sizes. rewrite Nat.mod_1_r. reflexivity. Qed.

Lemma torch_kfold_exact_failure_set :
  forall perm n k, Permutation perm (seq 0 n) -> 2 <= k ->
  (k_fold_indices (@torch_split nat) perm n k = None <->
   n = 0 \/ (k = 2 /\ n = 1) \/ (k = 3 /\ n mod 3 = 0)) /\
  (k_fold_indices (@torch_split nat) perm n k <> None ->
   k_fold_indices (@torch_split nat) perm n k = k_fold_indices (@np_split nat) perm n k).
Proof.
  intros perm n k P Hk.
  assert (L : length perm = n) by (rewrite (Permutation_length P), seq_length; auto).
  rewrite <- (kfold_confused_iff n Hk).
  destruct (Nat.eq_dec (list_sum (kfold_bounds n k)) n) as [E|E].
  - rewrite (torch_kfold_confused _ Hk L E). split; [tauto|congruence].
  - assert (T : k_fold_indices (@torch_split nat) perm n k = k_fold_indices (@np_split nat) perm n k).
    { unfold k_fold_indices. destruct k as [|k']; [lia|].
      now rewrite (torch_split_bounds _ Hk L E), np_kfold_folds by lia. }
    rewrite T. destruct (kfold_partition n P Hk) as (r & -> & _).
    split; [split; [discriminate|tauto]|auto].
Qed.

Lemma starved_loader_never_yields :
  forall X Z (d : dataset X Z) b idx_of e fuel, 1 <= b -> ds_size d < b ->
  iterate d b true true idx_of e fuel = ([], Running).
Proof.
  intros X Z d b idx_of e fuel Hb L. rewrite iterate_infinite. f_equal.
  induction (seq e fuel) as [|k l IH]; simpl; auto. rewrite (@epoch_starved X Z d b (idx_of k) Hb L). exact IH.
Qed.

(** ** collate_batches *)
Lemma combine_app A B (a1 a2 : list A) (b1 b2 : list B) : length a1 = length b1 ->
  combine (a1 ++ a2) (b1 ++ b2) = combine a1 b1 ++ combine a2 b2.
Proof. revert b1; induction a1; intros [|b b1]; simpl; intros; try discriminate; auto. f_equal; auto. Qed.
Lemma collate_rows X Z (bs : list (list X * list Z)) :
  Forall (fun bt => length (fst bt) = length (snd bt)) bs ->
  match collate_batches bs with
  | Some (xs, zs) => bs <> [] /\ length xs = length zs /\ combine xs zs = concat (map (@brows X Z) bs)
  | None => bs = []
  end.
Proof.
intros F. unfold collate_batches. destruct bs as [|b0 bs0] eqn:E; auto. rewrite <- E in *.
split; [congruence|]. clear E. induction F as [|bt bs Hb F IH]; simpl; auto. destruct IH as [I1 I2].
split; [rewrite !app_length; congruence|]. rewrite combine_app by auto. rewrite I2. reflexivity.
Qed.
Lemma collate_epoch X Z (d : dataset X Z) b idx : wf d -> 1 <= b -> 1 <= ds_size d ->
  Permutation idx (seq 0 (ds_size d)) ->
  exists bs xs zs, epoch d b false idx = map Some bs /\ collate_batches bs = Some (xs, zs) /\
    length xs = length zs /\ Permutation (combine xs zs) (rows d) /\
    (idx = seq 0 (ds_size d) -> combine xs zs = rows d).
Proof.
intros H Hb Hn P. destruct (epoch_keep H Hb P) as (bs & E & F & P1 & P2 & L & _).
assert (C := collate_rows F). destruct (collate_batches bs) as [[xs zs]|] eqn:Ec.
- destruct C as (_ & C1 & C2). exists bs, xs, zs. rewrite C2. auto.
- subst bs. simpl in L. exfalso. assert (1 <= (ds_size d + b - 1) / b); [|lia].
  apply Nat.div_le_lower_bound; lia.
Qed.
