(** Lemmas about the model in DataModel.v. *)
From Coq Require Import List Arith ZArith Lia Bool Permutation Sorted.
From Verif Require Import DataModel.
Import ListNotations.
Set Implicit Arguments.

(** ** Specification vocabulary (independent of the model's loops) *)

(** A dataset that the constructor accepted. *)
Definition wf X Z (d : dataset X Z) : Prop := dataset_init (x_list d) (z_list d) = Some d.

(** The rows of a dataset: covariate/observation pairs of the concatenated shards. *)
Definition rows X Z (d : dataset X Z) : list (X * Z) :=
  combine (concat (x_list d)) (concat (z_list d)).

(** The rows of a batch. *)
Definition brows X Z (b : list X * list Z) : list (X * Z) := combine (fst b) (snd b).

Definition in_range (n : nat) (i : Z) : bool := (0 <=? i)%Z && (i <? Z.of_nat n)%Z.

(** ** List facts *)

Lemma combine_app_eq A B (a c : list A) (b d : list B) :
  length a = length b -> combine (a ++ c) (b ++ d) = combine a b ++ combine c d.
Proof.
  revert b; induction a as [|x a IH]; intros [|y b] H; simpl in *; try discriminate; auto.
  f_equal. apply IH. lia.
Qed.

Lemma Forall2_len A B (R : A -> B -> Prop) l m : Forall2 R l m -> length l = length m.
Proof. induction 1; simpl; auto. Qed.

Lemma skipn_skipn_add A (l : list A) a b : skipn b (skipn a l) = skipn (a + b) l.
Proof. revert l; induction a as [|a IH]; intros l; simpl; auto. destruct l; auto. now rewrite skipn_nil. Qed.

Definition shards_ok X Z (xs : list (list X)) (zs : list (list Z)) : Prop :=
  Forall2 (fun x z => length x = length z) xs zs.

Lemma init_ok X Z (xs : list (list X)) (zs : list (list Z)) d :
  dataset_init xs zs = Some d <-> (shards_ok xs zs /\ d = mkDataset xs zs).
Proof.
  unfold dataset_init, shards_ok. split.
  - destruct (Nat.eqb_spec (length xs) (length zs)) as [E|E]; simpl; [|discriminate].
    destruct (forallb _ _) eqn:F; [|discriminate]. intros [= <-]. split; auto.
    revert zs E F. induction xs as [|x xs IH]; intros [|z zs] E F; simpl in *; try discriminate; constructor.
    + apply andb_prop in F as [F _]. apply Nat.eqb_eq; auto.
    + apply IH; [lia|]. apply andb_prop in F as [_ F]; auto.
  - intros [H ->].
    assert (length xs = length zs) as -> by (eapply Forall2_len; eauto).
    rewrite Nat.eqb_refl. simpl.
    assert (forallb (fun p => length (fst p) =? length (snd p)) (combine xs zs) = true) as ->; auto.
    induction H; simpl; auto. rewrite IHForall2, andb_true_r. apply Nat.eqb_eq; auto.
Qed.

Lemma wf_ok X Z (d : dataset X Z) : wf d <-> shards_ok (x_list d) (z_list d).
Proof.
  unfold wf. rewrite init_ok. destruct d; simpl. intuition.
Qed.

Lemma shards_ok_concat_length X Z (xs : list (list X)) (zs : list (list Z)) :
  shards_ok xs zs -> length (concat xs) = length (concat zs).
Proof. induction 1; simpl; auto. rewrite !app_length. lia. Qed.

Lemma fold_size A (l : list (list A)) s :
  fold_left (fun s xi => s + length xi) l s = s + length (concat l).
Proof.
  revert s; induction l as [|x l IH]; intro s; simpl; [lia|].
  rewrite IH, app_length. lia.
Qed.

Lemma ds_size_concat X Z (d : dataset X Z) : ds_size d = length (concat (x_list d)).
Proof. unfold ds_size. rewrite fold_size. lia. Qed.

Lemma rows_length X Z (d : dataset X Z) : wf d -> length (rows d) = ds_size d.
Proof.
  intros H. apply wf_ok in H. unfold rows.
  rewrite combine_length, <- (shards_ok_concat_length H), ds_size_concat. lia.
Qed.

(** ** Indexing *)

Lemma py_index_nonneg A (l : list A) i :
  (0 <= i)%Z -> py_index l i = nth_error l (Z.to_nat i).
Proof. intros H. unfold py_index. destruct (Z.leb_spec 0 i); auto; lia. Qed.

Lemma nth_error_combine A B (a : list A) (b : list B) k :
  nth_error (combine a b) k =
  match nth_error a k, nth_error b k with Some x, Some y => Some (x, y) | _, _ => None end.
Proof.
  revert b k; induction a as [|x a IH]; intros [|y b] [|k]; simpl; auto.
  - destruct (nth_error a k); auto.
Qed.

Lemma bounds_loop_sorted A cum (l : list (list A)) :
  Forall (fun b => cum <= b) (bounds_loop cum l).
Proof.
  revert cum; induction l as [|x l IH]; intro cum; simpl; constructor; [lia|].
  eapply Forall_impl; [|apply IH]. simpl. lia.
Qed.

Lemma bisect_lt l (x : Z) : Forall (fun b => (x < b)%Z) l -> bisect_right l x = 0.
Proof. intros H; destruct H as [|b l Hb _]; simpl; auto. destruct (Z.leb_spec b x); auto; lia. Qed.

Definition getitem_from X Z cum (xs : list (list X)) (zs : list (list Z)) (idx : BinInt.Z) :=
  let bounds := bounds_loop cum xs in
  let shard_idx := bisect_right (map Z.of_nat bounds) idx in
  let start := match shard_idx with 0 => cum | S k => nth k bounds 0 end in
  let local_idx := (idx - Z.of_nat start)%Z in
  match nth_error xs shard_idx, nth_error zs shard_idx with
  | Some xs, Some zs =>
      match py_index xs local_idx, py_index zs local_idx with
      | Some a, Some b => Some (a, b)
      | _, _ => None
      end
  | _, _ => None
  end.

Lemma getitem_from_spec X Z (xs : list (list X)) (zs : list (list Z)) :
  shards_ok xs zs -> forall cum idx, (Z.of_nat cum <= idx)%Z ->
  getitem_from cum xs zs idx =
  nth_error (combine (concat xs) (concat zs)) (Z.to_nat (idx - Z.of_nat cum)).
Proof.
  induction 1 as [|x z xs zs Hl Hok IH]; intros cum idx Hidx.
  - unfold getitem_from; simpl. destruct (Z.to_nat _); auto.
  - unfold getitem_from. cbn [bounds_loop map bisect_right].
    destruct (Z.leb_spec (Z.of_nat (cum + length x)) idx) as [L|L].
    + cbn [nth_error].
      specialize (IH (cum + length x) idx L).
      transitivity (getitem_from (cum + length x) xs zs idx).
      * unfold getitem_from. cbn zeta.
        destruct (bisect_right (map Z.of_nat (bounds_loop (cum + length x) xs)) idx) as [|k]; reflexivity.
      * rewrite IH. simpl concat. rewrite combine_app_eq by auto.
        rewrite nth_error_app2; rewrite combine_length, <- Hl, Nat.min_id.
        -- f_equal. lia.
        -- lia.
    + cbn [nth_error]. rewrite !py_index_nonneg by lia.
      simpl concat. rewrite combine_app_eq by auto.
      rewrite nth_error_app1 by (rewrite combine_length, <- Hl, Nat.min_id; lia).
      rewrite nth_error_combine. reflexivity.
Qed.

Lemma ds_getitem_spec X Z (d : dataset X Z) i :
  wf d -> (0 <= i)%Z -> ds_getitem d i = nth_error (rows d) (Z.to_nat i).
Proof.
  intros H Hi. apply wf_ok in H.
  change (ds_getitem d i) with (getitem_from 0 (x_list d) (z_list d) i).
  rewrite (getitem_from_spec H) by lia. unfold rows. f_equal. lia.
Qed.

Lemma ds_getitem_neg X Z (d : dataset X Z) i :
  wf d -> (i < 0)%Z ->
  ds_getitem d i =
  match x_list d, z_list d with
  | x :: _, z :: _ => py_index (combine x z) i
  | _, _ => None
  end.
Proof.
  intros H Hi. apply wf_ok in H.
  change (ds_getitem d i) with (getitem_from 0 (x_list d) (z_list d) i).
  unfold getitem_from. cbn zeta.
  rewrite bisect_lt.
  2:{ apply Forall_map. eapply Forall_impl; [|apply bounds_loop_sorted]. simpl; intros; lia. }
  rewrite Z.sub_0_r.
  destruct H as [|x z xs zs Hl Hok]; simpl; auto.
  unfold py_index. rewrite combine_length, <- Hl, Nat.min_id.
  destruct (Z.leb_spec 0 i); [lia|].
  destruct (Z.leb_spec (- Z.of_nat (length x)) i); auto.
  rewrite nth_error_combine. reflexivity.
Qed.

(** ** Shard selection *)

Fixpoint hits (start : nat) (lens : list nat) (idx : list BinInt.Z) : list BinInt.Z :=
  match lens with
  | [] => []
  | l :: r => filter (fun i => (Z.of_nat start <=? i)%Z && (i <? Z.of_nat (start + l))%Z) idx
              ++ hits (start + l) r idx
  end.

Lemma py_take_spec A (l : list A) idx :
  Forall (fun i => 0 <= i < Z.of_nat (length l))%Z idx ->
  exists r, py_take l idx = Some r /\ map Some r = map (fun i => nth_error l (Z.to_nat i)) idx.
Proof.
  induction 1 as [|i idx Hi H IH]; simpl; [exists []; auto|].
  destruct IH as (r & E & M). rewrite py_index_nonneg by lia.
  destruct (nth_error l (Z.to_nat i)) eqn:N.
  2:{ apply nth_error_None in N. lia. }
  rewrite E. eexists; split; eauto. simpl. now rewrite M.
Qed.

Lemma py_take_len A (l : list A) idx r : py_take l idx = Some r -> length r = length idx.
Proof.
  revert r; induction idx as [|i idx IH]; simpl; intros r.
  - intros [= <-]; auto.
  - destruct (py_index l i); [|discriminate]. destruct (py_take l idx) eqn:E; [|discriminate].
    intros [= <-]. simpl. f_equal. auto.
Qed.

Lemma map_Some_combine A B (l : list A) (m : list B) (r : list A) (s : list B) idx :
  map Some r = map (fun i : Z => nth_error l (Z.to_nat i)) idx ->
  map Some s = map (fun i : Z => nth_error m (Z.to_nat i)) idx ->
  map Some (combine r s) = map (fun i => nth_error (combine l m) (Z.to_nat i)) idx.
Proof.
  revert r s; induction idx as [|i idx IH]; intros [|a r] [|b s]; simpl; try discriminate; auto.
  intros [= H1 H2] [= H3 H4]. rewrite nth_error_combine, <- H1, <- H3. f_equal. auto.
Qed.

Lemma select_loop_spec X Z (xs : list (list X)) (zs : list (list Z)) :
  shards_ok xs zs -> forall start idx,
  exists rx rz, select_loop start xs zs idx = Some (rx, rz) /\
    shards_ok rx rz /\
    map Some (combine (concat rx) (concat rz)) =
    map (fun i => nth_error (combine (concat xs) (concat zs)) (Z.to_nat (i - Z.of_nat start)))
        (hits start (map (@length X) xs) idx) /\
    Forall (fun x => x <> []) rx.
Proof.
  induction 1 as [|x z xs zs Hl Hok IH]; intros start idx.
  - exists [], []. simpl. repeat split; constructor.
  - simpl. destruct (IH (start + length x) idx) as (rx & rz & E & Rok & M & NE).
    rewrite E. clear IH.
    set (h := filter _ idx).
    assert (Hh : Forall (fun i => Z.of_nat start <= i < Z.of_nat (start + length x))%Z h).
    { apply Forall_forall. intros i Hi. apply filter_In in Hi as [_ Hi].
      apply andb_prop in Hi as [H1 H2]. apply Z.leb_le in H1. apply Z.ltb_lt in H2. lia. }
    assert (Tail : map (fun i => nth_error (combine (concat xs) (concat zs))
                            (Z.to_nat (i - Z.of_nat (start + length x))))
              (hits (start + length x) (map (@length X) xs) idx) =
            map (fun i => nth_error (combine (x ++ concat xs) (z ++ concat zs))
                            (Z.to_nat (i - Z.of_nat start)))
              (hits (start + length x) (map (@length X) xs) idx)).
    { apply map_ext_in. intros i Hi.
      rewrite combine_app_eq by auto.
      assert (Z.of_nat (start + length x) <= i)%Z.
      { clear -Hi. remember (start + length x) as s eqn:Hs. clear Hs start.
        assert (G : forall lens s', s <= s' -> In i (hits s' lens idx) -> (Z.of_nat s <= i)%Z).
        { induction lens as [|l lens IH]; simpl; intros s' Hs' HI; [tauto|].
          apply in_app_or in HI as [HI|HI].
          - apply filter_In in HI as [_ HI]. apply andb_prop in HI as [H1 _].
            apply Z.leb_le in H1. lia.
          - eapply IH; [|exact HI]. lia. }
        eapply G; [|exact Hi]. lia. }
      rewrite nth_error_app2; rewrite combine_length, <- Hl, Nat.min_id; [|lia].
      f_equal. lia. }
    assert (Hloc : Forall (fun i => 0 <= i < Z.of_nat (length x))%Z
               (map (fun i => (i - Z.of_nat start)%Z) h)).
    { apply Forall_map. eapply Forall_impl; [|exact Hh]. simpl. intros; lia. }
    destruct (py_take_spec x Hloc) as (a & Ea & Ma).
    rewrite Hl in Hloc.
    destruct (py_take_spec z Hloc) as (b & Eb & Mb).
    rewrite Ea, Eb.
    assert (Hab : length a = length b).
    { rewrite (@py_take_len _ _ _ _ Ea), (@py_take_len _ _ _ _ Eb); auto. }
    assert (Main : map Some (combine a b) =
       map (fun i => nth_error (combine (x ++ concat xs) (z ++ concat zs))
               (Z.to_nat (i - Z.of_nat start))) h).
    { rewrite (@map_Some_combine _ _ x z a b _ Ma Mb), map_map.
      apply map_ext_in. intros i Hi.
      rewrite combine_app_eq by auto.
      rewrite nth_error_app1; auto.
      rewrite combine_length, <- Hl, Nat.min_id.
      rewrite Forall_forall in Hh. specialize (Hh i Hi). lia. }
    destruct h as [|i0 h0] eqn:Eh.
    + exists rx, rz. repeat split; auto.
      cbn [app]. rewrite M. exact Tail.
    + exists (a :: rx), (b :: rz). repeat split; auto.
      * constructor; auto.
      * simpl concat. rewrite combine_app_eq by auto. rewrite !map_app, Main, M, Tail. reflexivity.
      * constructor; auto. intros ->. apply py_take_len in Ea. simpl in Ea. discriminate.
Qed.

Definition between (a b : nat) (i : Z) : bool := (Z.of_nat a <=? i)%Z && (i <? Z.of_nat b)%Z.

Lemma filter_split_perm (idx : list Z) a b c : a <= b -> b <= c ->
  Permutation (filter (between a b) idx ++ filter (between b c) idx) (filter (between a c) idx).
Proof.
  intros H1 H2. induction idx as [|i idx IH]; simpl; auto.
  destruct (between a b i) eqn:E1, (between b c i) eqn:E2; unfold between in *;
    repeat rewrite andb_true_iff in *; repeat rewrite andb_false_iff in *;
    repeat rewrite Z.leb_le in *; repeat rewrite Z.ltb_lt in *;
    repeat rewrite Z.leb_gt in *; repeat rewrite Z.ltb_ge in *; try lia;
    (destruct (Z.leb_spec (Z.of_nat a) i); destruct (Z.ltb_spec i (Z.of_nat c)); simpl; try lia; auto).
  - etransitivity; [symmetry; apply Permutation_middle|]. constructor; auto.
Qed.

Lemma hits_perm lens : forall start idx,
  Permutation (hits start lens idx) (filter (between start (start + list_sum lens)) idx).
Proof.
  induction lens as [|l lens IH]; intros start idx; simpl.
  - replace (filter _ idx) with (@nil Z); auto.
    symmetry. induction idx as [|i idx IHi]; simpl; auto. unfold between at 1.
    destruct (Z.leb_spec (Z.of_nat start) i); destruct (Z.ltb_spec i (Z.of_nat (start + 0))); simpl; auto; lia.
  - etransitivity. apply Permutation_app_head. apply IH.
    etransitivity. apply filter_split_perm; lia. rewrite Nat.add_assoc. auto.
Qed.

Lemma filter_split_sorted (idx : list Z) a b c : a <= b -> b <= c -> StronglySorted Z.le idx ->
  filter (between a b) idx ++ filter (between b c) idx = filter (between a c) idx.
Proof.
  intros H1 H2. induction 1 as [|i idx S IH F]; simpl; auto.
  destruct (between a b i) eqn:E1.
  - assert (between a c i = true) as ->.
    { unfold between in *. rewrite andb_true_iff, Z.leb_le, Z.ltb_lt in *. lia. }
    assert (between b c i = false) as ->.
    { unfold between in *. rewrite andb_true_iff, Z.leb_le, Z.ltb_lt in *.
      apply andb_false_iff. rewrite Z.leb_gt. lia. }
    simpl. now rewrite IH.
  - destruct (between b c i) eqn:E2.
    + assert (between a c i = true) as ->.
      { unfold between in *. rewrite andb_true_iff, Z.leb_le, Z.ltb_lt in *. lia. }
      assert (N : filter (between a b) idx = []).
      { clear IH S. induction idx as [|j idx IH]; simpl; auto. inversion F; subst.
        assert (between a b j = false) as ->; auto.
        unfold between in *. rewrite andb_true_iff, Z.leb_le, Z.ltb_lt in *.
        apply andb_false_iff. rewrite Z.ltb_ge. lia. }
      rewrite N in *. simpl in *. f_equal. exact IH.
    + assert (between a c i = false) as ->; auto.
      unfold between in *. rewrite andb_false_iff, Z.leb_gt, Z.ltb_ge in *. lia.
Qed.

Lemma hits_sorted lens : forall start idx, StronglySorted Z.le idx ->
  hits start lens idx = filter (between start (start + list_sum lens)) idx.
Proof.
  induction lens as [|l lens IH]; intros start idx Hs; simpl.
  - induction idx as [|i idx IHi]; simpl; auto. unfold between at 1.
    inversion Hs; subst.
    destruct (Z.leb_spec (Z.of_nat start) i); destruct (Z.ltb_spec i (Z.of_nat (start + 0))); simpl; auto; lia.
  - rewrite IH by auto. rewrite Nat.add_assoc. apply filter_split_sorted; auto; lia.
Qed.

Lemma list_sum_lengths A (l : list (list A)) : list_sum (map (@length A) l) = length (concat l).
Proof. induction l as [|x l IH]; simpl; auto. rewrite app_length. lia. Qed.

Lemma between_in_range n : forall i, between 0 n i = in_range n i.
Proof. reflexivity. Qed.

(** ** subset *)

Lemma z_insert_perm a l : Permutation (z_insert a l) (a :: l).
Proof.
  induction l as [|b l IH]; simpl; auto. destruct (Z.leb_spec a b); auto.
  etransitivity; [constructor; exact IH|]. constructor.
Qed.
Lemma z_sort_perm l : Permutation (z_sort l) l.
Proof.
  induction l as [|a l IH]; simpl; auto. etransitivity; [apply z_insert_perm|]. constructor; auto.
Qed.
Lemma z_insert_sorted a l : StronglySorted Z.le l -> StronglySorted Z.le (z_insert a l).
Proof.
  induction 1 as [|b l S IH F]; simpl; [repeat constructor|].
  destruct (Z.leb_spec a b).
  - constructor; [constructor; auto|]. constructor; auto. eapply Forall_impl; [|exact F]. simpl; lia.
  - constructor; auto. apply Forall_forall. intros x Hx.
    apply (Permutation_in _ (z_insert_perm a l)) in Hx. destruct Hx as [<-|Hx]; [lia|].
    rewrite Forall_forall in F. auto.
Qed.
Lemma z_sort_sorted l : StronglySorted Z.le (z_sort l).
Proof. induction l; simpl; [constructor|]. apply z_insert_sorted; auto. Qed.

Lemma sorted_filter (f : Z -> bool) l : StronglySorted Z.le l -> StronglySorted Z.le (filter f l).
Proof.
  induction 1 as [|i l S IH F]; simpl; [constructor|].
  destruct (f i); auto. constructor; auto.
  apply Forall_forall. intros x Hx. apply filter_In in Hx as [Hx _].
  rewrite Forall_forall in F; auto.
Qed.

Lemma subset_spec X Z (d : dataset X Z) idx :
  wf d -> exists d', ds_subset d idx = Some d' /\ wf d' /\
    exists s, StronglySorted Z.le s /\ Permutation s (filter (in_range (ds_size d)) idx) /\
      map Some (rows d') = map (fun i => nth_error (rows d) (Z.to_nat i)) s.
Proof.
  intros H. apply wf_ok in H. unfold ds_subset.
  destruct (select_loop_spec H 0 (z_sort idx)) as (rx & rz & E & Rok & M & _).
  rewrite E. assert (I : dataset_init rx rz = Some (mkDataset rx rz)) by (apply init_ok; auto).
  rewrite I. eexists; split; eauto. split; [exact I|].
  exists (filter (in_range (ds_size d)) (z_sort idx)). repeat split.
  - apply sorted_filter, z_sort_sorted.
  - assert (G : forall l l' : list BinInt.Z, Permutation l l' ->
        Permutation (filter (in_range (ds_size d)) l) (filter (in_range (ds_size d)) l')).
    { clear. induction 1; simpl; auto.
      - destruct (in_range _ x); auto.
      - destruct (in_range _ x), (in_range _ y); auto. constructor.
      - etransitivity; eauto. }
    apply G. apply z_sort_perm.
  - unfold rows at 1; cbn [x_list z_list]. rewrite M.
    rewrite hits_sorted by apply z_sort_sorted.
    rewrite list_sum_lengths, <- ds_size_concat. simpl plus.
    apply map_ext. intros i. unfold rows. f_equal. f_equal. lia.
Qed.

(** Requested rows that exist: all of the indices are in range. *)
Lemma subset_rows_perm X Z (d : dataset X Z) idx d' :
  wf d -> ds_subset d idx = Some d' ->
  Permutation (map Some (rows d'))
     (map (fun i => nth_error (rows d) (Z.to_nat i)) (filter (in_range (ds_size d)) idx)).
Proof.
  intros H E. destruct (subset_spec idx H) as (d'' & E' & _ & s & _ & P & M).
  rewrite E in E'. injection E' as <-. rewrite M. now apply Permutation_map.
Qed.

Lemma filter_all A (f : A -> bool) l : Forall (fun x => f x = true) l -> filter f l = l.
Proof. induction 1; simpl; auto. rewrite H. f_equal; auto. Qed.

Arguments filter_all [A f l] _.

Lemma map_Some_inj A (l m : list A) : map Some l = map Some m -> l = m.
Proof.
  revert m; induction l as [|a l IH]; intros [|b m]; simpl; try discriminate; auto.
  intros [= -> H]. f_equal; auto.
Qed.

Lemma perm_map_Some A (l m : list A) : Permutation (map Some l) (map Some m) -> Permutation l m.
Proof.
  intros H. apply Permutation_map_inv in H as (l' & E & P).
  apply map_Some_inj in E as ->. now symmetry.
Qed.

Lemma map_nth_error_seq A (l : list A) :
  map (fun i => nth_error l i) (seq 0 (length l)) = map Some l.
Proof.
  induction l as [|a l IH]; auto. cbn [length seq map]. f_equal.
  rewrite <- seq_shift, map_map. exact IH.
Qed.

Lemma rows_by_perm A (l : list A) perm :
  Permutation perm (seq 0 (length l)) ->
  Permutation (map (fun i => nth_error l (Z.to_nat i)) (map Z.of_nat perm)) (map Some l).
Proof.
  intros P. rewrite map_map. rewrite <- map_nth_error_seq.
  etransitivity; [apply Permutation_map; exact P|].
  erewrite map_ext; [reflexivity|]. intros; simpl. now rewrite Nat2Z.id.
Qed.

Lemma perm_in_range n perm :
  Permutation perm (seq 0 n) -> Forall (fun i => in_range n i = true) (map Z.of_nat perm).
Proof.
  intros P. apply Forall_map, Forall_forall. intros i Hi.
  apply (Permutation_in _ P) in Hi. apply in_seq in Hi.
  unfold in_range. rewrite andb_true_iff, Z.leb_le, Z.ltb_lt. lia.
Qed.

Lemma Forall_app_inv_l A (P : A -> Prop) l m : Forall P (l ++ m) -> Forall P l /\ Forall P m.
Proof. rewrite Forall_app. auto. Qed.

Lemma split_spec X Z (d : dataset X Z) perm n_tr n_va :
  wf d -> Permutation perm (seq 0 (ds_size d)) -> n_tr + n_va <= ds_size d ->
  exists a b c, ds_split d perm n_tr n_va = Some (a, b, c) /\
    wf a /\ wf b /\ wf c /\
    length (rows a) = n_tr /\ length (rows b) = n_va /\
    length (rows c) = ds_size d - (n_tr + n_va) /\
    Permutation (rows a ++ rows b ++ rows c) (rows d).
Proof.
  intros H P Hn. unfold ds_split.
  set (idx := map Z.of_nat perm).
  assert (Lidx : length idx = ds_size d).
  { unfold idx. rewrite map_length, (Permutation_length P), seq_length. auto. }
  assert (R : Forall (fun i => in_range (ds_size d) i = true) idx) by (apply perm_in_range; auto).
  assert (Split : idx = firstn n_tr idx ++ py_slice idx n_tr (n_tr + n_va) ++ skipn (n_tr + n_va) idx).
  { unfold py_slice. replace (n_tr + n_va - n_tr) with n_va by lia.
    rewrite <- (firstn_skipn n_tr idx) at 1. f_equal.
    rewrite <- (firstn_skipn n_va (skipn n_tr idx)) at 1. f_equal.
    apply skipn_skipn_add. }
  rewrite Split in R. apply Forall_app_inv_l in R as [R1 R]. apply Forall_app_inv_l in R as [R2 R3].
  destruct (subset_spec (firstn n_tr idx) H) as (a & Ea & Wa & _).
  destruct (subset_spec (py_slice idx n_tr (n_tr + n_va)) H) as (b & Eb & Wb & _).
  destruct (subset_spec (skipn (n_tr + n_va) idx) H) as (c & Ec & Wc & _).
  rewrite Ea, Eb, Ec. exists a, b, c. split; auto. do 3 (split; auto).
  pose proof (subset_rows_perm _ H Ea) as Pa. rewrite (filter_all R1) in Pa.
  pose proof (subset_rows_perm _ H Eb) as Pb. rewrite (filter_all R2) in Pb.
  pose proof (subset_rows_perm _ H Ec) as Pc. rewrite (filter_all R3) in Pc.
  repeat split.
  - apply Permutation_length in Pa. rewrite !map_length, firstn_length in Pa. lia.
  - apply Permutation_length in Pb. unfold py_slice in Pb.
    rewrite !map_length, firstn_length, skipn_length in Pb. lia.
  - apply Permutation_length in Pc. rewrite !map_length, skipn_length in Pc. lia.
  - apply perm_map_Some. rewrite !map_app.
    etransitivity; [apply Permutation_app; [exact Pa|apply Permutation_app; [exact Pb|exact Pc]]|].
    rewrite <- !map_app, <- Split. unfold idx. apply rows_by_perm.
    rewrite (rows_length H). exact P.
Qed.

(** ** Batches *)

Lemma fetch_spec X Z (d : dataset X Z) idx :
  wf d -> idx <> [] -> Forall (fun i => in_range (ds_size d) i = true) idx ->
  exists b, fetch_batch d idx = Some b /\ length (fst b) = length (snd b) /\
    length (fst b) = length idx /\
    Permutation (map Some (brows b)) (map (fun i => nth_error (rows d) (Z.to_nat i)) idx) /\
    (StronglySorted Z.le idx ->
     map Some (brows b) = map (fun i => nth_error (rows d) (Z.to_nat i)) idx).
Proof.
  intros H NE R. apply wf_ok in H. unfold fetch_batch.
  destruct (select_loop_spec H 0 idx) as (rx & rz & E & Rok & M & _). rewrite E.
  assert (M' : map Some (combine (concat rx) (concat rz)) =
     map (fun i => nth_error (rows d) (Z.to_nat i)) (hits 0 (map (@length X) (x_list d)) idx)).
  { rewrite M. apply map_ext. intros i. unfold rows. f_equal. f_equal. lia. }
  assert (Ph : Permutation (hits 0 (map (@length X) (x_list d)) idx) idx).
  { etransitivity; [apply hits_perm|]. rewrite list_sum_lengths, <- ds_size_concat. simpl plus.
    rewrite (filter_all (f := between 0 (ds_size d)) R). auto. }
  assert (Lx : length (combine (concat rx) (concat rz)) = length idx).
  { apply (f_equal (@length _)) in M'. rewrite !map_length in M'. rewrite M'.
    now apply Permutation_length. }
  pose proof (shards_ok_concat_length Rok) as Lc.
  rewrite combine_length, <- Lc, Nat.min_id in Lx.
  destruct rx as [|a rx].
  { simpl in Lx. destruct idx; [congruence|discriminate]. }
  inversion Rok as [|? b ? rz' Hab Rok']; subst.
  cbn [np_concatenate]. eexists; split; [reflexivity|].
  cbn [fst snd]. split; [exact Lc|]. split; [exact Lx|]. split.
  - unfold brows; cbn [fst snd]. rewrite M'. now apply Permutation_map.
  - intros S. unfold brows; cbn [fst snd]. rewrite M', (hits_sorted _ _ S).
    rewrite list_sum_lengths, <- ds_size_concat. simpl plus.
    now rewrite (filter_all (f := between 0 (ds_size d)) R).
Qed.

(** Reference: cut a list into consecutive pieces of [b] elements, the last one possibly
    shorter; [keep] tells whether a short last piece is kept. *)
Fixpoint chunks_fuel A (fuel b : nat) (keep : bool) (l : list A) : list (list A) :=
  match fuel with
  | 0 => []
  | S f => match l with
           | [] => []
           | _ => if (length l <? b) && negb keep then []
                  else firstn b l :: chunks_fuel f b keep (skipn b l)
           end
  end.
Definition chunks A (b : nat) (keep : bool) (l : list A) := chunks_fuel (length l) b keep l.

Lemma ceil_succ n b : 1 <= b -> b <= n -> (n + b - 1) / b = S ((n - b + b - 1) / b).
Proof.
  intros H1 H2. replace (n + b - 1) with ((n - b + b - 1) + 1 * b) by lia.
  rewrite Nat.div_add by lia. lia.
Qed.
Lemma ceil_small n b : 1 <= n -> n <= b -> (n + b - 1) / b = 1.
Proof.
  intros H1 H2. symmetry. apply Nat.div_unique with (r := n - 1); lia.
Qed.

Lemma py_range0_S n b : 1 <= b -> 1 <= n ->
  py_range0 n b = 0 :: map (fun s => b + s) (py_range0 (n - b) b).
Proof.
  intros H1 H2. unfold py_range0. destruct (le_lt_dec b n) as [L|L].
  - rewrite ceil_succ by lia. cbn [seq map]. f_equal.
    rewrite <- seq_shift, !map_map. apply map_ext. intros; lia.
  - rewrite ceil_small by lia. cbn [seq map]. f_equal.
    replace (n - b) with 0 by lia. simpl plus.
    rewrite Nat.div_small by lia. reflexivity.
Qed.

(** Slices of the index array produced by the loop = chunks of the index array. *)
Fixpoint epoch_slices (n b : nat) (drop : bool) (idx starts : list nat) : list (list nat) :=
  match starts with
  | [] => []
  | st :: r => if (n <? st + b) && drop then [] else
               py_slice idx st (st + b) :: epoch_slices n b drop idx r
  end.

Lemma epoch_slices_eq X Z (d : dataset X Z) n b drop idx starts :
  epoch_loop d n b drop idx starts =
  map (fun s => fetch_batch d (map Z.of_nat s)) (epoch_slices n b drop idx starts).
Proof.
  induction starts as [|st r IH]; simpl; auto. destruct (_ && drop); simpl; auto.
  now rewrite IH.
Qed.

Lemma epoch_slices_shift n b drop idx starts k : k <= n -> length idx = n ->
  epoch_slices n b drop idx (map (fun s => k + s) starts) =
  epoch_slices (n - k) b drop (skipn k idx) starts.
Proof.
  intros Hk Hl. induction starts as [|st r IH]; simpl; auto.
  replace (n <? k + st + b) with (n - k <? st + b).
  2:{ destruct (Nat.ltb_spec (n - k) (st + b)), (Nat.ltb_spec n (k + st + b)); auto; lia. }
  destruct (_ && drop); auto. rewrite IH. f_equal.
  unfold py_slice. rewrite skipn_skipn_add. f_equal. lia.
Qed.

Lemma chunks_fuel_enough A b keep : 1 <= b -> forall f (l : list A), length l <= f ->
  chunks_fuel f b keep l = chunks b keep l.
Proof.
  intros Hb. unfold chunks.
  assert (G : forall f f' (l : list A), length l <= f -> length l <= f' ->
     chunks_fuel f b keep l = chunks_fuel f' b keep l).
  { induction f as [|f IH]; intros [|f'] l H1 H2; simpl; auto.
    - destruct l; auto; simpl in *; lia.
    - destruct l; auto; simpl in *; lia.
    - destruct l as [|a l]; auto. destruct (_ && _); auto. f_equal.
      apply IH; rewrite skipn_length; cbn [length] in *; lia. }
  intros; apply G; auto.
Qed.

Lemma chunks_cons A b keep (l : list A) : 1 <= b -> l <> [] ->
  chunks b keep l = if (length l <? b) && negb keep then []
                    else firstn b l :: chunks b keep (skipn b l).
Proof.
  intros Hb Hl. unfold chunks at 1. destruct l as [|a l]; [congruence|].
  cbn [length chunks_fuel]. destruct (_ && _); auto. f_equal.
  apply chunks_fuel_enough; auto. rewrite skipn_length. cbn [length]. lia.
Qed.

Lemma epoch_slices_chunks b drop : 1 <= b -> forall n idx, length idx = n ->
  epoch_slices n b drop idx (py_range0 n b) = chunks b (negb drop) idx.
Proof.
  intros Hb n. induction n as [n IH] using (well_founded_induction lt_wf).
  intros idx Hl. destruct (Nat.eq_dec n 0) as [->|Hn].
  - destruct idx; [|discriminate]. unfold py_range0. simpl plus.
    rewrite Nat.div_small by lia. reflexivity.
  - rewrite py_range0_S by lia. cbn [epoch_slices].
    rewrite chunks_cons; [|auto|intros ->; simpl in Hl; lia].
    rewrite negb_involutive, Nat.add_0_l, Hl.
    destruct ((n <? b) && drop) eqn:E; auto.
    unfold py_slice. rewrite Nat.sub_0_r. cbn [skipn]. f_equal.
    destruct (le_lt_dec b n) as [L|L].
    + rewrite epoch_slices_shift by lia. apply IH; [lia|]. rewrite skipn_length. lia.
    + replace (n - b) with 0 by lia. unfold py_range0. rewrite Nat.div_small by lia. cbn.
      rewrite skipn_all2 by lia. reflexivity.
Qed.

Lemma chunks_concat A b (l : list A) : 1 <= b -> concat (chunks b true l) = l.
Proof.
  intros Hb. remember (length l) as n eqn:Hn. revert l Hn.
  induction n as [n IH] using (well_founded_induction lt_wf). intros l Hn.
  destruct l as [|a l]; auto. rewrite chunks_cons by (auto; discriminate).
  rewrite andb_false_r. cbn [concat]. rewrite (IH (length (skipn b (a :: l)))); auto.
  - apply firstn_skipn.
  - rewrite skipn_length. cbn [length] in *. lia.
Qed.

Lemma chunks_drop A b (l : list A) : 1 <= b ->
  Forall (fun c => length c = b) (chunks b false l) /\
  length (chunks b false l) = length l / b /\
  concat (chunks b false l) = firstn (length l / b * b) l.
Proof.
  intros Hb. remember (length l) as n eqn:Hn. revert l Hn.
  induction n as [n IH] using (well_founded_induction lt_wf). intros l Hn.
  destruct l as [|a l].
  { simpl in Hn. subst. rewrite Nat.div_small by lia. repeat split; constructor. }
  rewrite chunks_cons by (auto; discriminate). simpl negb. rewrite andb_true_r, <- Hn.
  destruct (Nat.ltb_spec n b) as [L|L].
  - rewrite Nat.div_small by auto. repeat split; constructor.
  - destruct (IH (n - b)) with (l := skipn b (a :: l)) as (F & Len & C).
    + lia.
    + rewrite skipn_length. lia.
    + assert (D : n / b = S ((n - b) / b)).
      { replace n with ((n - b) + 1 * b) at 1 by lia. rewrite Nat.div_add by lia. lia. }
      split; [|split].
      * constructor; auto. rewrite firstn_length. lia.
      * simpl length. rewrite Len. lia.
      * cbn [concat]. rewrite C, D.
        rewrite <- (firstn_skipn b (a :: l)) at 3.
        rewrite firstn_app, firstn_length. replace (Nat.min b (length (a :: l))) with b by lia.
        rewrite (firstn_all2 (n := S ((n - b) / b) * b)).
        2:{ rewrite firstn_length. cbn [Nat.mul]. lia. }
        f_equal. f_equal. simpl. lia.
Qed.

Lemma chunks_keep_sizes A b (l : list A) : 1 <= b ->
  length (chunks b true l) = (length l + b - 1) / b /\
  forall k c, nth_error (chunks b true l) k = Some c ->
    c = firstn b (skipn (k * b) l) /\ c <> [] /\ length c <= b /\
    (S k < length (chunks b true l) -> length c = b).
Proof.
  intros Hb. remember (length l) as n eqn:Hn. revert l Hn.
  induction n as [n IH] using (well_founded_induction lt_wf). intros l Hn.
  destruct l as [|a l].
  { simpl in Hn. subst. rewrite Nat.div_small by lia. simpl. split; auto.
    intros [|k] c; discriminate. }
  rewrite chunks_cons by (auto; discriminate). rewrite andb_false_r.
  destruct (IH (n - b)) with (l := skipn b (a :: l)) as (Len & N).
  { simpl in Hn; lia. } { rewrite skipn_length. lia. }
  simpl length at 1. rewrite Len. split.
  - simpl in Hn. destruct (le_lt_dec b n) as [L|L].
    + rewrite (@ceil_succ n b) by lia. auto.
    + rewrite (@ceil_small n b) by lia. replace (n - b) with 0 by lia.
      rewrite Nat.div_small by lia. auto.
  - intros [|k] c.
    + intros [= <-]. cbn [Nat.mul skipn]. split; auto. split.
      * intros E. apply (f_equal (@length _)) in E. rewrite firstn_length in E. simpl in *. lia.
      * split; [rewrite firstn_length; lia|].
        intros H. rewrite firstn_length. cbn [length] in *.
        rewrite Len in H.
        destruct (le_lt_dec b n) as [L|L]; [lia|].
        replace (n - b) with 0 in H by lia. rewrite Nat.div_small in H by lia. lia.
    + cbn [nth_error]. intros E. destruct (N k c E) as (-> & H1 & H2 & H3).
      split; [|split; [auto|split; [auto|]]].
      * rewrite skipn_skipn_add. reflexivity.
      * intros H. apply H3. cbn [length] in *. lia.
Qed.

Lemma chunks_In_sub A b keep (l : list A) c x : 1 <= b -> In c (chunks b keep l) -> In x c -> In x l.
Proof.
  intros Hb. remember (length l) as n eqn:Hn. revert l Hn.
  induction n as [n IH] using (well_founded_induction lt_wf). intros l Hn.
  destruct l as [|a l]; [simpl; tauto|].
  rewrite chunks_cons by (auto; discriminate).
  destruct (_ && _); [simpl; tauto|]. intros [<-|H] Hx.
  - rewrite <- (firstn_skipn b (a :: l)). apply in_or_app. auto.
  - rewrite <- (firstn_skipn b (a :: l)). apply in_or_app. right.
    eapply IH; [| |exact H|exact Hx]; auto. rewrite skipn_length. cbn [length] in *; lia.
Qed.

Lemma chunks_nonempty A b keep (l : list A) c : 1 <= b -> In c (chunks b keep l) -> c <> [].
Proof.
  intros Hb. remember (length l) as n eqn:Hn. revert l Hn.
  induction n as [n IH] using (well_founded_induction lt_wf). intros l Hn.
  destruct l as [|a l]; [simpl; tauto|].
  rewrite chunks_cons by (auto; discriminate).
  destruct (_ && _); [simpl; tauto|]. intros [<-|H].
  - intros E. apply (f_equal (@length _)) in E. rewrite firstn_length in E. simpl in *. lia.
  - eapply IH; [| |exact H]; auto. rewrite skipn_length. cbn [length] in *; lia.
Qed.

(** The batches of an epoch: same number as the chunks of the index order, each batch holding
    exactly the rows its chunk designates. *)
Lemma epoch_batches X Z (d : dataset X Z) b drop idx :
  wf d -> 1 <= b -> Permutation idx (seq 0 (ds_size d)) ->
  exists bs, epoch d b drop idx = map Some bs /\
    Forall2 (fun bt c => length (fst bt) = length (snd bt) /\ length (fst bt) = length c /\
       Permutation (map Some (brows bt)) (map (nth_error (rows d)) c) /\
       (StronglySorted le c -> map Some (brows bt) = map (nth_error (rows d)) c))
      bs (chunks b (negb drop) idx).
Proof.
  intros H Hb P. unfold epoch.
  assert (L : length idx = ds_size d) by (rewrite (Permutation_length P), seq_length; auto).
  rewrite epoch_slices_eq, (epoch_slices_chunks drop Hb idx L).
  assert (NE : Forall (fun c => c <> []) (chunks b (negb drop) idx)).
  { apply Forall_forall. intros c. apply chunks_nonempty; auto. }
  assert (RG : Forall (fun c => Forall (fun i => i < ds_size d) c) (chunks b (negb drop) idx)).
  { apply Forall_forall. intros c Hc. apply Forall_forall. intros i Hi.
    assert (In i idx) by (eapply chunks_In_sub; eauto).
    apply (Permutation_in _ P), in_seq in H0. lia. }
  revert NE RG. generalize (chunks b (negb drop) idx). clear P L idx.
  induction l as [|c l IH]; intros NE RG; simpl.
  - exists []; split; auto.
  - inversion NE as [|? ? Hc NE']; inversion RG as [|? ? Rc RG']; subst.
    destruct (IH NE' RG') as (bs & E & F).
    destruct (@fetch_spec _ _ d (map Z.of_nat c) H) as (bt & Ebt & L1 & L2 & Pb & Sb).
    + destruct c; [congruence|discriminate].
    + apply Forall_map. eapply Forall_impl; [|exact Rc]. simpl. intros i Hi.
      unfold in_range. rewrite andb_true_iff, Z.leb_le, Z.ltb_lt. lia.
    + rewrite map_map in Pb, Sb.
      rewrite (map_ext (fun x => nth_error (rows d) (Z.to_nat (Z.of_nat x))) (nth_error (rows d))) in Pb, Sb
        by (intros; now rewrite Nat2Z.id).
      exists (bt :: bs). rewrite Ebt, E. split; auto. constructor; auto.
      rewrite map_length in L2. repeat split; auto.
      intros S. apply Sb. clear -S. induction S as [|i l S IH F]; simpl; constructor; auto.
      apply Forall_map. eapply Forall_impl; [|exact F]. simpl. lia.
Qed.

Lemma concat_brows_perm X Z (rws : list (X * Z)) bs cs :
  Forall2 (fun bt c => Permutation (map Some (brows bt)) (map (nth_error rws) c)) bs cs ->
  Permutation (map Some (concat (map (@brows X Z) bs))) (map (nth_error rws) (concat cs)).
Proof.
  induction 1; simpl; auto. rewrite !map_app. now apply Permutation_app.
Qed.
Lemma concat_brows_eq X Z (rws : list (X * Z)) bs cs :
  Forall2 (fun bt c => map Some (brows bt) = map (nth_error rws) c) bs cs ->
  map Some (concat (map (@brows X Z) bs)) = map (nth_error rws) (concat cs).
Proof.
  induction 1; simpl; auto. rewrite !map_app. now rewrite H, IHForall2.
Qed.

Lemma Forall2_impl A B (P Q : A -> B -> Prop) l m :
  (forall a b, P a b -> Q a b) -> Forall2 P l m -> Forall2 Q l m.
Proof. induction 2; constructor; auto. Qed.

Lemma seq_sorted a n : StronglySorted le (seq a n).
Proof.
  revert a; induction n as [|n IH]; intro a; simpl; constructor; auto.
  apply Forall_forall. intros x Hx. apply in_seq in Hx. lia.
Qed.

Lemma chunks_sorted b keep l : 1 <= b -> StronglySorted le l ->
  Forall (StronglySorted le) (chunks b keep l).
Proof.
  intros Hb. remember (length l) as n eqn:Hn. revert l Hn.
  induction n as [n IH] using (well_founded_induction lt_wf). intros l Hn S.
  destruct l as [|a l]; [constructor|].
  rewrite chunks_cons by (auto; discriminate). destruct (_ && _); [constructor|].
  assert (G : forall x y : list nat, StronglySorted le (x ++ y) -> StronglySorted le x /\ StronglySorted le y).
  { clear. induction x as [|h x IH]; simpl; intros y S; [split; [constructor|auto]|].
    inversion S as [|? ? S' F]; subst. apply IH in S' as [S1 S2]. split; auto. constructor; auto.
    rewrite Forall_app in F; tauto. }
  rewrite <- (firstn_skipn b (a :: l)) in S. apply G in S as [S1 S2]. constructor; auto.
  eapply IH; [| |exact S2]; auto. rewrite skipn_length. cbn [length] in *; lia.
Qed.

Definition last_ok A (b : nat) (bs : list (list A)) : Prop :=
  forall k c, nth_error bs k = Some c -> 1 <= length c <= b /\ (S k < length bs -> length c = b).

Lemma Forall2_nth A B (R : A -> B -> Prop) l m : Forall2 R l m -> forall k a,
  nth_error l k = Some a -> exists c, nth_error m k = Some c /\ R a c.
Proof.
  induction 1; intros [|k] a; simpl; try discriminate.
  - intros [= <-]; eauto.
  - apply IHForall2.
Qed.

Lemma epoch_keep X Z (d : dataset X Z) b idx :
  wf d -> 1 <= b -> Permutation idx (seq 0 (ds_size d)) ->
  exists bs, epoch d b false idx = map Some bs /\
    Forall (fun bt => length (fst bt) = length (snd bt)) bs /\
    Permutation (concat (map (@brows X Z) bs)) (rows d) /\
    (idx = seq 0 (ds_size d) -> concat (map (@brows X Z) bs) = rows d) /\
    length bs = (ds_size d + b - 1) / b /\
    last_ok b (map fst bs).
Proof.
  intros H Hb P. destruct (epoch_batches false H Hb P) as (bs & E & F). simpl negb in F.
  exists bs. split; auto.
  assert (L : length idx = ds_size d) by (rewrite (Permutation_length P), seq_length; auto).
  split; [|split; [|split; [|split]]].
  - clear -F. induction F as [|? ? ? ? (Hx & _)]; constructor; auto.
  - apply perm_map_Some.
    etransitivity.
    { apply concat_brows_perm. eapply Forall2_impl; [|exact F]. intros x y (_ & _ & K & _); exact K. }
    rewrite chunks_concat by auto. rewrite <- map_nth_error_seq, (rows_length H).
    now apply Permutation_map.
  - intros ->. apply map_Some_inj.
    transitivity (map (nth_error (rows d)) (concat (chunks b true (seq 0 (ds_size d))))).
    { apply concat_brows_eq.
      pose proof (chunks_sorted true Hb (seq_sorted 0 (ds_size d))) as S.
      clear -F S. induction F as [|? ? ? ? Hx F IH]; constructor; inversion S; subst; auto.
      apply Hx; auto. }
    rewrite chunks_concat by auto. rewrite <- map_nth_error_seq, (rows_length H). reflexivity.
  - rewrite (Forall2_len F). destruct (chunks_keep_sizes idx Hb) as [-> _]. now rewrite L.
  - intros k c Hk. rewrite nth_error_map in Hk. destruct (nth_error bs k) as [bt|] eqn:Ek; [|discriminate].
    injection Hk as <-. destruct (Forall2_nth F _ Ek) as (c & Ec & L1 & L2 & _).
    destruct (chunks_keep_sizes idx Hb) as [_ N]. destruct (N _ _ Ec) as (_ & C1 & C2 & C3).
    rewrite L2, map_length, (Forall2_len F). split; auto. destruct c; [congruence|simpl in *; lia].
Qed.

Lemma epoch_drop X Z (d : dataset X Z) b idx :
  wf d -> 1 <= b -> Permutation idx (seq 0 (ds_size d)) ->
  exists bs dropped, epoch d b true idx = map Some bs /\
    Forall (fun bt => length (fst bt) = b /\ length (snd bt) = b) bs /\
    Permutation (concat (map (@brows X Z) bs) ++ dropped) (rows d) /\
    (idx = seq 0 (ds_size d) -> concat (map (@brows X Z) bs) ++ dropped = rows d) /\
    length bs = ds_size d / b /\ length dropped < b.
Proof.
  intros H Hb P. destruct (epoch_batches true H Hb P) as (bs & E & F). simpl negb in F.
  assert (L : length idx = ds_size d) by (rewrite (Permutation_length P), seq_length; auto).
  destruct (chunks_drop idx Hb) as (Sz & Len & C). rewrite L in *.
  set (rest := skipn (ds_size d / b * b) idx).
  assert (Hrest : exists dropped, map Some dropped = map (nth_error (rows d)) rest).
  { assert (Forall (fun i => i < length (rows d)) rest).
    { apply Forall_forall. intros i Hi. rewrite (rows_length H).
      assert (In i idx) by (rewrite <- (firstn_skipn (ds_size d / b * b) idx); apply in_or_app; auto).
      apply (Permutation_in _ P), in_seq in H0. lia. }
    revert H0. generalize rest. induction rest0 as [|i r IH]; intros Fa; [exists []; auto|].
    inversion Fa; subst. destruct IH as (dr & Hd); auto.
    destruct (nth_error (rows d) i) as [a|] eqn:Ea.
    - exists (a :: dr). simpl. now rewrite Ea, Hd.
    - apply nth_error_None in Ea. lia. }
  destruct Hrest as (dropped & Hd). exists bs, dropped. split; auto.
  split; [|split; [|split; [|split]]].
  - clear -F Sz. induction F as [|? ? ? ? (Hx & Hy & _) F IH]; constructor; inversion Sz; subst; auto.
    split; congruence.
  - apply perm_map_Some. rewrite map_app, Hd.
    etransitivity.
    { apply Permutation_app_tail. apply concat_brows_perm. eapply Forall2_impl; [|exact F]. intros x y (_ & _ & K & _); exact K. }
    rewrite C, <- map_app. unfold rest. rewrite firstn_skipn.
    rewrite <- map_nth_error_seq, (rows_length H). now apply Permutation_map.
  - intros ->. apply map_Some_inj. rewrite map_app, Hd.
    rewrite (@concat_brows_eq _ _ (rows d) bs (chunks b false (seq 0 (ds_size d)))).
    2:{ pose proof (chunks_sorted false Hb (seq_sorted 0 (ds_size d))) as S.
      clear -F S. induction F as [|? ? ? ? Hx F IH]; constructor; inversion S; subst; auto.
      apply Hx; auto. }
    rewrite C, <- map_app. unfold rest. rewrite firstn_skipn.
    rewrite <- map_nth_error_seq, (rows_length H). reflexivity.
  - rewrite (Forall2_len F). exact Len.
  - apply (f_equal (@length _)) in Hd. rewrite !map_length in Hd. rewrite Hd.
    unfold rest. rewrite skipn_length, L.
    pose proof (Nat.div_mod (ds_size d) b ltac:(lia)).
    pose proof (Nat.mod_upper_bound (ds_size d) b ltac:(lia)). lia.
Qed.
