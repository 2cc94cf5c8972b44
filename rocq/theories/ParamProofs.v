(** ParamProofs.v: lemmas for C12, C13, C14. *)
From Coq Require Import String Ascii List Arith ZArith Reals Lra Lia Bool Sorted.
From Verif Require Import DataModel ParamModel.
Import ListNotations.
Local Open Scope R_scope.

(** Specification vocabulary: a Param seen as a table with one line per parameter. *)
Record entry := mkEntry { e_value : R; e_path : path; e_norm : normalization;
                          e_name : string; e_bound : bound }.
Fixpoint zip5 (v : list R) (ps : list path) (ns : list normalization) (nm : list string)
    (bs : list bound) : list entry :=
  match v, ps, ns, nm, bs with
  | a :: v', b :: ps', c :: ns', d :: nm', e :: bs' => mkEntry a b c d e :: zip5 v' ps' ns' nm' bs'
  | _, _, _, _, _ => []
  end.
Definition entries (p : param) : list entry :=
  zip5 (values p) (paths p) (normalizations p) (names p) (bounds p).
Definition positive_where_log (nv : list R) (ns : list normalization) : Prop :=
  Forall2 (fun v n => n = NONE \/ 0 < v) nv ns.
Definition prefix_of (q p : path) : Prop := exists s, p = q ++ s.

Lemma consistent_iff p : consistent p = true <->
  length (paths p) = length (values p) /\ length (normalizations p) = length (values p) /\
  length (names p) = length (values p) /\ length (bounds p) = length (values p).
Proof.
unfold consistent. rewrite !andb_true_iff, !Nat.eqb_eq. split; intros H; decompose [and] H; repeat split; congruence.
Qed.

Lemma denorm_norm v n : n = NONE \/ 0 < v -> denormalize (normalize v n) n = v.
Proof.
intros [->|H]; [reflexivity|]. destruct n; simpl; auto.
- now apply exp_ln.
- rewrite Ropp_involutive. now apply exp_ln.
Qed.
Lemma norm_denorm v n : normalize (denormalize v n) n = v.
Proof. destruct n; simpl; auto; rewrite ln_exp; lra. Qed.

Lemma zip_with_length A B C (f : A -> B -> C) l k : length l = length k -> length (zip_with f l k) = length l.
Proof. revert k; induction l; intros [|b k]; simpl; intros; try discriminate; auto. Qed.

Lemma set_denorm p nv : consistent p = true -> length nv = length (values p) ->
  positive_where_log nv (normalizations p) ->
  let (p', ok) := set_denormalized_values p nv in
  ok = true /\ denormalized_values p' = nv /\ consistent p' = true /\
  paths p' = paths p /\ normalizations p' = normalizations p /\ names p' = names p /\ bounds p' = bounds p.
Proof.
intros Hc Hl Hp. unfold set_denormalized_values. rewrite Hl, Nat.eqb_refl.
apply consistent_iff in Hc as (H1 & H2 & H3 & H4).
repeat split; auto.
- unfold denormalized_values; simpl. clear -Hp. induction Hp; simpl; auto. rewrite denorm_norm, IHHp; auto.
- apply consistent_iff; simpl. rewrite zip_with_length by congruence. intuition congruence.
Qed.
Lemma set_denorm_mismatch p nv : length nv <> length (values p) -> set_denormalized_values p nv = (p, false).
Proof. intros H. unfold set_denormalized_values. apply Nat.eqb_neq in H. rewrite H. reflexivity. Qed.
Lemma set_denorm_id p : consistent p = true -> set_denormalized_values p (denormalized_values p) = (p, true).
Proof.
intros Hc. apply consistent_iff in Hc as (H1 & H2 & H3 & H4). unfold set_denormalized_values, denormalized_values.
rewrite zip_with_length by congruence. rewrite Nat.eqb_refl. destruct p as [v ps ns nm bs]; unfold with_values; simpl in *.
do 2 f_equal. clear -H2. revert ns H2; induction v; intros [|n ns]; simpl; intros; try discriminate; auto.
rewrite norm_denorm, IHv; auto.
Qed.

(** ** Paths *)
Lemma path_eqb_eq a b : path_eqb a b = true <-> a = b.
Proof.
revert b; induction a as [|x a IH]; intros [|y b]; simpl; split; intros; try discriminate; auto.
- apply andb_true_iff in H as [H1 H2]. apply String.eqb_eq in H1. apply IH in H2. congruence.
- injection H as -> ->. rewrite String.eqb_refl. now apply IH.
Qed.
Lemma path_match_exact q p : path_match q false p = true <-> p = q.
Proof. apply path_eqb_eq. Qed.
Lemma path_match_prefix q p : path_match q true p = true <-> prefix_of q p.
Proof.
unfold path_match, prefix_of. rewrite path_eqb_eq. split.
- intros H. exists (skipn (length q) p). rewrite <- H at 1. symmetry; apply firstn_skipn.
- intros [s ->]. rewrite firstn_app, firstn_all, Nat.sub_diag. apply app_nil_r.
Qed.

Lemma enum_filter_in A (f : A -> bool) l i k :
  In k (enum_filter f i l) <-> exists j a, k = (i + j)%nat /\ nth_error l j = Some a /\ f a = true.
Proof.
revert i; induction l as [|x l IH]; intros i; simpl.
- split; [tauto|]. intros (j & a & _ & H & _). destruct j; discriminate.
- destruct (f x) eqn:E; simpl; rewrite ?IH; split.
  + intros [<-|(j & a & -> & H1 & H2)].
    * exists 0%nat, x. repeat split; auto.
    * exists (S j), a. repeat split; auto; lia.
  + intros ([|j] & a & -> & H1 & H2); [left; lia|right]. exists j, a. repeat split; auto; lia.
  + intros (j & a & -> & H1 & H2). exists (S j), a. repeat split; auto; lia.
  + intros ([|j] & a & -> & H1 & H2).
    * simpl in H1. congruence.
    * exists j, a. repeat split; auto; lia.
Qed.
Lemma enum_filter_lb A (f : A -> bool) l i k : In k (enum_filter f i l) -> (i <= k)%nat.
Proof. intros (j & a & -> & _)%enum_filter_in. lia. Qed.
Lemma enum_filter_sorted A (f : A -> bool) l i : StronglySorted lt (enum_filter f i l).
Proof.
revert i; induction l as [|x l IH]; intros i; simpl; [constructor|].
destruct (f x); [|apply IH]. constructor; [apply IH|].
apply Forall_forall. intros k Hk. apply enum_filter_lb in Hk. lia.
Qed.
Lemma sorted_nodup l : StronglySorted lt l -> NoDup l.
Proof.
induction 1; constructor; auto. rewrite Forall_forall in H0. intros Hin. apply H0 in Hin. lia.
Qed.
Lemma path_indices_in p q pm i : In i (path_indices p q pm) <->
  exists pth, nth_error (paths p) i = Some pth /\ path_match q pm pth = true.
Proof.
unfold path_indices. rewrite enum_filter_in. split.
- intros (j & a & -> & H); eauto.
- intros (a & H); exists i, a; split; auto; lia.
Qed.
Lemma path_indices_lt p q pm i : consistent p = true -> In i (path_indices p q pm) -> (i < length (values p))%nat.
Proof.
intros (H1 & _)%consistent_iff (a & H & _)%path_indices_in. rewrite <- H1. apply nth_error_Some. congruence.
Qed.

Lemma take_some A (l : list A) idx : (forall i, In i idx -> (i < length l)%nat) ->
  exists t, take l idx = Some t /\ length t = length idx /\
    forall k i, nth_error idx k = Some i -> nth_error t k = nth_error l i.
Proof.
induction idx as [|i r IH]; intros H; simpl.
- exists []. repeat split; auto. intros [|k]; discriminate.
- destruct IH as (t & E & Hl & Hn); [intros; apply H; now right|].
  assert (Hi : (i < length l)%nat) by (apply H; now left).
  destruct (nth_error l i) as [a|] eqn:Ea; [|apply nth_error_None in Ea; lia].
  rewrite E. exists (a :: t). repeat split; simpl; auto.
  intros [|k] j; simpl; auto. intros [= <-]. auto.
Qed.

Lemma upd_length A (l : list A) i v : length (upd l i v) = length l.
Proof. revert i; induction l; intros [|i]; simpl; auto. Qed.
Lemma upd_same A (l : list A) i v : (i < length l)%nat -> nth_error (upd l i v) i = Some v.
Proof. revert i; induction l; intros [|i]; simpl; intros; try lia; auto. apply IHl. lia. Qed.
Lemma upd_other A (l : list A) i j v : i <> j -> nth_error (upd l i v) j = nth_error l j.
Proof. revert i j; induction l; intros [|i] [|j]; simpl; intros; auto; try congruence. Qed.

Lemma fold_upd_length A (l : list (nat * A)) v :
  length (fold_left (fun v iv => upd v (fst iv) (snd iv)) l v) = length v.
Proof. revert v; induction l; intros; simpl; auto. rewrite IHl. apply upd_length. Qed.
Lemma fold_upd_other A idx (nv : list A) v k : ~ In k idx ->
  nth_error (fold_left (fun v iv => upd v (fst iv) (snd iv)) (combine idx nv) v) k = nth_error v k.
Proof.
revert nv v; induction idx as [|i r IH]; intros [|a nv] v H; simpl; auto.
rewrite IH by (intros Hk; apply H; now right). apply upd_other. intros ->. apply H. now left.
Qed.
Lemma fold_upd_take A idx (nv : list A) v : NoDup idx -> length idx = length nv ->
  (forall i, In i idx -> (i < length v)%nat) ->
  take (fold_left (fun v iv => upd v (fst iv) (snd iv)) (combine idx nv) v) idx = Some nv.
Proof.
revert nv v; induction idx as [|i r IH]; intros [|a nv] v Hnd Hl Hb; simpl in *; try discriminate; auto.
inversion Hnd; subst. rewrite fold_upd_other, upd_same by auto.
rewrite IH; auto. intros k Hk. rewrite upd_length. auto.
Qed.

Lemma set_by_path_ok p q nv pm : consistent p = true -> length (path_indices p q pm) = length nv ->
  let (p', ok) := set_by_path p q nv pm in
  ok = true /\ get_by_path p' q pm = Some nv /\ consistent p' = true /\
  (forall i pth, nth_error (paths p) i = Some pth -> path_match q pm pth = false ->
     nth_error (values p') i = nth_error (values p) i) /\
  paths p' = paths p /\ normalizations p' = normalizations p /\ names p' = names p /\ bounds p' = bounds p.
Proof.
intros Hc Hl. unfold set_by_path. rewrite Hl, Nat.eqb_refl.
repeat split; auto.
- unfold get_by_path. change (path_indices _ q pm) with (path_indices p q pm). simpl.
  apply fold_upd_take; auto.
  + apply sorted_nodup, enum_filter_sorted.
  + intros i. now apply path_indices_lt.
- apply consistent_iff in Hc as (H1 & H2 & H3 & H4). apply consistent_iff; simpl. rewrite fold_upd_length. auto.
- intros i pth H1 H2. simpl. apply fold_upd_other. rewrite path_indices_in. intros (a & Ha & Hb). congruence.
Qed.
Lemma set_by_path_bad p q nv pm : length (path_indices p q pm) <> length nv -> set_by_path p q nv pm = (p, false).
Proof. intros H. unfold set_by_path. apply Nat.eqb_neq in H. rewrite H. reflexivity. Qed.

(** reading a path: the values of the entries whose path matches, in order *)
Lemma get_by_path_spec p q pm : consistent p = true ->
  get_by_path p q pm = Some (map e_value (filter (fun e => path_match q pm (e_path e)) (entries p))).
Proof.
intros Hc. unfold get_by_path, path_indices, entries. apply consistent_iff in Hc as (H1 & H2 & H3 & H4).
destruct p as [v ps ns nm bs]; simpl in *.
assert (G : forall v ps ns nm bs pre, length ps = length v -> length ns = length v -> length nm = length v ->
  length bs = length v ->
  take (pre ++ v) (enum_filter (path_match q pm) (length pre) ps) =
  Some (map e_value (filter (fun e => path_match q pm (e_path e)) (zip5 v ps ns nm bs)))).
{ clear. induction v as [|a v IH]; intros [|b ps] [|c ns] [|d nm] [|e bs] pre; simpl; intros; try discriminate; auto.
  assert (E : take (pre ++ a :: v) (enum_filter (path_match q pm) (S (length pre)) ps) =
    Some (map e_value (filter (fun e => path_match q pm (e_path e)) (zip5 v ps ns nm bs)))).
  { rewrite <- (IH ps ns nm bs (pre ++ [a])) by lia. rewrite <- app_assoc, app_length, Nat.add_1_r. reflexivity. }
  destruct (path_match q pm b) eqn:Em; simpl; rewrite E; auto.
  rewrite nth_error_app2, Nat.sub_diag by lia. reflexivity. }
apply (G v ps ns nm bs []); auto.
Qed.

(** ** Names *)
Lemma index_of_spec name l : match index_of name l with
  | Some i => nth_error l i = Some name /\ forall j, (j < i)%nat -> nth_error l j <> Some name
  | None => ~ In name l end.
Proof.
induction l as [|a l IH]; simpl; [auto|].
destruct (String.eqb_spec a name) as [->|Hn].
- split; auto. intros; lia.
- destruct (index_of name l) as [i|].
  + destruct IH as [H1 H2]. split; auto. intros [|j] Hj; simpl; [congruence|]. apply H2. lia.
  + intros [H|H]; auto.
Qed.
Lemma index_of_lt name p i : consistent p = true -> index_of name (names p) = Some i -> (i < length (values p))%nat.
Proof.
intros (_ & _ & H3 & _)%consistent_iff E. assert (S := index_of_spec name (names p)). rewrite E in S.
destruct S as [S _]. rewrite <- H3. apply nth_error_Some. congruence.
Qed.
Lemma index_of_neq n1 n2 l i j : n1 <> n2 -> index_of n1 l = Some i -> index_of n2 l = Some j -> i <> j.
Proof.
intros Hn E1 E2 ->. assert (S1 := index_of_spec n1 l). assert (S2 := index_of_spec n2 l).
rewrite E1 in S1; rewrite E2 in S2. destruct S1 as [S1 _]; destruct S2 as [S2 _]. congruence.
Qed.
Lemma set_by_name_spec p name v : consistent p = true ->
  (In name (names p) -> exists p' i, set_by_name p name v = (p', true) /\ consistent p' = true /\
     nth_error (names p) i = Some name /\ (forall j, (j < i)%nat -> nth_error (names p) j <> Some name) /\
     nth_error (values p') i = Some v /\ get_by_name p' name = Some v /\
     (forall k, k <> i -> nth_error (values p') k = nth_error (values p) k) /\
     (forall other, other <> name -> get_by_name p' other = get_by_name p other)) /\
  (~ In name (names p) -> set_by_name p name v = (p, false)).
Proof.
intros Hc. assert (S := index_of_spec name (names p)). unfold set_by_name.
destruct (index_of name (names p)) as [i|] eqn:E; split; intros Hin; try contradiction; auto.
- destruct S as [S1 S2]. assert (Hi := index_of_lt _ _ _ Hc E).
  eexists; exists i; split; [reflexivity|]. repeat split; auto.
  + apply consistent_iff in Hc as (H1 & H2 & H3 & H4). apply consistent_iff; simpl. rewrite upd_length. auto.
  + simpl. now apply upd_same.
  + unfold get_by_name; simpl. rewrite E. now apply upd_same.
  + intros k Hk. simpl. apply upd_other. auto.
  + intros other Ho. unfold get_by_name; simpl. destruct (index_of other (names p)) as [j|] eqn:Ej; auto.
    apply upd_other. eapply index_of_neq; [|exact E|exact Ej]. auto.
- destruct S as [S1 _]. exfalso. apply Hin. eapply nth_error_In; eauto.
Qed.

(** value and scale of the parameter called name *)
Definition denorm_by_name (p : param) (name : string) : option R :=
  match index_of name (names p) with
  | Some i => match nth_error (values p) i, nth_error (normalizations p) i with
              | Some v, Some n => Some (denormalize v n) | _, _ => None end
  | None => None
  end.
Definition norm_by_name (p : param) (name : string) : option normalization :=
  match index_of name (names p) with Some i => nth_error (normalizations p) i | None => None end.

Lemma sfu_fields p kw : let (p', ok) := set_from_unnormalized p kw in
  paths p' = paths p /\ normalizations p' = normalizations p /\ names p' = names p /\ bounds p' = bounds p /\
  length (values p') = length (values p).
Proof.
revert p; induction kw as [|[n v] r IH]; intros p; simpl; auto.
destruct (index_of n (names p)) as [i|]; auto.
destruct (nth_error (normalizations p) i) as [nn|]; auto.
specialize (IH (with_values p (upd (values p) i (normalize v nn)))).
destruct set_from_unnormalized as [p' ok]. simpl in IH. rewrite upd_length in IH. exact IH.
Qed.
Lemma sfu_other p kw name : ~ In name (map fst kw) ->
  denorm_by_name (fst (set_from_unnormalized p kw)) name = denorm_by_name p name /\
  get_by_name (fst (set_from_unnormalized p kw)) name = get_by_name p name.
Proof.
revert p; induction kw as [|[n v] r IH]; intros p H; simpl; auto.
destruct (index_of n (names p)) as [i|] eqn:E; auto.
destruct (nth_error (normalizations p) i) as [nn|] eqn:En; auto.
destruct (IH (with_values p (upd (values p) i (normalize v nn)))) as [-> ->].
{ intros Hin; apply H; now right. }
assert (Hne : n <> name) by (intros ->; apply H; now left).
unfold denorm_by_name, get_by_name; simpl. destruct (index_of name (names p)) as [j|] eqn:Ej; auto.
rewrite upd_other; auto. eapply index_of_neq; eauto.
Qed.
Lemma sfu_ok p kw : consistent p = true -> NoDup (map fst kw) ->
  (forall n v, In (n, v) kw -> In n (names p) /\ (norm_by_name p n = Some NONE \/ 0 < v)) ->
  exists p', set_from_unnormalized p kw = (p', true) /\ consistent p' = true /\
    (forall n v, In (n, v) kw -> denorm_by_name p' n = Some v) /\
    (forall n, ~ In n (map fst kw) -> denorm_by_name p' n = denorm_by_name p n).
Proof.
revert p; induction kw as [|[n v] r IH]; intros p Hc Hnd Hk.
- exists p; simpl. repeat split; auto; intros; contradiction.
- simpl in Hnd; inversion Hnd as [|? ? Hn1 Hn2]; subst. assert (Hc' := Hc).
  apply consistent_iff in Hc' as (H1 & H2 & H3 & H4).
  destruct (Hk n v) as [Hin Hpos]; [now left|]. simpl.
  assert (S := index_of_spec n (names p)). destruct (index_of n (names p)) as [i|] eqn:E; [|contradiction].
  assert (Hi := index_of_lt _ _ _ Hc E).
  destruct (nth_error (normalizations p) i) as [nn|] eqn:En; [|apply nth_error_None in En; lia].
  set (p1 := with_values p (upd (values p) i (normalize v nn))).
  assert (Hc1 : consistent p1 = true) by (apply consistent_iff; simpl; rewrite upd_length; auto).
  destruct (IH p1) as (p' & E' & Hc'' & Hset & Hoth); auto.
  { intros n' v' Hin'. apply (Hk n' v'). now right. }
  exists p'. split; [exact E'|]. split; [exact Hc''|]. split.
  + intros n' v' [[= <- <-]|Hin'].
    * rewrite Hoth by auto. unfold denorm_by_name; simpl. rewrite E, upd_same, En by auto.
      f_equal. apply denorm_norm. unfold norm_by_name in Hpos. rewrite E, En in Hpos.
      destruct Hpos as [[= ->]|]; auto.
    * now apply Hset.
  + intros n' Hn'. rewrite Hoth by (intros X; apply Hn'; now right).
    unfold denorm_by_name; simpl. destruct (index_of n' (names p)) as [j|] eqn:Ej; auto.
    rewrite upd_other; auto. eapply index_of_neq; [|exact E|exact Ej]. intros ->. apply Hn'. now left.
Qed.
Lemma sfu_app p kw1 kw2 p1 : set_from_unnormalized p kw1 = (p1, true) ->
  set_from_unnormalized p (kw1 ++ kw2) = set_from_unnormalized p1 kw2.
Proof.
revert p; induction kw1 as [|[n v] r IH]; intros p; simpl; [intros [= ->]; auto|].
destruct (index_of n (names p)) as [i|]; [|discriminate].
destruct (nth_error (normalizations p) i) as [nn|]; [|discriminate]. apply IH.
Qed.
Lemma sfu_fail p kw1 kw2 p1 bad v : set_from_unnormalized p kw1 = (p1, true) -> ~ In bad (names p) ->
  set_from_unnormalized p (kw1 ++ (bad, v) :: kw2) = (p1, false).
Proof.
intros H Hb. rewrite (sfu_app _ _ _ _ H). assert (F := sfu_fields p kw1). rewrite H in F.
destruct F as (_ & _ & Hn & _). simpl. rewrite Hn. assert (S := index_of_spec bad (names p)).
destruct (index_of bad (names p)) as [i|]; auto. destruct S as [S _]. apply nth_error_In in S. contradiction.
Qed.

(** ** Concatenation and indexing *)
Lemma zip5_app v ps ns nm bs v' ps' ns' nm' bs' :
  length ps = length v -> length ns = length v -> length nm = length v -> length bs = length v ->
  zip5 (v ++ v') (ps ++ ps') (ns ++ ns') (nm ++ nm') (bs ++ bs') =
  zip5 v ps ns nm bs ++ zip5 v' ps' ns' nm' bs'.
Proof.
revert ps ns nm bs; induction v; intros [|b ps] [|c ns] [|d nm] [|e bs]; simpl; intros; try discriminate; auto.
f_equal. apply IHv; lia.
Qed.
Lemma entries_length p : consistent p = true -> length (entries p) = length (values p).
Proof.
intros (H1 & H2 & H3 & H4)%consistent_iff. destruct p as [v ps ns nm bs]; unfold entries; simpl in *.
revert ps ns nm bs H1 H2 H3 H4; induction v; intros [|b ps] [|c ns] [|d nm] [|e bs]; simpl; intros; try discriminate; auto.
Qed.
Lemma concat_fields (ps : list param) : Forall (fun p => consistent p = true) ps ->
  length (concat (map paths ps)) = length (concat (map values ps)) /\
  length (concat (map normalizations ps)) = length (concat (map values ps)) /\
  length (concat (map names ps)) = length (concat (map values ps)) /\
  length (concat (map bounds ps)) = length (concat (map values ps)).
Proof.
induction 1 as [|p ps Hp _ IH]; simpl; auto. apply consistent_iff in Hp as (H1 & H2 & H3 & H4).
rewrite !app_length. destruct IH as (I1 & I2 & I3 & I4). repeat split; congruence.
Qed.
Lemma concat_ok ps : ps <> [] -> Forall (fun p => consistent p = true) ps ->
  exists p, param_concat ps = Some p /\ consistent p = true /\ entries p = flat_map entries ps.
Proof.
intros Hn Hf. unfold param_concat. destruct ps as [|p0 ps0] eqn:Eps; [congruence|]. rewrite <- Eps in *. clear Eps Hn.
destruct (concat_fields ps Hf) as (I1 & I2 & I3 & I4). unfold param_init.
assert (Hc : consistent (mkParam (concat (map values ps)) (concat (map paths ps)) (concat (map normalizations ps))
     (concat (map names ps)) (concat (map bounds ps))) = true) by (apply consistent_iff; simpl; auto).
rewrite Hc. eexists; split; [reflexivity|]. split; [exact Hc|].
unfold entries; simpl. clear -Hf. induction Hf as [|p ps Hp _ IH]; simpl; auto.
apply consistent_iff in Hp as (H1 & H2 & H3 & H4). rewrite zip5_app by auto. rewrite IH. reflexivity.
Qed.

Lemma zip5_nth v ps ns nm bs i : length ps = length v -> length ns = length v -> length nm = length v ->
  length bs = length v ->
  nth_error (zip5 v ps ns nm bs) i =
  match nth_error v i, nth_error ps i, nth_error ns i, nth_error nm i, nth_error bs i with
  | Some a, Some b, Some c, Some d, Some e => Some (mkEntry a b c d e) | _, _, _, _, _ => None end.
Proof.
revert ps ns nm bs i; induction v; intros [|b ps] [|c ns] [|d nm] [|e bs] [|i]; simpl; intros; try discriminate; auto.
Qed.

Lemma py_index_zip5 v ps ns nm bs z : length ps = length v -> length ns = length v -> length nm = length v ->
  length bs = length v ->
  match py_index (zip5 v ps ns nm bs) z with
  | Some e => py_index v z = Some (e_value e) /\ py_index ps z = Some (e_path e) /\
      py_index ns z = Some (e_norm e) /\ py_index nm z = Some (e_name e) /\ py_index bs z = Some (e_bound e)
  | None => py_index v z = None
  end.
Proof.
intros H1 H2 H3 H4.
assert (L : length (zip5 v ps ns nm bs) = length v).
{ revert ps ns nm bs H1 H2 H3 H4; induction v; intros [|b ps] [|c ns] [|d nm] [|e bs]; simpl; intros; try discriminate; auto. }
assert (G : forall i, match nth_error (zip5 v ps ns nm bs) i with
  | Some e => nth_error v i = Some (e_value e) /\ nth_error ps i = Some (e_path e) /\
      nth_error ns i = Some (e_norm e) /\ nth_error nm i = Some (e_name e) /\ nth_error bs i = Some (e_bound e)
  | None => nth_error v i = None end).
{ intros i. rewrite zip5_nth by auto.
  destruct (nth_error v i) eqn:E1; auto.
  assert (Hi : (i < length v)%nat) by (apply nth_error_Some; congruence).
  destruct (nth_error ps i) eqn:E2; [|apply nth_error_None in E2; lia].
  destruct (nth_error ns i) eqn:E3; [|apply nth_error_None in E3; lia].
  destruct (nth_error nm i) eqn:E4; [|apply nth_error_None in E4; lia].
  destruct (nth_error bs i) eqn:E5; [|apply nth_error_None in E5; lia].
  simpl; auto. }
unfold py_index. rewrite L, H1, H2, H3, H4. destruct (0 <=? z)%Z; [apply G|].
destruct (- Z.of_nat (length v) <=? z)%Z; [apply G|reflexivity].
Qed.
Lemma py_take_zip5 v ps ns nm bs idx : length ps = length v -> length ns = length v -> length nm = length v ->
  length bs = length v ->
  match py_take (zip5 v ps ns nm bs) idx with
  | Some es => py_take v idx = Some (map e_value es) /\ py_take ps idx = Some (map e_path es) /\
      py_take ns idx = Some (map e_norm es) /\ py_take nm idx = Some (map e_name es) /\
      py_take bs idx = Some (map e_bound es)
  | None => py_take v idx = None
  end.
Proof.
intros H1 H2 H3 H4. induction idx as [|z r IH]; simpl; auto.
assert (P := py_index_zip5 v ps ns nm bs z H1 H2 H3 H4).
destruct (py_index (zip5 v ps ns nm bs) z) as [e|].
- destruct P as (-> & -> & -> & -> & ->). destruct (py_take (zip5 v ps ns nm bs) r) as [es|].
  + destruct IH as (-> & -> & -> & -> & ->). simpl; auto.
  + rewrite IH. reflexivity.
- rewrite P. reflexivity.
Qed.
Lemma zip5_maps es : zip5 (map e_value es) (map e_path es) (map e_norm es) (map e_name es) (map e_bound es) = es.
Proof. induction es as [|[] es IH]; simpl; auto. rewrite IH; auto. Qed.

Lemma getitem_spec p idx : consistent p = true ->
  match py_take (entries p) idx with
  | Some es => exists p', param_getitem p idx = Some p' /\ consistent p' = true /\ entries p' = es
  | None => param_getitem p idx = None
  end.
Proof.
intros (H1 & H2 & H3 & H4)%consistent_iff. unfold entries, param_getitem.
assert (P := py_take_zip5 (values p) (paths p) (normalizations p) (names p) (bounds p) idx H1 H2 H3 H4).
destruct py_take as [es|].
- destruct P as (-> & -> & -> & -> & ->). unfold param_init.
  assert (C : consistent (mkParam (map e_value es) (map e_path es) (map e_norm es) (map e_name es) (map e_bound es)) = true).
  { apply consistent_iff; simpl. rewrite !map_length. auto. }
  rewrite C. eexists; split; [reflexivity|]. split; [exact C|]. simpl. apply zip5_maps.
- rewrite P. reflexivity.
Qed.

Lemma entries_inj p q : consistent p = true -> consistent q = true -> entries p = entries q -> p = q.
Proof.
assert (G : forall p, consistent p = true -> p = mkParam (map e_value (entries p)) (map e_path (entries p))
   (map e_norm (entries p)) (map e_name (entries p)) (map e_bound (entries p))).
{ clear. intros p (H1 & H2 & H3 & H4)%consistent_iff. destruct p as [v ps ns nm bs]; unfold entries; simpl in *.
  revert ps ns nm bs H1 H2 H3 H4; induction v; intros [|b ps] [|c ns] [|d nm] [|e bs]; simpl; intros; try discriminate; auto.
  assert (I := IHv ps ns nm bs ltac:(lia) ltac:(lia) ltac:(lia) ltac:(lia)). injection I as I1 I2 I3 I4 I5.
  congruence. }
intros Hp Hq E. rewrite (G p Hp), (G q Hq), E. reflexivity.
Qed.

Definition zseq (a n : nat) : list Z := map Z.of_nat (seq a n).
Lemma py_take_zseq A (pre l post : list A) : py_take (pre ++ l ++ post) (zseq (length pre) (length l)) = Some l.
Proof.
unfold zseq. revert pre; induction l as [|a l IH]; intros pre; simpl; auto.
assert (E : py_index (pre ++ a :: l ++ post) (Z.of_nat (length pre)) = Some a).
{ unfold py_index. destruct (Z.leb_spec 0 (Z.of_nat (length pre))); [|lia]. rewrite Nat2Z.id.
  rewrite nth_error_app2, Nat.sub_diag by lia. reflexivity. }
rewrite E. specialize (IH (pre ++ [a])). rewrite <- app_assoc, app_length, Nat.add_1_r in IH. simpl in IH.
rewrite IH. reflexivity.
Qed.

Lemma concat_slices p q pq : consistent p = true -> consistent q = true -> param_concat [p; q] = Some pq ->
  param_getitem pq (zseq 0 (length (values p))) = Some p /\
  param_getitem pq (zseq (length (values p)) (length (values q))) = Some q.
Proof.
intros Hp Hq E. destruct (concat_ok [p; q]) as (pq' & E' & Hc & He); [discriminate|auto|].
rewrite E in E'. injection E' as <-. simpl in He. rewrite app_nil_r in He.
split.
- assert (G := getitem_spec pq (zseq 0 (length (values p))) Hc). rewrite He in G.
  rewrite <- (entries_length p Hp) in G |- *.
  assert (T := py_take_zseq _ [] (entries p) (entries q)). simpl in T. rewrite T in G.
  destruct G as (p' & G1 & G2 & G3). rewrite G1. f_equal. now apply entries_inj.
- assert (G := getitem_spec pq (zseq (length (values p)) (length (values q))) Hc). rewrite He in G.
  rewrite <- (entries_length p Hp), <- (entries_length q Hq) in G |- *.
  assert (T := py_take_zseq _ (entries p) (entries q) []). rewrite app_nil_r in T. rewrite T in G.
  destruct G as (p' & G1 & G2 & G3). rewrite G1. f_equal. now apply entries_inj.
Qed.

Lemma filter_flat_map A B (f : B -> bool) (g : A -> list B) l :
  filter f (flat_map g l) = flat_map (fun a => filter f (g a)) l.
Proof. induction l; simpl; auto. rewrite filter_app, IHl. reflexivity. Qed.
Lemma concat_get ps p q pm : Forall (fun p => consistent p = true) ps -> param_concat ps = Some p ->
  exists parts, Forall2 (fun pi vi => get_by_path pi q pm = Some vi) ps parts /\
    get_by_path p q pm = Some (concat parts).
Proof.
intros Hf E. assert (Hn : ps <> []) by (intros ->; discriminate).
destruct (concat_ok ps Hn Hf) as (p' & E' & Hc & He). rewrite E in E'; injection E' as <-.
exists (map (fun pi => map e_value (filter (fun e => path_match q pm (e_path e)) (entries pi))) ps). split.
- clear -Hf. induction Hf; simpl; constructor; auto. now apply get_by_path_spec.
- rewrite get_by_path_spec, He by auto. rewrite filter_flat_map. f_equal.
  clear. induction ps; simpl; auto. rewrite map_app, IHps. reflexivity.
Qed.

(** view access *)
Lemma consecutive_seq l i : consecutive (i :: l) = true -> i :: l = seq i (S (length l)).
Proof.
revert i; induction l as [|b l IH]; intros i; simpl; auto.
intros [H1 H2]%andb_true_iff. apply Nat.eqb_eq in H1 as ->. f_equal. apply IH. exact H2.
Qed.
Lemma take_seq A (l : list A) i n : (i + n <= length l)%nat -> take l (seq i n) = Some (py_slice l i (i + n)).
Proof.
unfold py_slice. replace (i + n - i)%nat with n by lia.
revert i; induction n as [|n IH]; intros i H; simpl; [reflexivity|].
rewrite IH by lia. destruct (nth_error l i) as [a|] eqn:E; [|apply nth_error_None in E; lia].
f_equal. assert (S : skipn i l = a :: skipn (S i) l).
{ clear -E. revert i E; induction l; intros [|i]; simpl; intros; try discriminate; [congruence|]. now apply IHl. }
rewrite S. reflexivity.
Qed.
Lemma last_cons_seq i n : last (seq i (S n)) 0%nat = (i + n)%nat.
Proof. rewrite seq_S. apply last_last. Qed.
Lemma view_spec p q pm : consistent p = true ->
  get_by_path_view p q pm =
  match path_indices p q pm with
  | [] => None
  | idx => if consecutive idx then get_by_path p q pm else None
  end.
Proof.
intros Hc. unfold get_by_path_view, get_by_path. destruct (path_indices p q pm) as [|i l] eqn:E; [reflexivity|].
destruct (consecutive (i :: l)) eqn:Ec; auto. apply consecutive_seq in Ec.
assert (Hin : In (i + length l)%nat (path_indices p q pm)).
{ rewrite E, Ec. apply in_seq. lia. }
apply path_indices_lt in Hin; auto. rewrite Ec. rewrite last_cons_seq.
replace (i + length l + 1)%nat with (i + S (length l))%nat by lia. rewrite take_seq by lia. reflexivity.
Qed.

(** ** Bounds *)
Lemma zip_with_nth A B C (f : A -> B -> C) l k i : length l = length k ->
  nth_error (zip_with f l k) i =
  match nth_error l i, nth_error k i with Some a, Some b => Some (f a b) | _, _ => None end.
Proof. revert k i; induction l; intros [|b k] [|i]; simpl; intros; try discriminate; auto. Qed.
Lemma in_bound_iff v b : in_bound v b = true <-> match b with None => True | Some (lo, hi) => lo <= v <= hi end.
Proof.
destruct b as [[lo hi]|]; simpl; [|tauto]. destruct Rle_dec; [destruct Rle_dec|]; split; intros; try discriminate; auto; lra.
Qed.
Lemma check_bounds_spec p : consistent p = true ->
  check_bounds p = map (fun e => in_bound (denormalize (e_value e) (e_norm e)) (e_bound e)) (entries p).
Proof.
intros (H1 & H2 & H3 & H4)%consistent_iff. destruct p as [v ps ns nm bs]; unfold check_bounds, denormalized_values, entries; simpl in *.
revert ps ns nm bs H1 H2 H3 H4; induction v; intros [|b ps] [|c ns] [|d nm] [|e bs]; simpl; intros; try discriminate; auto.
f_equal. apply IHv; lia.
Qed.
Lemma zip_norms_repeat v d : length v = d -> zip_with denormalize v (repeat LOG_INV d) = map (fun x => exp (- x)) v.
Proof. intros <-. induction v; simpl; auto. rewrite IHv. reflexivity. Qed.
Lemma zip_bounds_repeat l d b : length l = d -> zip_with in_bound l (repeat b d) = map (fun x => in_bound x b) l.
Proof. intros <-. induction l; simpl; auto. rewrite IHl. reflexivity. Qed.
Lemma aniso_ok s rhos bs br prefix : exists p, make_anisotropic_param (s :: rhos) bs br prefix = Some p /\
  consistent p = true /\ values p = s :: rhos /\
  denormalized_values p = exp s :: map (fun r => exp (- r)) rhos /\
  check_bounds p = in_bound (exp s) bs :: map (fun r => in_bound (exp (- r)) br) rhos.
Proof.
unfold make_anisotropic_param, param_init. cbn [length]. rewrite Nat.sub_succ, Nat.sub_0_r.
match goal with |- context [if consistent ?P then _ else _] => assert (C : consistent P = true) end.
{ apply consistent_iff; simpl. rewrite !repeat_length, map_length, seq_length. auto. }
rewrite C. eexists; split; [reflexivity|]. split; [exact C|]. split; [reflexivity|].
unfold check_bounds, denormalized_values; simpl. rewrite zip_norms_repeat by reflexivity.
rewrite zip_bounds_repeat by apply map_length. rewrite map_map. auto.
Qed.
Lemma aniso_nil bs br prefix : make_anisotropic_param [] bs br prefix = None.
Proof. reflexivity. Qed.
Lemma log_bound_negative v lo hi : hi <= 0 -> in_bound (exp v) (Some (lo, hi)) = false.
Proof.
intros H. simpl. assert (P := exp_pos v). destruct Rle_dec; auto. destruct Rle_dec; auto. lra.
Qed.
