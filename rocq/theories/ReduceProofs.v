(** ReduceProofs.v: lemmas for C08, C09, C11. *)
From Coq Require Import List Arith Reals Lra Lia Bool Permutation.
From Verif Require Import DataModel DataProofs DataProofs2 ReduceModel.
Import ListNotations.
Local Open Scope R_scope.

(** Specification vocabulary. *)
Fixpoint Rsum (l : list R) : R := match l with [] => 0 | a :: r => a + Rsum r end.
Definition col (j : nat) (l : list row) : list R := map (fun r => r j) l.
Definition least (m : R) (l : list R) : Prop := In m l /\ forall x, In x l -> m <= x.
Definition greatest (m : R) (l : list R) : Prop := In m l /\ forall x, In x l -> x <= m.
Definition mean (l : list R) : R := Rsum l / INR (length l).
Definition sq_dev (l : list R) : R := Rsum (map (fun x => (x - mean l) * (x - mean l)) l).

Lemma Rsum_app l k : Rsum (l ++ k) = Rsum l + Rsum k.
Proof. induction l; simpl; lra. Qed.
Lemma Rsum_perm l k : Permutation l k -> Rsum l = Rsum k.
Proof. induction 1; simpl; lra. Qed.
Lemma fold_Rplus l a : fold_left Rplus l a = a + Rsum l.
Proof. revert a; induction l; intros; simpl; [lra|]. rewrite IHl; lra. Qed.
Lemma Rsum_scal c l : Rsum (map (fun x => c * x) l) = c * Rsum l.
Proof. induction l; simpl; [lra|]. rewrite IHl; lra. Qed.

Lemma np_sum_col data j : np_sum data j = Rsum (col j data).
Proof.
unfold np_sum. assert (H : forall a, fold_left radd data a j = a j + Rsum (col j data)).
{ induction data as [|r t IH]; intros a; simpl; [lra|]. rewrite IH. unfold radd. lra. }
rewrite H. unfold rzero. lra.
Qed.

Lemma fold_rmin_least t r j : least (fold_left rmin t r j) (col j (r :: t)).
Proof.
revert r; induction t as [|a t IH]; intros r; simpl.
- split; [now left|]. intros x [<-|[]]; lra.
- destruct (IH (rmin r a)) as [Hin Hle]. split.
  + destruct Hin as [H|H]; [|now right; right].
    rewrite <- H. unfold rmin, Rmin; destruct Rle_dec; [now left|now right; left].
  + intros x [<-|[<-|H]].
    * eapply Rle_trans; [apply Hle; now left|]. apply Rmin_l.
    * eapply Rle_trans; [apply Hle; now left|]. apply Rmin_r.
    * apply Hle. now right.
Qed.
Lemma fold_rmax_greatest t r j : greatest (fold_left rmax t r j) (col j (r :: t)).
Proof.
revert r; induction t as [|a t IH]; intros r; simpl.
- split; [now left|]. intros x [<-|[]]; lra.
- destruct (IH (rmax r a)) as [Hin Hle]. split.
  + destruct Hin as [H|H]; [|now right; right].
    rewrite <- H. unfold rmax, Rmax; destruct Rle_dec; [now right; left|now left].
  + intros x [<-|[<-|H]].
    * eapply Rle_trans; [|apply Hle; now left]. apply Rmax_l.
    * eapply Rle_trans; [|apply Hle; now left]. apply Rmax_r.
    * apply Hle. now right.
Qed.

Lemma least_app a b l k : least a l -> least b k -> least (Rmin a b) (l ++ k).
Proof.
intros [i1 h1] [i2 h2]; split.
- apply in_or_app. unfold Rmin; destruct Rle_dec; [now left|now right].
- intros x [H|H]%in_app_or.
  + eapply Rle_trans; [apply Rmin_l|auto].
  + eapply Rle_trans; [apply Rmin_r|auto].
Qed.
Lemma greatest_app a b l k : greatest a l -> greatest b k -> greatest (Rmax a b) (l ++ k).
Proof.
intros [i1 h1] [i2 h2]; split.
- apply in_or_app. unfold Rmax; destruct Rle_dec; [now right|now left].
- intros x [H|H]%in_app_or.
  + eapply Rle_trans; [|apply Rmax_l]; auto.
  + eapply Rle_trans; [|apply Rmax_r]; auto.
Qed.
Lemma col_app j l k : col j (l ++ k) = col j l ++ col j k.
Proof. apply map_app. Qed.

Lemma reduce_min_loop_some lst m done : (forall j, least (m j) (col j done)) ->
  Forall (fun d => d <> []) lst ->
  exists m', reduce_min_loop (Some m) lst = Arr m' /\ forall j, least (m' j) (col j (done ++ concat lst)).
Proof.
revert m done; induction lst as [|d r IH]; intros m done Hm Hf; simpl.
- exists m. rewrite app_nil_r. auto.
- inversion Hf as [|? ? Hd Hr]; subst. destruct d as [|x d]; [congruence|]. simpl.
  destruct (IH (rmin m (fold_left rmin d x)) (done ++ (x :: d))) as (m' & E & Hm'); auto.
  + intros j. rewrite col_app. unfold rmin at 1. apply least_app; auto. apply fold_rmin_least.
  + exists m'. split; [exact E|]. rewrite <- app_assoc in Hm'. exact Hm'.
Qed.
Lemma reduce_min_ok lst : lst <> [] -> Forall (fun d => d <> []) lst ->
  exists m, reduce_min lst = Arr m /\ forall j, least (m j) (col j (concat lst)).
Proof.
intros Hn Hf; destruct lst as [|d r]; [congruence|]. inversion Hf as [|? ? Hd Hr]; subst.
destruct d as [|x d]; [congruence|]. unfold reduce_min; simpl.
destruct (reduce_min_loop_some r (fold_left rmin d x) (x :: d)) as (m & E & Hm); auto.
{ intros j; apply fold_rmin_least. }
exists m; split; auto.
Qed.
Lemma reduce_max_loop_some lst m done : (forall j, greatest (m j) (col j done)) ->
  Forall (fun d => d <> []) lst ->
  exists m', reduce_max_loop (Some m) lst = Arr m' /\ forall j, greatest (m' j) (col j (done ++ concat lst)).
Proof.
revert m done; induction lst as [|d r IH]; intros m done Hm Hf; simpl.
- exists m. rewrite app_nil_r. auto.
- inversion Hf as [|? ? Hd Hr]; subst. destruct d as [|x d]; [congruence|]. simpl.
  destruct (IH (rmax m (fold_left rmax d x)) (done ++ (x :: d))) as (m' & E & Hm'); auto.
  + intros j. rewrite col_app. unfold rmax at 1. apply greatest_app; auto. apply fold_rmax_greatest.
  + exists m'. split; [exact E|]. rewrite <- app_assoc in Hm'. exact Hm'.
Qed.
Lemma reduce_max_ok lst : lst <> [] -> Forall (fun d => d <> []) lst ->
  exists m, reduce_max lst = Arr m /\ forall j, greatest (m j) (col j (concat lst)).
Proof.
intros Hn Hf; destruct lst as [|d r]; [congruence|]. inversion Hf as [|? ? Hd Hr]; subst.
destruct d as [|x d]; [congruence|]. unfold reduce_max; simpl.
destruct (reduce_max_loop_some r (fold_left rmax d x) (x :: d)) as (m & E & Hm); auto.
{ intros j; apply fold_rmax_greatest. }
exists m; split; auto.
Qed.

Lemma loop_empty_min lst acc : In [] lst -> reduce_min_loop acc lst = Raise.
Proof.
revert acc; induction lst as [|d r IH]; intros acc; simpl; [tauto|].
intros [->|H]; [reflexivity|]. destruct (np_min d); auto.
Qed.
Lemma loop_empty_max lst acc : In [] lst -> reduce_max_loop acc lst = Raise.
Proof.
revert acc; induction lst as [|d r IH]; intros acc; simpl; [tauto|].
intros [->|H]; [reflexivity|]. destruct (np_max d); auto.
Qed.
Lemma all_nonempty (lst : list (list row)) : ~ In [] lst -> Forall (fun d => d <> []) lst.
Proof. intros H; apply Forall_forall; intros d Hd ->; auto. Qed.
Lemma extrema_raise lst :
  (reduce_min lst = Raise <-> lst = [] \/ In [] lst) /\
  (reduce_max lst = Raise <-> lst = [] \/ In [] lst).
Proof.
assert (D : In [] lst \/ ~ In [] lst).
{ induction lst as [|d r [IH|IH]]; [right; simpl; tauto|left; now right|].
  destruct d; [left; now left|right; intros [H|H]; [discriminate|auto]]. }
split; (split; [|intros [->|H]; [reflexivity|]]).
- intros E. destruct D as [D|D]; [now right|]. destruct lst as [|d r]; [now left|].
  destruct (reduce_min_ok (d :: r)) as (m & E' & _); [congruence|now apply all_nonempty|].
  congruence.
- now apply loop_empty_min.
- intros E. destruct D as [D|D]; [now right|]. destruct lst as [|d r]; [now left|].
  destruct (reduce_max_ok (d :: r)) as (m & E' & _); [congruence|now apply all_nonempty|].
  congruence.
- now apply loop_empty_max.
Qed.

Lemma sum_loop_spec f lst t n :
  exists t' n', sum_loop f (Some t) n lst = (Some t', n') /\
   n' = (n + length (concat lst))%nat /\
   forall j, t' j = t j + Rsum (col j (concat (map f lst))).
Proof.
revert t n; induction lst as [|d r IH]; intros t n; simpl.
- exists t, n. repeat split; [lia|intros; lra].
- destruct (IH (radd t (np_sum (f d))) (n + length d)%nat) as (t' & n' & E & En & Et).
  exists t', n'. split; [exact E|]. split; [rewrite app_length; lia|].
  intros j. rewrite Et, col_app, Rsum_app. unfold radd. rewrite np_sum_col. lra.
Qed.
Lemma sum_loop_none f lst : lst <> [] ->
  exists t', sum_loop f None 0 lst = (Some t', length (concat lst)) /\
   forall j, t' j = Rsum (col j (concat (map f lst))).
Proof.
destruct lst as [|d r]; [congruence|]. intros _. simpl.
destruct (sum_loop_spec f r (np_sum (f d)) (length d)) as (t' & n' & E & En & Et).
exists t'. rewrite E, En, app_length. split; [reflexivity|].
intros j; rewrite Et, col_app, Rsum_app, np_sum_col. reflexivity.
Qed.

Lemma reduce_mean_ok lst : concat lst <> [] ->
  exists m, reduce_mean lst = Arr m /\ forall j, m j = mean (col j (concat lst)).
Proof.
intros H. assert (Hl : lst <> []) by (intros ->; auto).
destruct (sum_loop_none (fun d => d) lst Hl) as (t & E & Et).
unfold reduce_mean; rewrite E. rewrite map_id in Et.
destruct (length (concat lst)) as [|n] eqn:L; [apply length_zero_iff_nil in L; contradiction|].
eexists; split; [reflexivity|]. intros j. cbv beta. rewrite Et. unfold mean.
replace (length (col j (concat lst))) with (S n) by (unfold col; rewrite map_length; auto). reflexivity.
Qed.

Lemma concat_map_map (g : row -> row) lst : concat (map (map g) lst) = map g (concat lst).
Proof. symmetry; apply concat_map. Qed.

Lemma reduce_var_ok lst : (2 <= length (concat lst))%nat ->
  exists v, reduce_var lst = Arr v /\
   forall j, v j = sq_dev (col j (concat lst)) / (INR (length (concat lst)) - 1).
Proof.
intros H. assert (Hc : concat lst <> []) by (intros E; rewrite E in H; simpl in H; lia).
assert (Hl : lst <> []) by (intros ->; auto).
destruct (reduce_mean_ok lst Hc) as (m & Em & Hm).
destruct (sum_loop_none (map (fun x => rsq (rsub x m))) lst Hl) as (t & E & Et).
unfold reduce_var; rewrite Em, E.
destruct (Nat.eqb_spec (length (concat lst)) 1); [lia|].
eexists; split; [reflexivity|]. intros j; cbv beta. rewrite Et. f_equal.
rewrite concat_map_map. unfold sq_dev. f_equal. unfold col. rewrite !map_map.
apply map_ext. intros r. unfold rsq, rsub. rewrite Hm. reflexivity.
Qed.
Lemma reduce_var_one lst : length (concat lst) = 1%nat -> reduce_var lst = NanArr.
Proof.
intros H. assert (Hc : concat lst <> []) by (intros E; rewrite E in H; simpl in H; lia).
assert (Hl : lst <> []) by (intros ->; auto).
destruct (reduce_mean_ok lst Hc) as (m & Em & Hm).
destruct (sum_loop_none (map (fun x => rsq (rsub x m))) lst Hl) as (t & E & Et).
unfold reduce_var; rewrite Em, E, H. reflexivity.
Qed.

(** ** reduce_mean of a loader *)
Lemma rm_loop_some X Z (func : list X * list Z -> R) bs t w :
  rm_loop X Z func (Some t) w (map Some bs) =
  Some ((t + Rsum (map (fun b => func b * INR (length (fst b))) bs))
        / INR (w + length (concat (map fst bs)))).
Proof.
revert t w; induction bs as [|b r IH]; intros t w; simpl.
- rewrite Nat.add_0_r, Rplus_0_r. reflexivity.
- rewrite IH, app_length. rewrite Nat.add_assoc. do 2 f_equal. lra.
Qed.
Lemma rm_ok X Z (func : list X * list Z -> R) bs : bs <> [] ->
  loader_reduce_mean X Z func (map Some bs) =
  Some (Rsum (map (fun b => func b * INR (length (fst b))) bs) / INR (length (concat (map fst bs)))).
Proof.
destruct bs as [|b r]; [congruence|]. intros _. unfold loader_reduce_mean; simpl.
rewrite rm_loop_some, app_length. do 2 f_equal. lra.
Qed.

Lemma combine_len A B (l : list A) (k : list B) : length l = length k -> length (combine l k) = length l.
Proof. intros H; rewrite combine_length, H; lia. Qed.

(** mean over the rows of a batch *)
Definition batch_mean X Z (g : X * Z -> R) (b : list X * list Z) : R := mean (map g (brows b)).

Lemma weighted_batch X Z (g : X * Z -> R) (b : list X * list Z) : fst b <> [] ->
  length (fst b) = length (snd b) ->
  batch_mean X Z g b * INR (length (fst b)) = Rsum (map g (brows b)).
Proof.
intros Hn Hl. unfold batch_mean, mean, brows. rewrite map_length, combine_len by auto.
field. apply not_0_INR. intros H; apply length_zero_iff_nil in H; auto.
Qed.

Lemma sum_batches X Z (g : X * Z -> R) bs :
  Forall (fun b => fst b <> []) bs -> Forall (fun bt => length (fst bt) = length (snd bt)) bs ->
  Rsum (map (fun b => batch_mean X Z g b * INR (length (fst b))) bs) =
  Rsum (map g (concat (map (@brows X Z) bs))).
Proof.
induction bs as [|b r IH]; intros H1 H2; simpl; [reflexivity|].
inversion H1; inversion H2; subst. rewrite map_app, Rsum_app, IH, weighted_batch by auto. reflexivity.
Qed.
Lemma len_batches X Z (bs : list (list X * list Z)) :
  Forall (fun bt => length (fst bt) = length (snd bt)) bs ->
  length (concat (map fst bs)) = length (concat (map (@brows X Z) bs)).
Proof.
induction bs as [|b r IH]; intros H; simpl; [reflexivity|].
inversion H; subst. rewrite !app_length, IH by auto. unfold brows. rewrite combine_len by auto. reflexivity.
Qed.

Lemma last_ok_nonempty A b (bs : list (list A)) : last_ok b bs -> Forall (fun l => l <> []) bs.
Proof.
intros H. apply Forall_forall. intros l Hl.
apply In_nth_error in Hl as [k Hk]. destruct (H k l Hk) as [[H1 _] _].
intros ->. simpl in H1. lia.
Qed.
Lemma Forall_fst X Z (bs : list (list X * list Z)) : Forall (fun l => l <> []) (map fst bs) ->
  Forall (fun b => fst b <> []) bs.
Proof. rewrite Forall_map. auto. Qed.

Lemma reduce_mean_epoch X Z (d : dataset X Z) b idx (g : X * Z -> R) :
  wf d -> (1 <= b)%nat -> Permutation idx (seq 0 (ds_size d)) -> rows d <> [] ->
  loader_reduce_mean X Z (batch_mean X Z g) (epoch d b false idx) = Some (mean (map g (rows d))).
Proof.
intros Hw Hb Hp Hr. destruct (@epoch_keep X Z d b idx Hw Hb Hp) as (bs & E & Hl & Hperm & _ & _ & Hlast).
assert (Hbs : bs <> []).
{ intros ->. simpl in Hperm. apply Permutation_nil in Hperm. auto. }
rewrite E, rm_ok by auto. rewrite sum_batches, len_batches; auto.
2:{ apply Forall_fst. eapply last_ok_nonempty; eauto. }
unfold mean. rewrite map_length. rewrite (Rsum_perm _ _ (Permutation_map g Hperm)).
rewrite (Permutation_length Hperm). reflexivity.
Qed.

Lemma reduce_mean_epoch_drop X Z (d : dataset X Z) b idx (g : X * Z -> R) :
  wf d -> (1 <= b)%nat -> Permutation idx (seq 0 (ds_size d)) ->
  (b <= ds_size d)%nat /\
  (exists kept dropped, Permutation (kept ++ dropped) (rows d) /\ (length dropped < b)%nat /\
     loader_reduce_mean X Z (batch_mean X Z g) (epoch d b true idx) = Some (mean (map g kept))) \/
  (ds_size d < b)%nat /\ loader_reduce_mean X Z (batch_mean X Z g) (epoch d b true idx) = None.
Proof.
intros Hw Hb Hp. destruct (@epoch_drop X Z d b idx Hw Hb Hp) as (bs & dr & E & Hl & Hperm & _ & Hlen & Hdr).
destruct (Nat.lt_ge_cases (ds_size d) b) as [H|H]; [right|left]; (split; [exact H|]).
- rewrite Nat.div_small in Hlen by exact H. apply length_zero_iff_nil in Hlen. subst. rewrite E. reflexivity.
- assert (Hbs : bs <> []).
  { intros ->. simpl in Hlen. symmetry in Hlen. apply Nat.div_small_iff in Hlen; lia. }
  exists (concat (map (@brows X Z) bs)), dr. split; [exact Hperm|]. split; [exact Hdr|].
  assert (Hl2 : Forall (fun bt : list X * list Z => length (fst bt) = length (snd bt)) bs).
  { eapply Forall_impl; [|exact Hl]. simpl. intros a []. congruence. }
  rewrite E, rm_ok by auto. rewrite sum_batches, len_batches; auto.
  + unfold mean. rewrite map_length. reflexivity.
  + eapply Forall_impl; [|exact Hl]. simpl. intros a [Ha _] En. rewrite En in Ha. simpl in Ha. lia.
Qed.

(** ** Scalers *)
Lemma guard_pos s : 0 < guard_scale s.
Proof. unfold guard_scale, EPS. destruct Rlt_dec; lra. Qed.
Lemma inverse_l c s x : inverse_transform (mkScaler c (guard_scale s)) (transform (mkScaler c (guard_scale s)) x) = x.
Proof.
unfold inverse_transform, transform; simpl. assert (H := guard_pos s). field. lra.
Qed.
Lemma inverse_r c s y : transform (mkScaler c (guard_scale s)) (inverse_transform (mkScaler c (guard_scale s)) y) = y.
Proof.
unfold inverse_transform, transform; simpl. assert (H := guard_pos s). field. lra.
Qed.
Lemma transform_mono c s x y : x < y <->
  transform (mkScaler c (guard_scale s)) x < transform (mkScaler c (guard_scale s)) y.
Proof.
unfold transform; simpl. assert (H := guard_pos s). assert (0 < / guard_scale s) by (apply Rinv_0_lt_compat; auto).
unfold Rdiv. split; intros; nra.
Qed.

Lemma col_min_least l : l <> [] -> least (col_min l) l.
Proof.
destruct l as [|a l]; [congruence|]. intros _. simpl.
revert a; induction l as [|b l IH]; intros a; simpl.
- split; [now left|]. intros x [<-|[]]; lra.
- destruct (IH (Rmin a b)) as [Hin Hle]. split.
  + destruct Hin as [H|H]; [|now right; right].
    rewrite <- H. unfold Rmin; destruct Rle_dec; [now left|now right; left].
  + intros x [<-|[<-|H]].
    * eapply Rle_trans; [apply Hle; now left|]. apply Rmin_l.
    * eapply Rle_trans; [apply Hle; now left|]. apply Rmin_r.
    * apply Hle. now right.
Qed.
Lemma col_max_greatest l : l <> [] -> greatest (col_max l) l.
Proof.
destruct l as [|a l]; [congruence|]. intros _. simpl.
revert a; induction l as [|b l IH]; intros a; simpl.
- split; [now left|]. intros x [<-|[]]; lra.
- destruct (IH (Rmax a b)) as [Hin Hle]. split.
  + destruct Hin as [H|H]; [|now right; right].
    rewrite <- H. unfold Rmax; destruct Rle_dec; [now right; left|now left].
  + intros x [<-|[<-|H]].
    * eapply Rle_trans; [|apply Hle; now left]. apply Rmax_l.
    * eapply Rle_trans; [|apply Hle; now left]. apply Rmax_r.
    * apply Hle. now right.
Qed.

Lemma minmax_range l x : In x l -> 0 <= transform (minmax_fit l) x <= 1.
Proof.
intros Hx. assert (Hn : l <> []) by (intros ->; destruct Hx).
destruct (col_min_least l Hn) as [_ Hmin]; destruct (col_max_greatest l Hn) as [_ Hmax].
specialize (Hmin x Hx); specialize (Hmax x Hx).
unfold transform, minmax_fit, minmax_init; simpl. unfold guard_scale, EPS.
destruct Rlt_dec as [h|h]; [lra|]. set (r := col_max l - col_min l) in *.
assert (0 < r) by lra. split; apply Rmult_le_reg_r with r; auto; unfold r in *; field_simplify; lra.
Qed.
Lemma minmax_attained l : l <> [] -> EPS <= col_max l - col_min l ->
  transform (minmax_fit l) (col_min l) = 0 /\ transform (minmax_fit l) (col_max l) = 1.
Proof.
intros Hn H. unfold transform, minmax_fit, minmax_init; simpl. unfold guard_scale.
destruct Rlt_dec; [lra|]. unfold EPS in *. split; field; lra.
Qed.
Lemma minmax_constant l a x : (forall y, In y l -> y = a) -> In x l -> transform (minmax_fit l) x = 0.
Proof.
intros Hc Hx. assert (Hn : l <> []) by (intros ->; destruct Hx).
destruct (col_min_least l Hn) as [H1 _]; destruct (col_max_greatest l Hn) as [H2 _].
apply Hc in H1, H2, Hx. unfold transform, minmax_fit, minmax_init; simpl. rewrite H1, H2, Hx.
unfold Rdiv; rewrite Rminus_diag_eq; [lra|reflexivity].
Qed.

(** standardised data *)
Lemma Rsum_affine c s l : Rsum (map (fun x => (x - c) / s) l) = (Rsum l - INR (length l) * c) / s.
Proof.
induction l as [|a l IH]; [simpl; unfold Rdiv; lra|].
cbn [map Rsum length]. rewrite IH, S_INR. unfold Rdiv; lra.
Qed.
Lemma mean_sum l : l <> [] -> INR (length l) * mean l = Rsum l.
Proof.
intros H. unfold mean. field. apply not_0_INR. intros E; apply length_zero_iff_nil in E; auto.
Qed.
Lemma col_mean_mean l : col_mean l = mean l.
Proof. unfold col_mean, mean. rewrite fold_Rplus. f_equal. lra. Qed.
Lemma Rsum_nonneg l : (forall x, In x l -> 0 <= x) -> 0 <= Rsum l.
Proof.
induction l as [|a l IH]; simpl; intros H; [lra|].
assert (0 <= a) by (apply H; now left). assert (0 <= Rsum l) by (apply IH; intros; apply H; now right). lra.
Qed.
Lemma col_std_sq l : l <> [] -> col_std l * col_std l = sq_dev l / INR (length l).
Proof.
intros H. unfold col_std. rewrite sqrt_sqrt.
- rewrite fold_Rplus, col_mean_mean. unfold sq_dev. f_equal. lra.
- rewrite fold_Rplus, Rplus_0_l. apply Rmult_le_pos.
  + apply Rsum_nonneg. intros x (y & <- & _)%in_map_iff. apply Rle_0_sqr.
  + left. apply Rinv_0_lt_compat. apply lt_0_INR. destruct l; [congruence|simpl; lia].
Qed.

Lemma normalizer_standardises l : l <> [] ->
  let t := map (transform (normalizer_fit l)) l in
  mean t = 0 /\ (EPS <= col_std l -> sq_dev t / INR (length t) = 1).
Proof.
intros H t. assert (Hlen : length t = length l) by (unfold t; apply map_length).
assert (Hn0 : INR (length l) <> 0) by (apply not_0_INR; intros E; apply length_zero_iff_nil in E; auto).
assert (gp := guard_pos (col_std l)).
assert (Hm : mean t = 0).
{ unfold mean. rewrite Hlen. unfold t, transform, normalizer_fit, normalizer_init; simpl.
  rewrite Rsum_affine, col_mean_mean, mean_sum by auto. unfold Rdiv. rewrite Rminus_diag_eq; [lra|reflexivity]. }
split; [exact Hm|]. intros He. rewrite Hlen. unfold sq_dev. rewrite Hm.
assert (Hs : guard_scale (col_std l) = col_std l) by (unfold guard_scale; destruct Rlt_dec; [lra|reflexivity]).
assert (Hpos : 0 < col_std l) by (rewrite <- Hs; exact gp).
assert (E : Rsum (map (fun x => (x - 0) * (x - 0)) t) = / (col_std l * col_std l) * sq_dev l).
{ unfold sq_dev. rewrite <- Rsum_scal. unfold t. rewrite !map_map. f_equal. apply map_ext. intros x.
  unfold transform, normalizer_fit, normalizer_init; simpl. rewrite Hs, col_mean_mean. field. lra. }
rewrite E. assert (Q := col_std_sq l H). 
assert (Hq : sq_dev l = col_std l * col_std l * INR (length l)) by (rewrite Q; field; auto).
rewrite Hq. field. split; auto. lra.
Qed.
