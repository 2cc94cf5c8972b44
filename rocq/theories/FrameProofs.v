(** FrameProofs.v: lemmas for C15 and C73. *)
From Coq Require Import String Ascii List Arith ZArith Lia Bool.
From Verif Require Import DataModel ParamModel ParamProofs FrameModel.
Import ListNotations.

(** A well-formed table: one row label per row, one column label per column. *)
Definition wf_frame A (df : frame A) (rows : list (list A)) : Prop :=
  f_data df = D2 rows /\ rows <> [] /\ length rows = length (f_rownames df) /\
  Forall (fun r => length r = length (f_colnames df)) rows.

Lemma z_range_in s st c z : In z (z_range s st c) -> exists k, (0 <= k < Z.of_nat c)%Z /\ z = (s + k * st)%Z.
Proof.
revert s; induction c as [|c IH]; intros s; [intros []|]. simpl z_range. intros [<-|H].
- exists 0%Z. lia.
- destruct (IH _ H) as (k & Hk & ->). exists (k + 1)%Z. split; [lia|ring].
Qed.
Lemma slice_range s n ps : slice_positions s n = Some ps -> forall i, In i ps -> (i < n)%nat.
Proof.
unfold slice_positions. set (len := Z.of_nat n).
set (step := match sl_step s with None => 1%Z | Some k => k end).
destruct (Z.eqb_spec step 0) as [|Hs]; [discriminate|]. intros [= <-] i Hi.
apply in_map_iff in Hi as (z & <- & Hz). apply z_range_in in Hz as (k & Hk & ->).
assert (Hlen : (0 <= len)%Z) by lia.
destruct (Z.ltb_spec step 0) as [Hneg|Hpos].
- set (start := match sl_start s with None => (len - 1)%Z | Some v => clip_bound len (-1) (len - 1) v end) in *.
  set (stop := match sl_stop s with None => (-1)%Z | Some v => clip_bound len (-1) (len - 1) v end) in *.
  assert (H1 : (start <= len - 1)%Z).
  { unfold start, clip_bound. destruct (sl_start s) as [v|]; [|lia]. destruct (Z.ltb_spec v 0); lia. }
  assert (H2 : (-1 <= stop)%Z).
  { unfold stop, clip_bound. destruct (sl_stop s) as [v|]; [|lia]. destruct (Z.ltb_spec v 0); lia. }
  set (q := ((start - stop - step - 1) / - step)%Z) in *.
  assert (Hq : (q * - step <= start - stop - step - 1)%Z).
  { unfold q. rewrite Z.mul_comm. apply Z.mul_div_le. lia. }
  assert (Hk2 : (k <= q - 1)%Z) by lia. nia.
- set (start := match sl_start s with None => 0%Z | Some v => clip_bound len 0 len v end) in *.
  set (stop := match sl_stop s with None => len | Some v => clip_bound len 0 len v end) in *.
  assert (H1 : (0 <= start)%Z).
  { unfold start, clip_bound. destruct (sl_start s) as [v|]; [|lia]. destruct (Z.ltb_spec v 0); lia. }
  assert (H2 : (stop <= len)%Z).
  { unfold stop, clip_bound. destruct (sl_stop s) as [v|]; [|lia]. destruct (Z.ltb_spec v 0); lia. }
  set (q := ((stop - start + step - 1) / step)%Z) in *.
  assert (Hq : (q * step <= stop - start + step - 1)%Z).
  { unfold q. rewrite Z.mul_comm. apply Z.mul_div_le. lia. }
  assert (Hk2 : (k <= q - 1)%Z) by lia. nia.
Qed.
Lemma z_range_seq a c : map Z.to_nat (z_range (Z.of_nat a) 1 c) = seq a c.
Proof.
revert a; induction c; intros a; simpl; auto. rewrite Nat2Z.id. f_equal.
replace (Z.of_nat a + 1)%Z with (Z.of_nat (S a)) by lia. apply IHc.
Qed.
Lemma slice_full n : slice_positions full_slice n = Some (seq 0 n).
Proof.
unfold slice_positions, full_slice; simpl. rewrite Z.div_1_r.
replace (Z.to_nat (Z.of_nat n - 0 + 1 - 1)) with n by lia. f_equal. apply (z_range_seq 0).
Qed.
Lemma take_seq_all A (l : list A) : take l (seq 0 (length l)) = Some l.
Proof. rewrite take_seq by lia. unfold py_slice. rewrite Nat.add_0_l, Nat.sub_0_r. simpl. now rewrite firstn_all. Qed.
Lemma list_slice_full A (l : list A) : list_slice l full_slice = Some l.
Proof. unfold list_slice. rewrite slice_full. apply take_seq_all. Qed.

Lemma take_in A (l : list A) idx t : take l idx = Some t -> forall a, In a t -> In a l.
Proof.
revert t; induction idx as [|i r IH]; simpl; intros t; [intros [= <-] a []|].
destruct (nth_error l i) eqn:E; [|discriminate]. destruct (take l r); [|discriminate].
intros [= <-] a0 [<-|H]; [eapply nth_error_In; eauto|eauto].
Qed.
Lemma opt_all_ok A B (f : A -> option B) l : (forall a, In a l -> exists b, f a = Some b) ->
  exists t, opt_all f l = Some t /\ forall i a, nth_error l i = Some a -> nth_error t i = f a.
Proof.
induction l as [|x l IH]; intros H; simpl.
- exists []. split; auto. intros [|i]; discriminate.
- destruct (H x) as [b Eb]; [now left|]. destruct IH as (t & E & Ht); [intros; apply H; now right|].
  rewrite Eb, E. exists (b :: t). split; auto. intros [|i] a; simpl; auto. intros [= <-]. auto.
Qed.
Lemma opt_all_length A B (f : A -> option B) l t : opt_all f l = Some t -> length t = length l.
Proof.
revert t; induction l; simpl; intros t; [intros [= <-]; auto|].
destruct (f a); [|discriminate]. destruct (opt_all f l); [|discriminate]. intros [= <-]. simpl. f_equal. auto.
Qed.

Lemma wf_ncols A (df : frame A) rows : wf_frame A df rows -> ncols rows = length (f_colnames df).
Proof. intros (_ & Hn & _ & F). destruct rows; [congruence|]. inversion F; auto. Qed.

Lemma sub2_ok A (rows : list (list A)) w rp cp : Forall (fun r => length r = w) rows ->
  (forall i, In i rp -> (i < length rows)%nat) -> (forall j, In j cp -> (j < w)%nat) ->
  exists d, sub2 rows rp cp = Some d /\ length d = length rp /\
    Forall (fun r => length r = length cp) d /\
    forall i j ri cj, nth_error rp i = Some ri -> nth_error cp j = Some cj ->
      sub_elt d i j = sub_elt rows ri cj.
Proof.
intros F Hr Hc. unfold sub2. destruct (take_some _ rows rp Hr) as (rs & Ers & Lrs & Nrs). rewrite Ers.
rewrite Forall_forall in F.
assert (G : forall r, In r rs -> exists t, take r cp = Some t).
{ intros r Hin. destruct (take_some _ r cp) as (t & Et & _); eauto.
  intros j Hj. rewrite (F r); auto. eapply take_in; eauto. }
destruct (opt_all_ok _ _ _ rs G) as (d & Ed & Nd). exists d. split; auto. split; [|split].
- apply opt_all_length in Ed. congruence.
- apply Forall_forall. intros r Hin. apply In_nth_error in Hin as [i Hi].
  assert (Li : (i < length rs)%nat).
  { rewrite <- (opt_all_length _ _ _ _ _ Ed). apply nth_error_Some. congruence. }
  destruct (nth_error rs i) as [r0|] eqn:E0; [|apply nth_error_None in E0; lia].
  specialize (Nd i r0 E0). rewrite Hi in Nd. symmetry in Nd.
  destruct (take_some _ r0 cp) as (t & Et & Lt & _).
  { intros j Hj. rewrite (F r0); auto. eapply take_in; eauto. eapply nth_error_In; eauto. }
  rewrite Et in Nd. injection Nd as <-. auto.
- intros i j ri cj Hi Hj. unfold sub_elt.
  assert (Li : (i < length rs)%nat) by (rewrite Lrs; apply nth_error_Some; congruence).
  destruct (nth_error rs i) as [r0|] eqn:E0; [|apply nth_error_None in E0; lia].
  specialize (Nd i r0 E0). assert (Hri := Nrs i ri Hi). rewrite E0 in Hri. rewrite <- Hri.
  destruct (take_some _ r0 cp) as (t & Et & Lt & Nt).
  { intros k Hk. rewrite (F r0); auto. eapply nth_error_In. symmetry; exact Hri. }
  rewrite Nd, Et. apply Nt; auto.
Qed.

Lemma getitem_slices A (df : frame A) rows a b rp cp : wf_frame A df rows ->
  slice_positions a (length (f_rownames df)) = Some rp ->
  slice_positions b (length (f_colnames df)) = Some cp ->
  exists d rn cn df', take (f_rownames df) rp = Some rn /\ take (f_colnames df) cp = Some cn /\
    getitem df (Pair (KSlice a) (KSlice b)) = Some (inr df') /\
    f_data df' = D2 d /\ length d = length rp /\
    (forall i j ri cj, nth_error rp i = Some ri -> nth_error cp j = Some cj ->
       sub_elt d i j = sub_elt rows ri cj) /\
    f_colnames df' = rn /\ f_rownames df' = cn /\
    ((f_rownames df' = rn /\ f_colnames df' = cn) <-> rn = cn) /\
    getitem df' (Pair (KSlice full_slice) (KSlice full_slice)) = Some (inr (mkFrame (D2 d) cn rn)).
Proof.
intros W Hr Hc. assert (Wc := wf_ncols _ _ _ W). destruct W as (Hd & Hn & Hl & F).
assert (Rr := slice_range _ _ _ Hr). assert (Rc := slice_range _ _ _ Hc).
destruct (take_some _ _ rp Rr) as (rn & Ern & Lrn & _).
destruct (take_some _ _ cp Rc) as (cn & Ecn & Lcn & _).
destruct (sub2_ok _ rows (length (f_colnames df)) rp cp F) as (d & Ed & Ld & Fd & Nd); auto.
{ intros i Hi. rewrite Hl. auto. }
exists d, rn, cn, (mkFrame (D2 d) rn cn). repeat split; auto; try (simpl; tauto).
- unfold getitem. rewrite Hd, Wc, Hl, Hr, Hc, Ed. unfold list_slice. rewrite Hr, Hc, Ern, Ecn. reflexivity.
- unfold getitem. cbn [f_data f_rownames f_colnames]. rewrite !slice_full, !list_slice_full.
  assert (E2 : sub2 d (seq 0 (length d)) (seq 0 (ncols d)) = Some d).
  { unfold sub2. rewrite take_seq_all. assert (Fd' : Forall (fun r => length r = ncols d) d).
    { destruct d as [|r0 d0]; [constructor|]. inversion Fd; subst. simpl. constructor; auto.
      eapply Forall_impl; [|eassumption]. simpl. congruence. }
    assert (G : forall l : list (list A), Forall (fun r => length r = ncols d) l ->
      opt_all (fun r => take r (seq 0 (ncols d))) l = Some l).
    { induction 1 as [|r l H1 H2 IH]; simpl; auto. rewrite IH. rewrite <- H1, take_seq_all. reflexivity. }
    apply G; exact Fd'. }
  rewrite E2. reflexivity.
Qed.

Lemma getitem_names A (df : frame A) rows i j r c : wf_frame A df rows ->
  index_of r (f_rownames df) = Some i -> index_of c (f_colnames df) = Some j ->
  exists v, getitem df (Pair (KName r) (KName c)) = Some (inl v) /\ sub_elt rows i j = Some v.
Proof.
intros (Hd & Hn & Hl & F) Hi Hj. unfold getitem. rewrite Hd, Hi, Hj.
assert (Li : (i < length rows)%nat).
{ rewrite Hl. assert (S := index_of_spec r (f_rownames df)). rewrite Hi in S. apply nth_error_Some. destruct S; congruence. }
assert (Lj : (j < length (f_colnames df))%nat).
{ assert (S := index_of_spec c (f_colnames df)). rewrite Hj in S. apply nth_error_Some. destruct S; congruence. }
unfold sub_elt. destruct (nth_error rows i) as [row|] eqn:E; [|apply nth_error_None in E; lia].
rewrite Forall_forall in F. assert (Lr := F row (nth_error_In _ _ E)).
destruct (nth_error row j) as [v|] eqn:Ev; [|apply nth_error_None in Ev; lia]. eauto.
Qed.
Lemma index_of_unique l : NoDup l -> forall i n, nth_error l i = Some n -> index_of n l = Some i.
Proof.
induction 1 as [|a l Ha Hl IH]; intros [|i] n; simpl; try discriminate.
- intros [= ->]. now rewrite String.eqb_refl.
- intros H. destruct (String.eqb_spec a n) as [->|_]; [|now rewrite (IH i n H)].
  exfalso. apply Ha. eapply nth_error_In; eauto.
Qed.
Lemma getitem_cell A (df : frame A) rows i j r c : wf_frame A df rows ->
  NoDup (f_rownames df) -> NoDup (f_colnames df) ->
  nth_error (f_rownames df) i = Some r -> nth_error (f_colnames df) j = Some c ->
  exists v, getitem df (Pair (KName r) (KName c)) = Some (inl v) /\ sub_elt rows i j = Some v.
Proof. intros W N1 N2 H1 H2. eapply getitem_names; eauto using index_of_unique. Qed.

(** selecting one row or one column: one-dimensional data whose label lists are exchanged *)
Lemma getitem_row A (df : frame A) rows b cp i r : wf_frame A df rows ->
  index_of r (f_rownames df) = Some i -> slice_positions b (length (f_colnames df)) = Some cp ->
  exists d cn, take (f_colnames df) cp = Some cn /\ sub_row rows i cp = Some d /\
    getitem df (Pair (KName r) (KSlice b)) = Some (inr (mkFrame (D1 d) [r] cn)).
Proof.
intros W Hi Hc. assert (Wc := wf_ncols _ _ _ W). destruct W as (Hd & Hn & Hl & F).
assert (Rc := slice_range _ _ _ Hc).
destruct (take_some _ _ cp Rc) as (cn & Ecn & Lcn & _).
assert (Li : (i < length rows)%nat).
{ rewrite Hl. assert (S := index_of_spec r (f_rownames df)). rewrite Hi in S. apply nth_error_Some. destruct S; congruence. }
unfold getitem, sub_row, list_slice. rewrite Hd, Hi, Wc, Hc, Ecn.
destruct (nth_error rows i) as [row|] eqn:E; [|apply nth_error_None in E; lia].
rewrite Forall_forall in F. assert (Lr := F row (nth_error_In _ _ E)). rewrite <- Lr in Rc.
destruct (take_some _ row cp Rc) as (d & Ed & _). rewrite Ed. exists d, cn. auto.
Qed.
Lemma getitem_col A (df : frame A) rows a rp j c : wf_frame A df rows ->
  index_of c (f_colnames df) = Some j -> slice_positions a (length (f_rownames df)) = Some rp ->
  exists d rn, take (f_rownames df) rp = Some rn /\ sub_col rows rp j = Some d /\
    getitem df (Pair (KSlice a) (KName c)) = Some (inr (mkFrame (D1 d) rn [c])).
Proof.
intros (Hd & Hn & Hl & F) Hj Hr. assert (Rr := slice_range _ _ _ Hr).
destruct (take_some _ _ rp Rr) as (rn & Ern & Lrn & _).
assert (Lj : (j < length (f_colnames df))%nat).
{ assert (S := index_of_spec c (f_colnames df)). rewrite Hj in S. apply nth_error_Some. destruct S; congruence. }
unfold getitem, sub_col, list_slice. rewrite Hd, Hl, Hj, Hr, Ern.
rewrite <- Hl in Rr. destruct (take_some _ rows rp Rr) as (rs & Ers & _). rewrite Ers.
rewrite Forall_forall in F.
destruct (opt_all_ok _ _ (fun r => nth_error r j) rs) as (d & Ed & _).
{ intros r Hin. destruct (nth_error r j) as [v|] eqn:E; eauto. apply nth_error_None in E.
  rewrite (F r) in E by (eapply take_in; eauto). lia. }
rewrite Ed. exists d, rn. auto.
Qed.
Lemma getitem_flat A (df : frame A) v k : f_data df = D1 v -> getitem df k = None.
Proof. intros H. unfold getitem. now rewrite H. Qed.

Lemma nth_upd_rows A (rows : list (list A)) i j row v i' j' : nth_error rows i = Some row -> (j < length row)%nat ->
  sub_elt (upd rows i (upd row j v)) i' j' =
  if Nat.eqb i' i && Nat.eqb j' j then Some v else sub_elt rows i' j'.
Proof.
intros Hi Hj. unfold sub_elt.
assert (Li : (i < length rows)%nat) by (apply nth_error_Some; congruence).
destruct (Nat.eqb_spec i' i) as [->|Hne]; simpl.
- rewrite upd_same by auto. rewrite Hi. destruct (Nat.eqb_spec j' j) as [->|Hne]; [now apply upd_same|apply upd_other; auto].
- rewrite upd_other; auto.
Qed.
Lemma set_elt_spec A (df : frame A) rows i j r c v : wf_frame A df rows ->
  index_of r (f_rownames df) = Some i -> index_of c (f_colnames df) = Some j ->
  exists rows', set_elt df r c v = (mkFrame (D2 rows') (f_colnames df) (f_rownames df), true) /\
    (forall i' j', sub_elt rows' i' j' = if Nat.eqb i' i && Nat.eqb j' j then Some v else sub_elt rows i' j') /\
    getitem (fst (set_elt df r c v)) (Pair (KName r) (KName c)) = Some (inl v).
Proof.
intros W Hi Hj. destruct (getitem_names _ _ _ _ _ _ _ W Hi Hj) as (v0 & _ & E0).
destruct W as (Hd & Hn & Hl & F). unfold set_elt. rewrite Hd, Hi, Hj.
unfold sub_elt in E0. destruct (nth_error rows i) as [row|] eqn:E; [|discriminate].
assert (Lj : (j < length row)%nat) by (apply nth_error_Some; congruence).
apply Nat.ltb_lt in Lj as Lb. rewrite Lb.
exists (upd rows i (upd row j v)). split; [reflexivity|].
assert (G := fun i' j' => nth_upd_rows _ rows i j row v i' j' E Lj).
split; [exact G|]. unfold getitem. cbn [fst f_data f_rownames f_colnames]. rewrite Hi, Hj, G, !Nat.eqb_refl. reflexivity.
Qed.

(** ** Shared label lists (C73) *)
Definition wf_h A (s : store) (df : hframe A) : Prop :=
  (h_cols_at df < length s)%nat /\ (h_rows_at df < length s)%nat /\ h_cols_at df <> h_rows_at df /\
  length (h_rows df) = length (sget s (h_rows_at df)) /\
  Forall (fun r => length r = length (sget s (h_cols_at df))) (h_rows df).

Lemma names_eqb_eq a b : names_eqb a b = true <-> a = b.
Proof. exact (path_eqb_eq a b). Qed.
Lemma sget_app_l s t a : (a < length s)%nat -> sget (s ++ t) a = sget s a.
Proof. intros H. unfold sget. now apply app_nth1. Qed.
Lemma sget_new s l : sget (s ++ [l]) (length s) = l.
Proof. unfold sget. rewrite app_nth2, Nat.sub_diag by lia. reflexivity. Qed.
Lemma sget_upd s a l b : (a < length s)%nat -> sget (upd s a l) b = if Nat.eqb b a then l else sget s b.
Proof.
intros H. unfold sget. destruct (Nat.eqb_spec b a) as [->|Hn].
- apply nth_error_nth. now apply upd_same.
- destruct (nth_error s b) as [x|] eqn:E.
  + rewrite (nth_error_nth s b [] E). apply nth_error_nth. rewrite upd_other; auto.
  + rewrite (nth_overflow s) by (now apply nth_error_None).
    apply nth_overflow. rewrite upd_length. now apply nth_error_None.
Qed.

Lemma concat0_spec A s (df other : hframe A) : wf_h A s df -> wf_h A s other ->
  (sget s (h_cols_at df) = sget s (h_cols_at other) ->
   exists s' res, concat0 s df other = Some (s', res) /\ wf_h A s' res /\
    h_rows res = h_rows df ++ h_rows other /\
    sget s' (h_rows_at res) = sget s (h_rows_at df) ++ sget s (h_rows_at other) /\
    sget s' (h_cols_at res) = sget s (h_cols_at df) /\ wf_h A s' df /\ wf_h A s' other) /\
  (sget s (h_cols_at df) <> sget s (h_cols_at other) -> concat0 s df other = None).
Proof.
intros (A1 & A2 & A3 & A4 & A5) (B1 & B2 & B3 & B4 & B5). unfold concat0. split.
- intros E. apply names_eqb_eq in E as Eb. rewrite Eb. eexists _, _. split; [reflexivity|].
  assert (Q : forall (f : hframe A), (h_cols_at f < length s)%nat -> (h_rows_at f < length s)%nat ->
     h_cols_at f <> h_rows_at f -> length (h_rows f) = length (sget s (h_rows_at f)) ->
     Forall (fun r => length r = length (sget s (h_cols_at f))) (h_rows f) -> forall t, wf_h A (s ++ [t]) f).
  { intros f F1 F2 F3 F4 F5 t. unfold wf_h. rewrite app_length, !sget_app_l by auto. repeat split; auto; lia. }
  split; [|split; [reflexivity|split; [apply sget_new|split; [now apply sget_app_l|split; apply Q; auto]]]].
  unfold wf_h; cbn [h_rows h_cols_at h_rows_at]. rewrite !app_length, sget_new, sget_app_l by auto. simpl.
  repeat split; try lia.
  + rewrite app_length. lia.
  + apply Forall_app; split; auto. rewrite E. auto.
- intros Hn. destruct (names_eqb _ _) eqn:Eb; auto. apply names_eqb_eq in Eb. contradiction.
Qed.

Lemma zip_snoc_widths A w (rows : list (list A)) col : length col = length rows ->
  Forall (fun r => length r = w) rows -> Forall (fun r => length r = S w) (zip_with (fun r x => r ++ [x]) rows col).
Proof.
intros L F. revert col L; induction F; intros [|c col] L; simpl in *; try discriminate; constructor; auto.
rewrite app_length. simpl. lia.
Qed.
Lemma append_col_ok A s (df : hframe A) col name : wf_h A s df -> length col = length (h_rows df) ->
  exists s' df', append_col s df col name = Some (s', df') /\ wf_h A s' df' /\
    sget s' (h_cols_at df') = sget s (h_cols_at df) ++ [name] /\
    sget s' (h_rows_at df') = sget s (h_rows_at df).
Proof.
intros (A1 & A2 & A3 & A4 & A5) L. unfold append_col. rewrite L, Nat.eqb_refl. eexists _, _. split; [reflexivity|].
unfold wf_h; cbn [h_rows h_cols_at h_rows_at]. rewrite upd_length, !sget_upd, Nat.eqb_refl by auto.
destruct (Nat.eqb_spec (h_rows_at df) (h_cols_at df)); [congruence|].
repeat split; auto.
- rewrite zip_with_length; auto.
- rewrite app_length. simpl. rewrite Nat.add_1_r. apply zip_snoc_widths; auto.
Qed.
(** appending a column to the result of a vertical concatenation corrupts its first operand *)
Lemma concat0_append_col A s (df other : hframe A) s1 res col name s2 res2 :
  wf_h A s df -> wf_h A s other -> h_rows df <> [] ->
  concat0 s df other = Some (s1, res) -> append_col s1 res col name = Some (s2, res2) ->
  wf_h A s2 res2 /\ ~ wf_h A s2 df /\
  (h_cols_at other <> h_cols_at df -> h_rows_at other <> h_cols_at df -> wf_h A s2 other).
Proof.
intros W1 W2 Hne E1 E2.
assert (Ec : sget s (h_cols_at df) = sget s (h_cols_at other)).
{ unfold concat0 in E1. destruct (names_eqb _ _) eqn:Eb; [|discriminate]. now apply names_eqb_eq. }
destruct (concat0_spec _ s df other W1 W2) as [G _]. destruct (G Ec) as (s1' & res' & E1' & Wr & Hr & _ & _ & Wd & Wo).
rewrite E1 in E1'. injection E1' as <- <-.
assert (Ea : h_cols_at res = h_cols_at df).
{ unfold concat0 in E1. destruct (names_eqb _ _); [|discriminate]. injection E1 as <- <-. reflexivity. }
assert (L : length col = length (h_rows res)).
{ unfold append_col in E2. destruct (Nat.eqb_spec (length col) (length (h_rows res))); auto. discriminate. }
destruct (append_col_ok _ s1 res col name Wr L) as (s2' & res2' & E2' & W2' & _ & _).
rewrite E2 in E2'. injection E2' as <- <-. split; [auto|].
assert (Es : s2 = upd s1 (h_cols_at df) (sget s1 (h_cols_at df) ++ [name])).
{ unfold append_col in E2. rewrite L, Nat.eqb_refl in E2. injection E2 as <- _. now rewrite Ea. }
destruct Wd as (D1 & D2 & D3 & D4 & D5). destruct Wo as (O1 & O2 & O3 & O4 & O5). split.
- intros (_ & _ & _ & _ & F). destruct (h_rows df) as [|r0 rs]; [congruence|].
  inversion F; subst. inversion D5; subst. rewrite sget_upd, Nat.eqb_refl, app_length in H1 by auto. simpl in H1. lia.
- intros Hne2 Hne3. rewrite Es. unfold wf_h. rewrite upd_length, !sget_upd by auto.
  destruct (Nat.eqb_spec (h_cols_at other) (h_cols_at df)); [congruence|].
  destruct (Nat.eqb_spec (h_rows_at other) (h_cols_at df)); [congruence|]. repeat split; auto.
Qed.
