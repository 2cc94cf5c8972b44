(** Property theorem C106: assignment to a DataFrame. *)
From Coq Require Import String List Arith ZArith Lia Bool.
From Verif Require Import DataModel ParamModel ParamProofs FrameModel FrameProofs FrameSetModel.
Import ListNotations.
Local Open Scope string_scope.

(** ** positions of a slice *)
Lemma slice_z_nonneg s n ps : slice_positions s n = Some ps -> exists zs step start count,
  ps = map Z.to_nat zs /\ zs = z_range start step count /\ step <> 0%Z /\ forall z, In z zs -> (0 <= z)%Z.
Proof.
  unfold slice_positions. set (len := Z.of_nat n). set (step := match sl_step s with None => 1%Z | Some k => k end).
  destruct (Z.eqb_spec step 0) as [| Hs]; [discriminate |]. intros [= <-].
  eexists _, step, _, _. split; [reflexivity |]. split; [reflexivity |]. split; [exact Hs |]. intros z Hz.
  apply z_range_in in Hz as (k & Hk & ->). assert (Hlen : (0 <= len)%Z) by lia.
  destruct (Z.ltb_spec step 0) as [Hneg | Hpos].
  - set (start := match sl_start s with None => (len - 1)%Z | Some v => clip_bound len (-1) (len - 1) v end) in *.
    set (stop := match sl_stop s with None => (-1)%Z | Some v => clip_bound len (-1) (len - 1) v end) in *.
    assert (H2 : (-1 <= stop)%Z).
    { unfold stop, clip_bound. destruct (sl_stop s) as [v |]; [| lia]. destruct (Z.ltb_spec v 0); lia. }
    set (q := ((start - stop - step - 1) / - step)%Z) in *.
    assert (Hq : (q * - step <= start - stop - step - 1)%Z).
    { unfold q. rewrite Z.mul_comm. apply Z.mul_div_le. lia. }
    assert (Hk2 : (k <= q - 1)%Z) by lia. nia.
  - set (start := match sl_start s with None => 0%Z | Some v => clip_bound len 0 len v end) in *.
    assert (H1 : (0 <= start)%Z).
    { unfold start, clip_bound. destruct (sl_start s) as [v |]; [| lia]. destruct (Z.ltb_spec v 0); lia. }
    nia.
Qed.
Lemma z_range_nodup c : forall s st, st <> 0%Z -> NoDup (z_range s st c).
Proof.
  induction c as [| c IH]; intros s st h; cbn; constructor; auto.
  intros H. apply z_range_in in H as (k & Hk & E). nia.
Qed.
Lemma slice_nodup s n ps : slice_positions s n = Some ps -> NoDup ps.
Proof.
  intros H. destruct (slice_z_nonneg s n ps H) as (zs & st & a & c & -> & -> & hs & hp).
  assert (N := z_range_nodup c a st hs). clear H. induction (z_range a st c) as [| z l IH]; cbn; constructor.
  - intros H'. apply in_map_iff in H' as (y & e & Hy). inversion N; subst.
    assert (0 <= z)%Z by (apply hp; left; auto). assert (0 <= y)%Z by (apply hp; right; auto).
    assert (y = z) by lia. subst. auto.
  - apply IH; [intros; apply hp; right; auto | inversion N; auto].
Qed.

(** ** broadcasting *)
Section S.
Context {A : Type}.
Definition wf_value (v : value A) : Prop := match v with V2 w rows => Forall (fun r => length r = w) rows | _ => True end.
(** the value fits a block of nr rows and nc columns *)
Definition fits_block (v : value A) (nr nc : nat) : Prop :=
  match v with
  | VScalar _ => True
  | V1 l => length l = nc \/ length l = 1
  | V2 w rows => (length rows = nr \/ length rows = 1) /\ (w = nc \/ w = 1)
  end.
(** the entry of the value that goes to row a and column b of the block *)
Definition at1 {B} (l : list B) (a : nat) : option B := if Nat.eqb (length l) 1 then nth_error l 0 else nth_error l a.
Definition entry_block (v : value A) (a b : nat) : option A :=
  match v with
  | VScalar x => Some x
  | V1 l => at1 l b
  | V2 _ rows => match at1 rows a with Some r => at1 r b | None => None end
  end.
(** the value fits a line (one row or one column) of n cells, and its entries *)
Definition fits_line (v : value A) (n : nat) : Prop :=
  match v with
  | VScalar _ => True
  | V1 l => length l = n \/ length l = 1
  | V2 w rows => length rows = 1 /\ (w = n \/ w = 1)
  end.
Definition entry_line (v : value A) (b : nat) : option A :=
  match v with
  | VScalar x => Some x
  | V1 l => at1 l b
  | V2 _ rows => match rows with r :: _ => at1 r b | [] => None end
  end.

Lemma stretch_some {B} n (l l' : list B) : stretch n l = Some l' ->
  (length l = n \/ length l = 1) /\ length l' = n /\ forall a, (a < n)%nat -> nth_error l' a = at1 l a.
Proof.
  unfold stretch, at1. destruct (Nat.eqb_spec (length l) n) as [e | e].
  - intros [= <-]. split; auto. split; auto. intros a ha. destruct (Nat.eqb_spec (length l) 1) as [e1 | e1]; auto. replace a with 0%nat by lia. reflexivity.
  - destruct l as [| x [| y l]]; try discriminate. intros [= <-]. split; [right; reflexivity |]. split; [apply repeat_length |].
    intros a ha. cbn. clear e. revert a ha. induction n as [| n IH]; intros a ha; [lia |]. destruct a; cbn; auto. apply IH. lia.
Qed.
Lemma stretch_none {B} n (l : list B) : stretch n l = None -> ~ (length l = n \/ length l = 1).
Proof.
  unfold stretch. destruct (Nat.eqb_spec (length l) n) as [e | e]; [discriminate |]. destruct l as [| x [| y l]]; try discriminate; cbn in *; intros _ [h | h]; try lia.
Qed.
Lemma nth_repeat_error {B} (x : B) n a : (a < n)%nat -> nth_error (repeat x n) a = Some x.
Proof. revert a. induction n as [| n IH]; intros a h; [lia |]. destruct a; cbn; auto. apply IH. lia. Qed.
Definition good (m : list (list A)) (nr nc : nat) (e : nat -> nat -> option A) : Prop :=
  length m = nr /\ Forall (fun r => length r = nc) m /\ forall a b, (a < nr)%nat -> (b < nc)%nat -> sub_elt m a b = e a b.
Lemma Forall_repeat {B} (P : B -> Prop) x n : P x -> Forall P (repeat x n).
Proof. intros h. induction n; cbn; constructor; auto. Qed.
Lemma bcast2_spec nr nc v : wf_value v ->
  match bcast2 nr nc v with Some m => fits_block v nr nc /\ good m nr nc (entry_block v) | None => ~ fits_block v nr nc end.
Proof.
  intros W. destruct v as [x | l | w rows]; cbn.
  - split; auto. split; [apply repeat_length |]. split; [apply Forall_repeat, repeat_length |]. intros a b ha hb. unfold sub_elt.
    rewrite nth_repeat_error by auto. apply nth_repeat_error; auto.
  - destruct (stretch nc l) as [l' |] eqn:E; [| apply stretch_none; auto]. destruct (stretch_some _ _ _ E) as (f & L & N). split; auto.
    split; [apply repeat_length |]. split; [apply Forall_repeat; auto |]. intros a b ha hb. unfold sub_elt. rewrite nth_repeat_error by auto. apply N. auto.
  - cbn in W. destruct (Nat.eqb_spec w nc) as [e | e]; [| destruct (Nat.eqb_spec w 1) as [e1 | e1]]; cbn; [| | intros [_ [h | h]]; auto].
    all: destruct (stretch nr rows) as [rows' |] eqn:E; [| intros [h _]; revert h; apply stretch_none; auto].
    all: destruct (stretch_some _ _ _ E) as (f & L & N).
    all: assert (W' : Forall (fun r => length r = w) rows') by
      (apply Forall_forall; intros r Hr; apply In_nth_error in Hr as [a Ha]; assert (la : (a < nr)%nat) by (rewrite <- L; apply nth_error_Some; congruence);
       rewrite (N a la) in Ha; unfold at1 in Ha; rewrite Forall_forall in W; destruct (Nat.eqb (length rows) 1); apply W; eapply nth_error_In; eauto).
    all: assert (S : forall r, In r rows' -> exists t, stretch nc r = Some t) by
      (intros r Hr; rewrite Forall_forall in W'; specialize (W' r Hr); destruct (stretch nc r) as [t |] eqn:Er; [eauto |];
       exfalso; apply (stretch_none _ _ Er); rewrite W'; lia).
    all: destruct (opt_all_ok _ _ (stretch nc) rows' S) as (m & Em & Nm); rewrite Em.
    all: split; [split; auto |]; split; [rewrite (opt_all_length _ _ _ _ _ Em); auto |].
    all: assert (H : forall a r, nth_error m a = Some r -> exists r0, nth_error rows' a = Some r0 /\ stretch nc r0 = Some r) by
      (intros a r Ha; destruct (nth_error rows' a) as [r0 |] eqn:E0; [exists r0; split; auto; rewrite <- (Nm a r0 E0); auto |];
       apply nth_error_None in E0; assert (a < length m)%nat by (apply nth_error_Some; congruence); rewrite (opt_all_length _ _ _ _ _ Em) in H; lia).
    all: split; [apply Forall_forall; intros r Hr; apply In_nth_error in Hr as [a Ha]; destruct (H a r Ha) as (r0 & _ & Er); apply (stretch_some _ _ _ Er) |].
    all: intros a b ha hb; unfold sub_elt; destruct (nth_error m a) as [r |] eqn:Ea;
      [| apply nth_error_None in Ea; rewrite (opt_all_length _ _ _ _ _ Em), L in Ea; lia].
    all: destruct (H a r Ea) as (r0 & E0 & Er); rewrite (N a ha) in E0; cbn [entry_block]; rewrite E0; destruct (stretch_some _ _ _ Er) as (_ & _ & N'); apply N'; auto.
Qed.
Lemma bcast1_spec n v : wf_value v ->
  match bcast1 n v with Some l => fits_line v n /\ length l = n /\ (forall b, (b < n)%nat -> nth_error l b = entry_line v b) | None => ~ fits_line v n end.
Proof.
  intros W. destruct v as [x | l | w rows]; cbn.
  - split; auto. split; [apply repeat_length |]. intros b hb. apply nth_repeat_error; auto.
  - destruct (stretch n l) as [l' |] eqn:E; [| apply stretch_none; auto]. apply (stretch_some _ _ _ E).
  - cbn in W. destruct rows as [| r [| r' rows]]; cbn; try (intros [h _]; discriminate). inversion W; subst.
    destruct (stretch n r) as [l' |] eqn:E; [| intros [_ h]; revert h; apply stretch_none; auto].
    destruct (stretch_some _ _ _ E) as (f & L & N). auto.
Qed.

(** ** cell by cell assignment *)
Lemma assign_row_length cp : forall row (vals : list A), length (assign_row row cp vals) = length row.
Proof.
  unfold assign_row. induction cp as [| j cp IH]; intros row vals; cbn; auto. destruct vals as [| x vals]; cbn; auto.
  rewrite IH. apply upd_length.
Qed.
Lemma assign_row_other cp : forall row (vals : list A) j, ~ In j cp -> nth_error (assign_row row cp vals) j = nth_error row j.
Proof.
  unfold assign_row. induction cp as [| k cp IH]; intros row vals j h; cbn; auto. destruct vals as [| x vals]; cbn; auto.
  rewrite IH by (intro; apply h; right; auto). apply upd_other. intros ->. apply h. left; auto.
Qed.
Lemma assign_row_at cp : forall row (vals : list A) b j, NoDup cp -> length vals = length cp -> (forall j, In j cp -> (j < length row)%nat) ->
  nth_error cp b = Some j -> nth_error (assign_row row cp vals) j = nth_error vals b.
Proof.
  induction cp as [| k cp IH]; intros row vals b j N L R E; [destruct b; discriminate |].
  destruct vals as [| x vals]; [discriminate |]. inversion N; subst. destruct b as [| b]; cbn in E.
  - injection E as ->. unfold assign_row. cbn. fold (assign_row (upd row j x) cp vals). rewrite assign_row_other by auto.
    apply upd_same. apply R. left; auto.
  - unfold assign_row. cbn. fold (assign_row (upd row k x) cp vals). apply IH; auto. intros i Hi. rewrite upd_length. apply R. right; auto.
Qed.
Lemma assign_spec rp cp : forall (rows : list (list A)) w vals, Forall (fun r => length r = w) rows -> NoDup rp -> NoDup cp ->
  (forall i, In i rp -> (i < length rows)%nat) -> (forall j, In j cp -> (j < w)%nat) ->
  length vals = length rp -> Forall (fun r => length r = length cp) vals ->
  length (assign rows rp cp vals) = length rows /\ Forall (fun r => length r = w) (assign rows rp cp vals) /\
  (forall a b i j, nth_error rp a = Some i -> nth_error cp b = Some j -> sub_elt (assign rows rp cp vals) i j = sub_elt vals a b) /\
  (forall i j, ~ (In i rp /\ In j cp) -> sub_elt (assign rows rp cp vals) i j = sub_elt rows i j).
Proof.
  unfold assign. induction rp as [| i0 rp IH]; intros rows w vals F Nr Nc Rr Rc L V; cbn.
  - repeat split; auto. intros a b i j E. destruct a; discriminate.
  - destruct vals as [| x vals]; [discriminate |]. cbn. inversion Nr; subst. inversion V; subst.
    destruct (nth_error rows i0) as [r |] eqn:E0; [| apply nth_error_None in E0; specialize (Rr i0 (or_introl eq_refl)); lia].
    assert (lr : length r = w) by (rewrite Forall_forall in F; apply F; eapply nth_error_In; eauto).
    set (rows1 := upd rows i0 (assign_row r cp x)).
    assert (F1 : Forall (fun r => length r = w) rows1).
    { apply Forall_forall. intros y Hy. apply In_nth_error in Hy as [k Hk]. unfold rows1 in Hk. destruct (Nat.eq_dec i0 k) as [<- | ne].
      - rewrite upd_same in Hk by (apply Rr; left; auto). injection Hk as <-. rewrite assign_row_length. auto.
      - rewrite upd_other in Hk by auto. rewrite Forall_forall in F. apply F. eapply nth_error_In; eauto. }
    destruct (IH rows1 w vals F1) as (G1 & G2 & G3 & G4); auto.
    { intros i Hi. unfold rows1. rewrite upd_length. apply Rr. right; auto. }
    split; [rewrite G1; apply upd_length |]. split; [exact G2 |].
    assert (S1 : forall j, sub_elt rows1 i0 j = nth_error (assign_row r cp x) j).
    { intros j. unfold sub_elt, rows1. rewrite upd_same by (apply Rr; left; auto). reflexivity. }
    assert (S2 : forall i j, i <> i0 -> sub_elt rows1 i j = sub_elt rows i j).
    { intros i j ne. unfold sub_elt, rows1. rewrite upd_other by auto. reflexivity. }
    split.
    + intros a b i j Ea Eb. destruct a as [| a]; cbn in Ea.
      * injection Ea as ->. rewrite G4 by (intros [h _]; auto). rewrite S1. unfold sub_elt. cbn. apply assign_row_at; auto. intros k Hk. rewrite lr. auto.
      * rewrite (G3 a b i j Ea Eb). unfold sub_elt. reflexivity.
    + intros i j h. destruct (Nat.eq_dec i i0) as [-> | ne].
      * rewrite G4 by (intros [h' _]; auto). rewrite S1. rewrite assign_row_other by (intros hj; apply h; split; [left; auto | auto]).
        unfold sub_elt. rewrite E0. reflexivity.
      * rewrite G4 by (intros [h1 h2]; apply h; split; [right; auto | auto]). apply S2. auto.
Qed.
Lemma put_spec df rows rp cp m e : wf_frame A df rows -> NoDup rp -> NoDup cp ->
  (forall i, In i rp -> (i < length (f_rownames df))%nat) -> (forall j, In j cp -> (j < length (f_colnames df))%nat) ->
  good m (length rp) (length cp) e ->
  exists rows', put df rows rp cp (Some m) = (mkFrame (D2 rows') (f_colnames df) (f_rownames df), true) /\
    wf_frame A (mkFrame (D2 rows') (f_colnames df) (f_rownames df)) rows' /\
    (forall a b i j, nth_error rp a = Some i -> nth_error cp b = Some j -> sub_elt rows' i j = e a b) /\
    (forall i j, ~ (In i rp /\ In j cp) -> sub_elt rows' i j = sub_elt rows i j).
Proof.
  intros W Nr Nc Rr Rc (g1 & g2 & g3). assert (Wc := wf_ncols _ _ _ W). destruct W as (Hd & Hn & Hl & F).
  destruct (assign_spec rp cp rows _ m F Nr Nc) as (G1 & G2 & G3 & G4); auto; [rewrite Hl; auto |].
  exists (assign rows rp cp m). unfold put. rewrite Wc.
  assert (T1 : forallb (fun i => Nat.ltb i (length rows)) rp = true) by (apply forallb_forall; intros i Hi; apply Nat.ltb_lt; rewrite Hl; auto).
  assert (T2 : forallb (fun j => Nat.ltb j (length (f_colnames df))) cp = true) by (apply forallb_forall; intros j Hj; apply Nat.ltb_lt; auto).
  rewrite T1, T2. split; [reflexivity |]. split.
  - split; [reflexivity |]. split; [intros E; rewrite E in G1; cbn in G1; destruct rows; [congruence | discriminate] |]. cbn. split; [congruence | exact G2].
  - split; [| exact G4]. intros a b i j Ea Eb. rewrite (G3 a b i j Ea Eb). apply g3; apply nth_error_Some; congruence.
Qed.
Lemma index_of_range n l i : index_of n l = Some i -> (i < length l)%nat.
Proof.
  revert i. induction l as [| x l IH]; cbn; intros i; [discriminate |]. destruct (String.eqb x n); [intros [= <-]; lia |].
  destruct (index_of n l) as [k |]; [| discriminate]. intros [= <-]. specialize (IH k eq_refl). lia.
Qed.
Lemma good_row l n e : length l = n -> (forall b, (b < n)%nat -> nth_error l b = e b) -> good [l] 1 n (fun _ b => e b).
Proof.
  intros L N. split; [reflexivity |]. split; [repeat constructor; auto |]. intros a b ha hb. unfold sub_elt. replace a with 0%nat by lia. cbn. auto.
Qed.
Lemma good_col l n e : length l = n -> (forall b, (b < n)%nat -> nth_error l b = e b) -> good (map (fun x => [x]) l) n 1 (fun a _ => e a).
Proof.
  intros L N. split; [rewrite map_length; auto |]. split; [apply Forall_forall; intros r Hr; apply in_map_iff in Hr as (x & <- & _); reflexivity |].
  intros a b ha hb. unfold sub_elt. rewrite nth_error_map. rewrite <- (N a ha). replace b with 0%nat by lia. destruct (nth_error l a); reflexivity.
Qed.

(** what a key designates: the positions of the rows and of the columns.  Two slices: a block; otherwise a line of cells along
    the rows or along the columns, or one cell *)
Inductive shape := Block | Along_columns | Along_rows | Cell.
Inductive designates (df : frame A) : index -> shape -> list nat -> list nat -> Prop :=
| d_block a b rp cp : slice_positions a (length (f_rownames df)) = Some rp -> slice_positions b (length (f_colnames df)) = Some cp ->
    designates df (Pair (KSlice a) (KSlice b)) Block rp cp
| d_col a c rp j : slice_positions a (length (f_rownames df)) = Some rp -> index_of c (f_colnames df) = Some j ->
    designates df (Pair (KSlice a) (KName c)) Along_rows rp [j]
| d_row r b i cp : index_of r (f_rownames df) = Some i -> slice_positions b (length (f_colnames df)) = Some cp ->
    designates df (Pair (KName r) (KSlice b)) Along_columns [i] cp
| d_cell r c i j : index_of r (f_rownames df) = Some i -> index_of c (f_colnames df) = Some j ->
    designates df (Pair (KName r) (KName c)) Cell [i] [j]
| d_name_row n i : index_of n (f_rownames df) = Some i ->
    designates df (Single n) Along_columns [i] (seq 0 (length (f_colnames df)))
| d_name_col n j : ~ In n (f_rownames df) -> index_of n (f_colnames df) = Some j ->
    designates df (Single n) Along_rows (seq 0 (length (f_rownames df))) [j].
(** the value fits what is designated; the entry that goes to its row a and column b *)
Definition fits (s : shape) (v : value A) (nr nc : nat) : Prop :=
  match s with Block => fits_block v nr nc | Along_columns => fits_line v nc | Along_rows => fits_line v nr
             | Cell => match v with VScalar _ => True | _ => False end end.
Definition entry (s : shape) (v : value A) (a b : nat) : option A :=
  match s with Block => entry_block v a b | Along_columns => entry_line v b | Along_rows => entry_line v a
             | Cell => match v with VScalar x => Some x | _ => None end end.
Lemma index_of_none n l : index_of n l = None <-> ~ In n l.
Proof.
  induction l as [| x l IH]; cbn; [tauto |]. destruct (String.eqb_spec x n) as [-> | ne].
  - split; [discriminate | intros h; exfalso; apply h; auto].
  - destruct (index_of n l); [split; [discriminate |]; intros h; exfalso; destruct IH as [_ IH]; assert (Some n0 = None) by (apply IH; tauto); discriminate |].
    split; auto. intros _ [h | h]; auto. revert h. apply IH. reflexivity.
Qed.
Lemma nodup1 (i : nat) : NoDup [i].
Proof. constructor; [intros [] | constructor]. Qed.

Lemma setitem_line df rows rp cp s v : wf_frame A df rows -> wf_value v -> NoDup rp -> NoDup cp ->
  (forall i, In i rp -> (i < length (f_rownames df))%nat) -> (forall j, In j cp -> (j < length (f_colnames df))%nat) ->
  forall o, (match o with Some m => fits s v (length rp) (length cp) /\ good m (length rp) (length cp) (entry s v) | None => ~ fits s v (length rp) (length cp) end) ->
  (fits s v (length rp) (length cp) -> exists rows', put df rows rp cp o = (mkFrame (D2 rows') (f_colnames df) (f_rownames df), true) /\
     wf_frame A (mkFrame (D2 rows') (f_colnames df) (f_rownames df)) rows' /\
     (forall a b i j, nth_error rp a = Some i -> nth_error cp b = Some j -> sub_elt rows' i j = entry s v a b) /\
     (forall i j, ~ (In i rp /\ In j cp) -> sub_elt rows' i j = sub_elt rows i j)) /\
  (~ fits s v (length rp) (length cp) -> put df rows rp cp o = (df, false)).
Proof.
  intros W V Nr Nc Rr Rc o H. destruct o as [m |].
  - destruct H as [f g]. split; [intros _; apply put_spec; auto | tauto].
  - split; [tauto | reflexivity].
Qed.
Lemma setitem_spec df rows k s rp cp v : wf_frame A df rows -> wf_value v -> designates df k s rp cp ->
  (fits s v (length rp) (length cp) -> exists rows', setitem df k v = (mkFrame (D2 rows') (f_colnames df) (f_rownames df), true) /\
     wf_frame A (mkFrame (D2 rows') (f_colnames df) (f_rownames df)) rows' /\
     (forall a b i j, nth_error rp a = Some i -> nth_error cp b = Some j -> sub_elt rows' i j = entry s v a b) /\
     (forall i j, ~ (In i rp /\ In j cp) -> sub_elt rows' i j = sub_elt rows i j)) /\
  (~ fits s v (length rp) (length cp) -> setitem df k v = (df, false)).
Proof.
  intros W V D. assert (Wc := wf_ncols _ _ _ W). assert (W0 := W). destruct W as (Hd & Hn & Hl & F). unfold setitem. rewrite Hd, Wc, Hl.
  assert (one : forall j l n, index_of n l = Some j -> forall i, In i [j] -> (i < length l)%nat).
  { intros j l n E i [<- | []]. eapply index_of_range; eauto. }
  assert (sq : forall n i, In i (seq 0 n) -> (i < n)%nat) by (intros n i Hi; apply in_seq in Hi; lia).
  destruct D as [a b rp cp E1 E2 | a c rp j E1 E2 | r b i cp E1 E2 | r c i j E1 E2 | n i E1 | n j E1 E2].
  - rewrite E1, E2. apply setitem_line; eauto using slice_nodup, slice_range. apply bcast2_spec; auto.
  - rewrite E1, E2. apply setitem_line; eauto using slice_nodup, slice_range, nodup1. cbn [length].
    assert (B := bcast1_spec (length rp) v V). destruct (bcast1 (length rp) v) as [l |]; cbn [one_col fits entry]; [| exact B].
    destruct B as (f & L & N). split; [exact f |]. apply good_col; auto.
  - rewrite E1, E2. apply setitem_line; eauto using slice_nodup, slice_range, nodup1. cbn [length].
    assert (B := bcast1_spec (length cp) v V). destruct (bcast1 (length cp) v) as [l |]; cbn [one_row fits entry]; [| exact B].
    destruct B as (f & L & N). split; [exact f |]. apply good_row; auto.
  - rewrite E1, E2. destruct v as [x | l | w rows0]; cbn [fits]; [| split; tauto | split; tauto].
    change (put df rows [i] [j] (Some [[x]])) with (put df rows [i] [j] (Some [[x]])).
    apply (setitem_line df rows [i] [j] Cell (VScalar x) W0 V); eauto using nodup1. cbn. split; auto. split; [reflexivity |].
    split; [repeat constructor |]. intros a b ha hb. replace a with 0%nat by lia. replace b with 0%nat by lia. reflexivity.
  - rewrite E1. apply setitem_line; eauto using nodup1, seq_NoDup. rewrite seq_length. cbn [length].
    assert (B := bcast1_spec (length (f_colnames df)) v V). destruct (bcast1 _ v) as [l |]; cbn [one_row fits entry]; [| exact B].
    destruct B as (f & L & N). split; [exact f |]. apply good_row; auto.
  - apply index_of_none in E1. rewrite E1, E2. apply setitem_line; eauto using nodup1, seq_NoDup. rewrite seq_length. cbn [length].
    assert (B := bcast1_spec (length (f_rownames df)) v V). destruct (bcast1 _ v) as [l |]; cbn [one_col fits entry]; [| exact B].
    destruct B as (f & L & N). split; [exact f |]. apply good_col; auto.
Qed.
Lemma no_target df rows k v : wf_frame A df rows -> (forall s rp cp, ~ designates df k s rp cp) -> setitem df k v = (df, false).
Proof.
  intros W D. assert (Wc := wf_ncols _ _ _ W). destruct W as (Hd & Hn & Hl & F). unfold setitem. rewrite Hd, Wc, Hl.
  destruct k as [[a | r] [b | c] | n].
  - destruct (slice_positions a _) as [rp |] eqn:E1; auto. destruct (slice_positions b _) as [cp |] eqn:E2; auto. exfalso. eapply D. apply d_block; eauto.
  - destruct (slice_positions a _) as [rp |] eqn:E1; auto. destruct (index_of c _) as [j |] eqn:E2; auto. exfalso. eapply D. apply d_col; eauto.
  - destruct (index_of r _) as [i |] eqn:E1; auto. destruct (slice_positions b _) as [cp |] eqn:E2; auto. exfalso. eapply D. apply d_row; eauto.
  - destruct (index_of r _) as [i |] eqn:E1; auto. destruct (index_of c _) as [j |] eqn:E2; auto. exfalso. eapply D. apply d_cell; eauto.
  - destruct (index_of n (f_rownames df)) as [i |] eqn:E1; [exfalso; eapply D; apply d_name_row; eauto |].
    destruct (index_of n (f_colnames df)) as [j |] eqn:E2; auto. exfalso. eapply D. apply d_name_col; eauto. apply index_of_none. exact E1.
Qed.
End S.

(** exactly the designated cells change, each to its entry of the value; labels and shape are kept; a value that does not fit, a key
    that designates nothing (unknown label, slice of step 0) and one-dimensional data raise and change nothing *)
Theorem C106_assign : forall A (df : frame A) rows k s rp cp v, wf_frame A df rows -> wf_value v -> designates df k s rp cp ->
  (fits s v (length rp) (length cp) -> exists rows', setitem df k v = (mkFrame (D2 rows') (f_colnames df) (f_rownames df), true) /\
     wf_frame A (mkFrame (D2 rows') (f_colnames df) (f_rownames df)) rows' /\
     (forall a b i j, nth_error rp a = Some i -> nth_error cp b = Some j -> sub_elt rows' i j = entry s v a b) /\
     (forall i j, ~ (In i rp /\ In j cp) -> sub_elt rows' i j = sub_elt rows i j)) /\
  (~ fits s v (length rp) (length cp) -> setitem df k v = (df, false)).
Proof. intros A. exact setitem_spec. Qed.
Print Assumptions C106_assign.
Theorem C106_rejected : forall A (df : frame A) k v,
  (forall rows, wf_frame A df rows -> (forall s rp cp, ~ designates df k s rp cp) -> setitem df k v = (df, false)) /\
  (forall d, f_data df = D1 d -> setitem df k v = (df, false)).
Proof. intros A df k v. split; [intros rows W D; eapply no_target; eauto | intros d E; unfold setitem; rewrite E; reflexivity]. Qed.
Print Assumptions C106_rejected.
(** labels that do not match the data (more labels than rows or columns): a label whose position is beyond the data raises and changes
    nothing *)
Theorem C106_stale_labels : forall A (df : frame A) rows n i v, f_data df = D2 rows ->
  (index_of n (f_rownames df) = Some i -> (length rows <= i)%nat ->
     setitem df (Single n) v = (df, false) /\ forall k, setitem df (Pair (KName n) k) v = (df, false)) /\
  (index_of n (f_colnames df) = Some i -> (ncols rows <= i)%nat ->
     (forall k, setitem df (Pair k (KName n)) v = (df, false)) /\ (~ In n (f_rownames df) -> setitem df (Single n) v = (df, false))).
Proof.
  assert (R1 : forall A (df : frame A) rows i cp m, (length rows <= i)%nat -> put df rows [i] cp m = (df, false)).
  { intros A df rows i cp m h. unfold put. destruct m; auto. cbn [forallb]. destruct (Nat.ltb_spec i (length rows)); [lia | reflexivity]. }
  assert (R2 : forall A (df : frame A) rows rp j m, (ncols rows <= j)%nat -> put df rows rp [j] m = (df, false)).
  { intros A df rows rp j m h. unfold put. destruct m; auto. cbn [forallb]. destruct (Nat.ltb_spec j (ncols rows)); [lia |]. rewrite andb_false_r. reflexivity. }
  intros A df rows n i v E. unfold setitem. rewrite E. split; intros Ei L; split.
  - rewrite Ei. auto.
  - intros [s | c]; rewrite Ei; [destruct (slice_positions s _); auto |]. destruct (index_of c _); auto. destruct v; auto.
  - intros [s | c]; rewrite Ei; [destruct (slice_positions s _); auto |]. destruct (index_of c _); auto. destruct v; auto.
  - intros N. apply index_of_none in N. rewrite N, Ei. auto.
Qed.
Print Assumptions C106_stale_labels.
(** assigning and reading back the same block *)
Theorem C106_read_back : forall A (df : frame A) rows x y rp cp v, wf_frame A df rows -> wf_value v ->
  slice_positions x (length (f_rownames df)) = Some rp -> slice_positions y (length (f_colnames df)) = Some cp ->
  fits_block v (length rp) (length cp) ->
  exists df' back d, setitem df (Pair (KSlice x) (KSlice y)) v = (df', true) /\
    getitem df' (Pair (KSlice x) (KSlice y)) = Some (inr back) /\ f_data back = D2 d /\ length d = length rp /\
    forall a b, (a < length rp)%nat -> (b < length cp)%nat -> sub_elt d a b = entry_block v a b.
Proof.
  intros A df rows x y rp cp v W V E1 E2 Fi. destruct (setitem_spec df rows _ _ _ _ v W V (d_block df x y rp cp E1 E2)) as [G _].
  destruct (G Fi) as (rows' & Es & W' & H1 & _). eexists. 
  destruct (getitem_slices A _ rows' x y rp cp W' E1 E2) as (d & rn & cn & back & _ & _ & Eg & Ed & Ld & Hd & _).
  exists back, d. split; [exact Es |]. split; [exact Eg |]. split; [exact Ed |]. split; [exact Ld |].
  intros a b ha hb. destruct (nth_error rp a) as [i |] eqn:Ea; [| apply nth_error_None in Ea; lia].
  destruct (nth_error cp b) as [j |] eqn:Eb; [| apply nth_error_None in Eb; lia]. rewrite (Hd a b i j Ea Eb). apply (H1 a b i j Ea Eb).
Qed.
Print Assumptions C106_read_back.
(** rows reversed, last two columns; a column vector; a name that labels a row and a column *)
Example C106_case : let df := mkFrame (D2 [[1; 2; 3]; [4; 5; 6]]) ["a"; "b"; "x"] ["x"; "y"] in
  wf_frame nat df [[1; 2; 3]; [4; 5; 6]] /\
  fst (setitem df (Pair (KSlice (mkSlice None None (Some (-1)%Z))) (KSlice (mkSlice (Some 1%Z) None None))) (V2 1 [[7]; [8]]))
    = mkFrame (D2 [[1; 8; 8]; [4; 7; 7]]) ["a"; "b"; "x"] ["x"; "y"] /\
  fst (setitem df (Single "x") (V1 [0; 0; 9])) = mkFrame (D2 [[0; 0; 9]; [4; 5; 6]]) ["a"; "b"; "x"] ["x"; "y"] /\
  setitem df (Single "b") (V1 [1; 2; 3]) = (df, false).
Proof. repeat split; try reflexivity; try discriminate. repeat constructor. Qed.
Example C106_stale_labels_case : let df := mkFrame (D2 [[1; 2]]) ["a"; "b"; "c"] ["x"; "y"] in
  setitem df (Single "y") (VScalar 0) = (df, false) /\ setitem df (Single "c") (VScalar 0) = (df, false) /\
  fst (setitem df (Single "b") (VScalar 0)) = mkFrame (D2 [[1; 0]]) ["a"; "b"; "c"] ["x"; "y"].
Proof. repeat split; reflexivity. Qed.
