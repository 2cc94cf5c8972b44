(** Further theorems for C73 (misc/dataframe.py: append_row, append_col, concat): the cells, label by label,
    and for C17 (config.py): the effect of the setters on every attribute. *)
From Coq Require Import String List Arith Lia.
From Verif Require Import DataModel ParamModel ParamProofs FrameModel FrameProofs ConfigModel ConfigProofs.
Import ListNotations.
Local Open Scope string_scope.
Local Open Scope list_scope.

(** the cell in row i and column j, with the labels written beside it and above it *)
Definition labelled {A} (s : store) (df : hframe A) (i j : nat) (rl cl : string) (v : A) : Prop :=
  nth_error (sget s (h_rows_at df)) i = Some rl /\ nth_error (sget s (h_cols_at df)) j = Some cl /\
  exists r, nth_error (h_rows df) i = Some r /\ nth_error r j = Some v.

Lemma nth_error_snoc_old {B} (l : list B) x i y : nth_error l i = Some y -> nth_error (l ++ [x]) i = Some y.
Proof. intro h. rewrite nth_error_app1; [exact h | apply nth_error_Some; congruence]. Qed.
Lemma nth_error_snoc_new {B} (l : list B) x : nth_error (l ++ [x]) (length l) = Some x.
Proof. rewrite nth_error_app2, Nat.sub_diag by lia. reflexivity. Qed.
Lemma nth_error_zip {B C D} (f : B -> C -> D) l m i x y : nth_error l i = Some x -> nth_error m i = Some y -> nth_error (zip_with f l m) i = Some (f x y).
Proof.
  revert m i. induction l as [| a l IH]; intros [| b m] [| i] h1 h2; try discriminate; cbn in *; [congruence | now apply IH].
Qed.

(** appending a row keeps every labelled cell, and puts the new cells under the new label, in column order *)
Theorem C73_append_row : forall A s (df : hframe A) row name, wf_h A s df ->
  (length row <> length (sget s (h_cols_at df)) -> append_row (length (sget s (h_cols_at df))) s df row name = None) /\
  (length row = length (sget s (h_cols_at df)) -> exists s' df', append_row (length (sget s (h_cols_at df))) s df row name = Some (s', df') /\ wf_h A s' df' /\
     length (h_rows df') = S (length (h_rows df)) /\
     (forall i j rl cl v, labelled s df i j rl cl v -> labelled s' df' i j rl cl v) /\
     (forall j cl v, nth_error (sget s (h_cols_at df)) j = Some cl -> nth_error row j = Some v -> labelled s' df' (length (h_rows df)) j name cl v)).
Proof.
  intros A s df row name (A1 & A2 & A3 & A4 & A5). unfold append_row. split; [intro h; apply Nat.eqb_neq in h; now rewrite h |].
  intro L. rewrite L, Nat.eqb_refl. eexists _, _. split; [reflexivity |].
  assert (ne : Nat.eqb (h_cols_at df) (h_rows_at df) = false) by now apply Nat.eqb_neq.
  unfold wf_h, labelled; cbn [h_rows h_cols_at h_rows_at]. rewrite upd_length, !sget_upd, Nat.eqb_refl, ne by auto.
  split; [| split; [rewrite app_length; cbn; lia | split]].
  - repeat split; auto; [rewrite !app_length; cbn; lia |]. apply Forall_app; split; auto.
  - intros i j rl cl v (h1 & h2 & r & h3 & h4). repeat split; [now apply nth_error_snoc_old | exact h2 |]. exists r. split; [now apply nth_error_snoc_old | exact h4].
  - intros j cl v h1 h2. repeat split; [rewrite A4; apply nth_error_snoc_new | exact h1 |]. exists row. split; [apply nth_error_snoc_new | exact h2].
Qed.
Print Assumptions C73_append_row.

(** likewise for a column *)
Theorem C73_append_col_cells : forall A s (df : hframe A) col name, wf_h A s df ->
  (length col <> length (h_rows df) -> append_col s df col name = None) /\
  (forall s' df', append_col s df col name = Some (s', df') ->
     length (h_rows df') = length (h_rows df) /\
     (forall i j rl cl v, labelled s df i j rl cl v -> labelled s' df' i j rl cl v) /\
     (forall i rl v, nth_error (sget s (h_rows_at df)) i = Some rl -> nth_error col i = Some v -> labelled s' df' i (length (sget s (h_cols_at df))) rl name v)).
Proof.
  intros A s df col name (A1 & A2 & A3 & A4 & A5). unfold append_col. split; [intro h; apply Nat.eqb_neq in h; now rewrite h |].
  intros s' df'. destruct (Nat.eqb_spec (length col) (length (h_rows df))) as [L |]; [| discriminate]. intro e. injection e as <- <-.
  assert (ne : Nat.eqb (h_rows_at df) (h_cols_at df) = false) by (apply Nat.eqb_neq; congruence).
  unfold labelled; cbn [h_rows h_cols_at h_rows_at]. rewrite !sget_upd, Nat.eqb_refl, ne by auto.
  split; [now rewrite zip_with_length by auto | split].
  - intros i j rl cl v (h1 & h2 & r & h3 & h4). repeat split; [exact h1 | now apply nth_error_snoc_old |].
    destruct (nth_error col i) as [x |] eqn:ex; [| apply nth_error_None in ex; assert (i < length (h_rows df)) by (apply nth_error_Some; congruence); lia].
    exists (r ++ [x]). split; [now apply (nth_error_zip (fun r x => r ++ [x])) | now apply nth_error_snoc_old].
  - intros i rl v h1 h2. repeat split; [exact h1 | apply nth_error_snoc_new |].
    destruct (nth_error (h_rows df) i) as [r |] eqn:er; [| apply nth_error_None in er; assert (i < length col) by (apply nth_error_Some; congruence); lia].
    exists (r ++ [v]). split; [now apply (nth_error_zip (fun r x => r ++ [x])) |].
    assert (w : length r = length (sget s (h_cols_at df))) by (rewrite Forall_forall in A5; apply A5; eapply nth_error_In; eauto). rewrite <- w. apply nth_error_snoc_new.
Qed.
Print Assumptions C73_append_col_cells.

(** concatenation side by side: the cells of both operands under their own labels, in order *)
Theorem C73_concat_cols : forall A s (df other : hframe A), wf_h A s df -> wf_h A s other ->
  (sget s (h_rows_at df) <> sget s (h_rows_at other) -> concat1 s df other = None) /\
  (sget s (h_rows_at df) = sget s (h_rows_at other) ->
   exists s' res, concat1 s df other = Some (s', res) /\ wf_h A s' res /\ wf_h A s' df /\ wf_h A s' other /\
    length (h_rows res) = length (h_rows df) /\
    (forall i j rl cl v, labelled s df i j rl cl v -> labelled s' res i j rl cl v) /\
    (forall i j rl cl v, labelled s other i j rl cl v -> labelled s' res i (length (sget s (h_cols_at df)) + j) rl cl v)).
Proof.
  intros A s df other (A1 & A2 & A3 & A4 & A5) (B1 & B2 & B3 & B4 & B5). unfold concat1. split.
  { intros Hn. destruct (names_eqb _ _) eqn:Eb; auto. apply names_eqb_eq in Eb. contradiction. }
  intros E. apply names_eqb_eq in E as Eb. rewrite Eb. eexists _, _. split; [reflexivity |].
  assert (Q : forall (f : hframe A), (h_cols_at f < length s)%nat -> (h_rows_at f < length s)%nat ->
     h_cols_at f <> h_rows_at f -> length (h_rows f) = length (sget s (h_rows_at f)) ->
     Forall (fun r => length r = length (sget s (h_cols_at f))) (h_rows f) -> forall t, wf_h A (s ++ [t]) f).
  { intros f F1 F2 F3 F4 F5 t. unfold wf_h. rewrite app_length, !sget_app_l by auto. repeat split; auto; lia. }
  assert (LL : length (h_rows df) = length (h_rows other)) by (rewrite A4, B4, E; reflexivity).
  assert (widths : forall i r, nth_error (h_rows df) i = Some r -> length r = length (sget s (h_cols_at df))) by (intros i r h; rewrite Forall_forall in A5; apply A5; eapply nth_error_In; eauto).
  split; [| split; [apply Q; auto | split; [apply Q; auto | split; [cbn [h_rows]; now rewrite zip_with_length by auto | split]]]].
  - unfold wf_h; cbn [h_rows h_cols_at h_rows_at]. rewrite !app_length, sget_new, sget_app_l by auto. cbn [length].
    repeat split; try lia; [rewrite zip_with_length by auto; lia |].
    rewrite app_length. clear - A5 B5 LL. revert A5 B5 LL. generalize (h_rows df) (h_rows other) (length (sget s (h_cols_at df))) (length (sget s (h_cols_at other))).
    intros l m a b F. revert m. induction F; intros m G LL; destruct m as [| y m]; try discriminate; cbn; constructor; inversion G; subst; [rewrite app_length; lia | apply IHF; auto].
  - intros i j rl cl v (h1 & h2 & r & h3 & h4). unfold labelled; cbn [h_rows h_cols_at h_rows_at]. rewrite sget_new, sget_app_l by auto. repeat split; [exact h1 | |].
    + rewrite nth_error_app1; [exact h2 | apply nth_error_Some; congruence].
    + destruct (nth_error (h_rows other) i) as [x |] eqn:ex; [| apply nth_error_None in ex; assert (i < length (h_rows df)) by (apply nth_error_Some; congruence); lia].
      exists (r ++ x). split; [now apply (nth_error_zip (fun a b => a ++ b)) | rewrite nth_error_app1; [exact h4 | apply nth_error_Some; congruence]].
  - intros i j rl cl v (h1 & h2 & r & h3 & h4). unfold labelled; cbn [h_rows h_cols_at h_rows_at]. rewrite sget_new, sget_app_l by auto. repeat split; [now rewrite E | |].
    + rewrite nth_error_app2 by lia. replace (_ + j - _) with j by lia. exact h2.
    + destruct (nth_error (h_rows df) i) as [x |] eqn:ex; [| apply nth_error_None in ex; assert (i < length (h_rows other)) by (apply nth_error_Some; congruence); lia].
      exists (x ++ r). split; [now apply (nth_error_zip (fun a b => a ++ b)) |]. rewrite nth_error_app2 by (rewrite (widths _ _ ex); lia). rewrite (widths _ _ ex). replace (_ + j - _) with j by lia. exact h4.
Qed.
Print Assumptions C73_concat_cols.

(** appending a row to a horizontal concatenation gives its first operand one row label too many *)
Theorem C73_append_row_after_concat : forall A s (df other : hframe A) s1 res row name s2 res2 w,
  wf_h A s df -> wf_h A s other -> concat1 s df other = Some (s1, res) -> append_row w s1 res row name = Some (s2, res2) ->
  ~ wf_h A s2 df /\ sget s2 (h_rows_at df) = sget s (h_rows_at df) ++ [name].
Proof.
  intros A s df other s1 res row name s2 res2 w (A1 & A2 & A3 & A4 & A5) W2 e1 e2. unfold concat1 in e1. destruct (names_eqb _ _); [| discriminate]. injection e1 as <- <-.
  unfold append_row in e2. destruct (Nat.eqb _ _); [| discriminate]. injection e2 as <- <-. cbn [h_rows h_cols_at h_rows_at].
  assert (e : sget (upd (s ++ [sget s (h_cols_at df) ++ sget s (h_cols_at other)]) (h_rows_at df) (sget (s ++ [sget s (h_cols_at df) ++ sget s (h_cols_at other)]) (h_rows_at df) ++ [name])) (h_rows_at df) = sget s (h_rows_at df) ++ [name]).
  { rewrite sget_upd, Nat.eqb_refl by (rewrite app_length; cbn; lia). now rewrite sget_app_l. }
  split; [| exact e]. intros (_ & _ & _ & H & _). rewrite e, app_length, A4 in H. cbn in H. lia.
Qed.
Print Assumptions C73_append_row_after_concat.

Example C73_append_row_ex : exists s' df', append_row 2 [["a"; "b"]; ["x"]] (mkHF [[1; 2]] 0 1) [3; 4] "y" = Some (s', df') /\
  labelled s' df' 0 1 "x" "b" 2 /\ labelled s' df' 1 0 "y" "a" 3 /\ wf_h nat s' df'.
Proof.
  eexists _, _. split; [reflexivity |]. unfold labelled, wf_h; cbn. repeat split; auto; try (eexists; split; reflexivity); try lia.
Qed.
Example C73_concat_cols_ex : exists s' res, concat1 [["a"]; ["x"]; ["b"]; ["x"]] (mkHF [[1]] 0 1) (mkHF [[2]] 2 3) = Some (s', res) /\
  labelled s' res 0 1 "x" "b" 2 /\ exists s2 res2, append_row 2 s' res [5; 6] "y" = Some (s2, res2) /\ sget s2 1 = ["x"; "y"].
Proof. eexists _, _. split; [reflexivity |]. split; [repeat split; eexists; split; reflexivity |]. eexists _, _. split; reflexivity. Qed.

(** * C17: what each setter changes, attribute by attribute.  A change of dtype invalidates the resolved dtype object;
    changes of backend and device do not. *)
Theorem C17_set_dtype : forall c v,
  (normalize_dtype_spec v = None -> set_dtype c v = (c, false)) /\
  (forall d, normalize_dtype_spec v = Some d -> exists c', set_dtype c v = (c', true) /\
     c_dtype c' = d /\ c_dtype_resolved c' = VNone /\ env_dtype c' = Some d /\
     c_backend c' = c_backend c /\ c_device c' = c_device c /\ c_others c' = c_others c /\ env_backend c' = env_backend c).
Proof.
  intros c v. unfold set_dtype. split; [intros ->; reflexivity |]. intros d ->. eexists. split; [reflexivity |]. repeat split.
Qed.
Print Assumptions C17_set_dtype.
Theorem C17_set_backend : forall c v,
  (normalize_backend_spec v = None -> set_backend c v = (c, false)) /\
  (forall b, normalize_backend_spec v = Some (Some b) -> exists c', set_backend c v = (c', true) /\
     c_backend c' = Some b /\ env_backend c' = Some b /\ c_dtype c' = c_dtype c /\ c_dtype_resolved c' = c_dtype_resolved c /\
     c_device c' = c_device c /\ c_others c' = c_others c /\ env_dtype c' = env_dtype c /\
     forall tf, get_backend tf c' = (c', Some (Some b))).
Proof.
  intros c v. unfold set_backend. split; [intros ->; reflexivity |]. intros b ->. eexists. split; [reflexivity |]. repeat split.
Qed.
Print Assumptions C17_set_backend.
Example C17_setters_ex : exists c1 c2,
  set_dtype (mkConfig (Some "numpy") "float64" (VStr "obj") (VStr "cpu") [] (Some "numpy") None) (VStr "float32") = (c1, false) /\
  set_dtype (mkConfig (Some "numpy") "float64" (VStr "obj") (VStr "cpu") [] (Some "numpy") None) (VStr "float64") = (c2, true) /\
  c_dtype_resolved c2 = VNone.
Proof. eexists _, _. repeat split; reflexivity. Qed.
