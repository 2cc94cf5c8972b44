(** Property theorems C15, C16, C17, C18, C73 (misc/dataframe.py, num/shared.py, config.py,
    kernel/prior_defaults.py). *)
From Coq Require Import String Ascii List Arith ZArith Reals Lra Lia Bool.
From Verif Require Import DataModel ParamModel ParamProofs FrameModel FrameProofs ConfigModel ConfigProofs.
Import ListNotations.
Local Open Scope string_scope.

Definition demo_f : frame nat :=
  mkFrame (D2 [[1; 2; 3]; [4; 5; 6]]) ["a"; "b"; "c"] ["x"; "y"].
Example demo_f_wf : wf_frame nat demo_f [[1; 2; 3]; [4; 5; 6]].
Proof. split; [reflexivity|]. split; [discriminate|]. split; [reflexivity|]. repeat constructor. Qed.

(** C15: slicing rows and columns selects the right data but exchanges the two label lists; the
    labels are right exactly when both selections of labels are the same list; selecting
    everything again exchanges them back. *)
Theorem C15_slice_labels : forall A (df : frame A) rows a b rp cp, wf_frame A df rows ->
  slice_positions a (length (f_rownames df)) = Some rp ->
  slice_positions b (length (f_colnames df)) = Some cp ->
  exists d rn cn df', take (f_rownames df) rp = Some rn /\ take (f_colnames df) cp = Some cn /\
    getitem df (Pair (KSlice a) (KSlice b)) = Some (inr df') /\
    f_data df' = D2 d /\ length d = length rp /\
    (forall i j ri cj, nth_error rp i = Some ri -> nth_error cp j = Some cj ->
       sub_elt d i j = sub_elt rows ri cj) /\
    f_colnames df' = rn /\ f_rownames df' = cn /\
    ((f_rownames df' = rn /\ f_colnames df' = cn) <-> rn = cn) /\
    getitem df' (Pair (KSlice full_slice) (KSlice full_slice)) = Some (inr (mkFrame (D2 d) cn rn)).
Proof. exact getitem_slices. Qed.
Print Assumptions C15_slice_labels.
Example C15_slice_case :
  getitem demo_f (Pair (KSlice (mkSlice None None (Some (-1)%Z))) (KSlice (mkSlice (Some 1%Z) None None))) =
  Some (inr (mkFrame (D2 [[5; 6]; [2; 3]]) ["y"; "x"] ["b"; "c"])).
Proof. reflexivity. Qed.

Theorem C15_slice_positions_in_range : forall s n ps, slice_positions s n = Some ps ->
  forall i, In i ps -> (i < n)%nat.
Proof. exact slice_range. Qed.
Print Assumptions C15_slice_positions_in_range.
Example C15_slice_positions_case :
  slice_positions (mkSlice (Some (-1)%Z) None (Some (-2)%Z)) 5 = Some [4; 2; 0].
Proof. reflexivity. Qed.

(** one row or one column: one-dimensional data, labels exchanged, no further indexing possible *)
Theorem C15_row_or_column : forall A (df : frame A) rows, wf_frame A df rows ->
  (forall b cp i r, index_of r (f_rownames df) = Some i -> slice_positions b (length (f_colnames df)) = Some cp ->
    exists d cn, take (f_colnames df) cp = Some cn /\ sub_row rows i cp = Some d /\
    getitem df (Pair (KName r) (KSlice b)) = Some (inr (mkFrame (D1 d) [r] cn))) /\
  (forall a rp j c, index_of c (f_colnames df) = Some j -> slice_positions a (length (f_rownames df)) = Some rp ->
    exists d rn, take (f_rownames df) rp = Some rn /\ sub_col rows rp j = Some d /\
    getitem df (Pair (KSlice a) (KName c)) = Some (inr (mkFrame (D1 d) rn [c]))) /\
  (forall (df' : frame A) v k, f_data df' = D1 v -> getitem df' k = None).
Proof.
exact (fun A df rows w => conj (fun b cp i r => getitem_row A df rows b cp i r w)
  (conj (fun a rp j c => getitem_col A df rows a rp j c w) (getitem_flat A))).
Qed.
Print Assumptions C15_row_or_column.
Example C15_row_case : getitem demo_f (Single "y") = Some (inr (mkFrame (D1 [4; 5; 6]) ["y"] ["a"; "b"; "c"])).
Proof. reflexivity. Qed.

(** a single cell addressed by two labels is the right cell *)
Theorem C15_cell : forall A (df : frame A) rows i j r c, wf_frame A df rows ->
  NoDup (f_rownames df) -> NoDup (f_colnames df) ->
  nth_error (f_rownames df) i = Some r -> nth_error (f_colnames df) j = Some c ->
  exists v, getitem df (Pair (KName r) (KName c)) = Some (inl v) /\ sub_elt rows i j = Some v.
Proof. exact getitem_cell. Qed.
Print Assumptions C15_cell.
Example C15_cell_case : getitem demo_f (Pair (KName "y") (KName "b")) = Some (inl 5) /\
  NoDup (f_rownames demo_f) /\ NoDup (f_colnames demo_f).
Proof. repeat split; repeat constructor; simpl; intuition discriminate. Qed.

Theorem C15_set_cell : forall A (df : frame A) rows i j r c v, wf_frame A df rows ->
  index_of r (f_rownames df) = Some i -> index_of c (f_colnames df) = Some j ->
  exists rows', set_elt df r c v = (mkFrame (D2 rows') (f_colnames df) (f_rownames df), true) /\
    (forall i' j', sub_elt rows' i' j' = if Nat.eqb i' i && Nat.eqb j' j then Some v else sub_elt rows i' j') /\
    getitem (fst (set_elt df r c v)) (Pair (KName r) (KName c)) = Some (inl v).
Proof. exact set_elt_spec. Qed.
Print Assumptions C15_set_cell.
Example C15_set_cell_case : fst (set_elt demo_f "x" "c" 9) = mkFrame (D2 [[1; 2; 9]; [4; 5; 6]]) ["a"; "b"; "c"] ["x"; "y"].
Proof. reflexivity. Qed.

(** C73: concatenation is right, and appending is right for the table it is applied to, ... *)
Theorem C73_concat_rows : forall A s (df other : hframe A), wf_h A s df -> wf_h A s other ->
  (sget s (h_cols_at df) = sget s (h_cols_at other) ->
   exists s' res, concat0 s df other = Some (s', res) /\ wf_h A s' res /\
    h_rows res = (h_rows df ++ h_rows other)%list /\
    sget s' (h_rows_at res) = (sget s (h_rows_at df) ++ sget s (h_rows_at other))%list /\
    sget s' (h_cols_at res) = sget s (h_cols_at df) /\ wf_h A s' df /\ wf_h A s' other) /\
  (sget s (h_cols_at df) <> sget s (h_cols_at other) -> concat0 s df other = None).
Proof. exact concat0_spec. Qed.
Print Assumptions C73_concat_rows.

Theorem C73_append_col : forall A s (df : hframe A) col name, wf_h A s df -> length col = length (h_rows df) ->
  exists s' df', append_col s df col name = Some (s', df') /\ wf_h A s' df' /\
    sget s' (h_cols_at df') = (sget s (h_cols_at df) ++ [name])%list /\
    sget s' (h_rows_at df') = sget s (h_rows_at df).
Proof. exact append_col_ok. Qed.
Print Assumptions C73_append_col.

(** ... but appending a column to a concatenation always breaks its first operand, which then has
    one column label too many. *)
Theorem C73_append_after_concat : forall A s (df other : hframe A) s1 res col name s2 res2,
  wf_h A s df -> wf_h A s other -> h_rows df <> [] ->
  concat0 s df other = Some (s1, res) -> append_col s1 res col name = Some (s2, res2) ->
  wf_h A s2 res2 /\ ~ wf_h A s2 df /\
  (h_cols_at other <> h_cols_at df -> h_rows_at other <> h_cols_at df -> wf_h A s2 other).
Proof. exact concat0_append_col. Qed.
Print Assumptions C73_append_after_concat.
Definition demo_store : store := [["a"]; ["x"]; ["a"]; ["y"]].
Example C73_case :
  let df := mkHF [[1]] 0 1 in let other := mkHF [[2]] 2 3 in
  wf_h nat demo_store df /\ wf_h nat demo_store other /\
  exists s1 res s2 res2, concat0 demo_store df other = Some (s1, res) /\
    append_col s1 res [7; 8] "b" = Some (s2, res2) /\ sget s2 0 = ["a"; "b"] /\ h_rows res2 = [[1; 7]; [2; 8]].
Proof.
cbv zeta. split; [|split]; [unfold wf_h; simpl; repeat split; auto; lia..|].
eexists _, _, _, _. repeat split; reflexivity.
Qed.

(** C16 *)
Theorem C16_cache_transparent : forall V (g : Z -> V) hist p, (-1 <= p)%Z ->
  let t := fst (compute_gammaln g (fold_left (cache_step g) hist None) p) in
  length t = Z.to_nat (2 * p + 2) /\
  forall k, (0 <= k < 2 * p + 2)%Z -> nth_error t (Z.to_nat k) = Some (g k).
Proof. exact (fun V g hist p h => conj (gammaln_length V g hist p h) (fun k => gammaln_entry V g hist p k h)). Qed.
Print Assumptions C16_cache_transparent.
Example C16_case : fst (compute_gammaln (fun z => z) (fold_left (cache_step (fun z => z))
  [Compute 3; ClearNamed "gammaln"; Compute 0; Compute 5; ClearNamed "other"] None) 1) = [0; 1; 2; 3]%Z.
Proof. reflexivity. Qed.

Theorem C16_kernel_reads_in_table : forall V (g : Z -> V) hist p i k, (0 <= i < p)%Z -> In k (matern_reads p i) ->
  nth_error (fst (compute_gammaln g (fold_left (cache_step g) hist None) p)) (Z.to_nat k) = Some (g k).
Proof. intros V g hist p i k H Hk. apply gammaln_entry; [lia|]. exact (matern_reads_in_range p i k H Hk). Qed.
Print Assumptions C16_kernel_reads_in_table.
Example C16_reads_case : (0 <= 1 < 2)%Z /\ In 4%Z (matern_reads 2 1).
Proof. split; [lia|]. simpl. tauto. Qed.

(** Below order -1 the cache is visible. *)
Theorem C16_negative_order_refuted : forall V (g : Z -> V),
  fst (compute_gammaln g None (-2)) = [] /\
  fst (compute_gammaln g (fold_left (cache_step g) [Compute 1] None) (-2)) = [g 0; g 1]%Z.
Proof. intros; split; reflexivity. Qed.
Print Assumptions C16_negative_order_refuted.

(** C17 *)
Definition kw0 := mkKw None None None None [].
Definition cfg0 : config := mkConfig (Some "numpy") "float64" VNone (VStr "cpu") [] (Some "numpy") (Some "float64").

(** Any history of calls, raising or not, keeps backend and dtype in their domains. *)
Theorem C17_always_legal : forall tf calls c, legal c ->
  legal (fold_left (fun c call => fst (config_step tf c call)) calls c).
Proof. exact history_legal. Qed.
Print Assumptions C17_always_legal.
Example C17_legal_case : legal cfg0.
Proof. split; [right; now left|reflexivity]. Qed.

Theorem C17_update_sets_exactly : forall c k c', update c k = (c', true) ->
  (kw_backend k = None /\ c_backend c' = c_backend c /\ env_backend c' = env_backend c \/
   (exists v b, kw_backend k = Some v /\ normalize_backend_spec v = Some b /\ c_backend c' = b /\
      env_backend c' = match b with None => env_backend c | Some _ => b end)) /\
  (kw_dtype k = None /\ c_dtype c' = c_dtype c /\ env_dtype c' = env_dtype c /\
     c_dtype_resolved c' = match kw_dtype_resolved k with None => c_dtype_resolved c | Some r => r end \/
   (exists v d, kw_dtype k = Some v /\ normalize_dtype_spec v = Some d /\ c_dtype c' = d /\
      env_dtype c' = Some d /\
      c_dtype_resolved c' = match kw_dtype_resolved k with None => VNone | Some r => r end)) /\
  c_device c' = match kw_device k with None => c_device c | Some d => d end /\
  c_others c' = (rev (kw_others k) ++ c_others c)%list.
Proof. exact update_ok. Qed.
Print Assumptions C17_update_sets_exactly.
Example C17_update_case : update cfg0 (mkKw (Some (VStr "Torch")) None None None [("seed", VStr "7")]) =
  (mkConfig (Some "torch") "float64" VNone (VStr "cpu") [("seed", VStr "7")] (Some "torch") (Some "float64"), true).
Proof. reflexivity. Qed.

Theorem C17_update_raises_iff : forall c k, snd (update c k) = false <->
  (exists v, kw_backend k = Some v /\ normalize_backend_spec v = None) \/
  (exists v, kw_dtype k = Some v /\ normalize_dtype_spec v = None).
Proof. exact update_raises. Qed.
Print Assumptions C17_update_raises_iff.

(** A failing update changes no attribute, but a valid backend has gone to the environment. *)
Theorem C17_failed_update : forall c k c', update c k = (c', false) ->
  c_backend c' = c_backend c /\ c_dtype c' = c_dtype c /\ c_dtype_resolved c' = c_dtype_resolved c /\
  c_device c' = c_device c /\ c_others c' = c_others c /\ env_dtype c' = env_dtype c /\
  env_backend c' = match kw_backend k with
    | Some v => match normalize_backend_spec v with Some (Some b) => Some b | _ => env_backend c end
    | None => env_backend c end.
Proof. exact update_failed. Qed.
Print Assumptions C17_failed_update.
Example C17_failed_case : exists c', update cfg0 (mkKw (Some (VStr "numpy")) (Some (VStr "float32")) None None []) = (c', false).
Proof. eexists; reflexivity. Qed.

(** Consequence: a raising call decides which backend is used later. *)
Theorem C17_failed_update_not_atomic : exists c k,
  snd (get_backend true c) = Some (Some "numpy") /\ snd (update c k) = false /\
  snd (get_backend true (fst (update c k))) = Some (Some "torch").
Proof.
exists (mkConfig None "float64" VNone (VStr "cpu") [] (Some "numpy") None),
  (mkKw (Some (VStr "torch")) (Some (VStr "float32")) None None []).
repeat split; reflexivity.
Qed.
Print Assumptions C17_failed_update_not_atomic.

(** The environment agrees with the chosen backend as long as no update call raised. *)
Theorem C17_environment_agrees : forall tf c call, synced c ->
  (forall k, call = CUpdate k -> snd (config_step tf c call) = true) ->
  synced (fst (config_step tf c call)).
Proof. exact step_synced. Qed.
Print Assumptions C17_environment_agrees.
Example C17_synced_case : synced cfg0. Proof. intros b [= <-]. reflexivity. Qed.

(** set_backend(None) raises after having unset the backend; if the environment agreed, the next
    get_backend restores it. *)
Theorem C17_set_backend_none : forall tf c, legal c ->
  snd (set_backend c VNone) = false /\ c_backend (fst (set_backend c VNone)) = None /\
  (forall b, c_backend c = Some b -> synced c ->
     snd (get_backend tf (fst (set_backend c VNone))) = Some (Some b)).
Proof. exact set_backend_none. Qed.
Print Assumptions C17_set_backend_none.

Theorem C17_get_backend_stable : forall tf c c' b, get_backend tf c = (c', Some b) ->
  get_backend tf c' = (c', Some b) /\ c_backend c' = b.
Proof. exact get_backend_idem. Qed.
Print Assumptions C17_get_backend_stable.
Example C17_get_backend_case : exists c', get_backend false (set_cfg_backend cfg0 None) = (c', Some (Some "numpy")).
Proof. eexists; reflexivity. Qed.

(** C18 *)
Theorem C18_history_valid : forall calls, Forall call_no_nan calls ->
  let d := fold_left (fun d c => fst (prior_step d c)) calls initial_defaults in
  fl_lt (Fin 1) (d_gamma d) = true /\ within (d_coverage d) /\
  fl_lt (Fin 0) (d_alpha d) = true /\ fl_lt (Fin 0) (d_factor d) = true.
Proof. exact prior_history_strict. Qed.
Print Assumptions C18_history_valid.
Example C18_history_case : Forall call_no_nan
  [PSet (Some PInf) (Some NaN) None None; PKwargs (mkPKw None None (Some (Some NInf)) None)].
Proof. repeat constructor; simpl; discriminate. Qed.

Theorem C18_accepts_iff : forall d g cv a f,
  (snd (set_defaults d g cv a f) = true <-> arg_ok 1 g /\ cov_ok cv /\ arg_ok 0 a /\ arg_ok 0 f) /\
  (snd (set_defaults d g cv a f) = true ->
   fst (set_defaults d g cv a f) =
   mkPD (arg_or g (d_gamma d)) (arg_or cv (d_coverage d)) (arg_or a (d_alpha d)) (arg_or f (d_factor d))).
Proof. exact set_defaults_ok. Qed.
Print Assumptions C18_accepts_iff.

(** A failing call keeps what came before the first bad argument. *)
Theorem C18_failed_call : forall d g cv a f,
  (~ arg_ok 1 g -> set_defaults d g cv a f = (d, false)) /\
  (arg_ok 1 g -> ~ cov_ok cv -> set_defaults d g cv a f =
     (mkPD (arg_or g (d_gamma d)) (d_coverage d) (d_alpha d) (d_factor d), false)) /\
  (arg_ok 1 g -> cov_ok cv -> ~ arg_ok 0 a -> set_defaults d g cv a f =
     (mkPD (arg_or g (d_gamma d)) (arg_or cv (d_coverage d)) (d_alpha d) (d_factor d), false)) /\
  (arg_ok 1 g -> cov_ok cv -> arg_ok 0 a -> ~ arg_ok 0 f -> set_defaults d g cv a f =
     (mkPD (arg_or g (d_gamma d)) (arg_or cv (d_coverage d)) (arg_or a (d_alpha d)) (d_factor d), false)).
Proof. exact set_defaults_failed. Qed.
Print Assumptions C18_failed_call.
Example C18_failed_case : arg_ok 1 (Some PInf) /\ ~ cov_ok (Some PInf) /\ ~ arg_ok 0 (Some NInf).
Proof.
split; [right; reflexivity|]. split; [intros (x & E & _); discriminate|]. intros [E|E]; discriminate.
Qed.

Theorem C18_nan : forall d,
  set_defaults d (Some NaN) None (Some NaN) (Some NaN) = (mkPD NaN (d_coverage d) NaN NaN, true) /\
  set_defaults d None (Some NaN) None None = (d, false).
Proof. intros []; split; reflexivity. Qed.
Print Assumptions C18_nan.

(** The dictionary entry point performs the same updates and empties the recognised keys. *)
Theorem C18_from_kwargs : forall d k,
  (let '(d', _, ok) := set_from_kwargs d k in
   (d', ok) = set_defaults d (join (k_gamma k)) (join (k_coverage k)) (join (k_alpha k)) (join (k_factor k))) /\
  (forall d' k', set_from_kwargs d k = (d', k', true) -> k' = mkPKw None None None None).
Proof. exact (fun d k => conj (from_kwargs_eq d k) (from_kwargs_pops d k)). Qed.
Print Assumptions C18_from_kwargs.
Example C18_from_kwargs_case :
  set_from_kwargs initial_defaults (mkPKw (Some (Some PInf)) (Some (Some PInf)) (Some (Some PInf)) None) =
  (mkPD PInf (Fin (95 / 100)) (Fin 1) (Fin (1 / 20)), mkPKw None None (Some (Some PInf)) None, false).
Proof. reflexivity. Qed.
