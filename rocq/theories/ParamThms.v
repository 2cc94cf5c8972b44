(** Property theorems C12, C13, C14 (parameter/param.py). *)
From Coq Require Import String Ascii List Arith ZArith Reals Lra Lia Bool Sorted.
From Verif Require Import DataModel ParamModel ParamProofs.
Import ListNotations.
Local Open Scope R_scope.
Local Open Scope string_scope.

(** A Param with three entries, one on each scale, used as a concrete case. *)
Definition demo_p : param := mkParam [0; 1; 5]
  [["covparam"; "variance"]; ["covparam"; "lengthscale"]; ["noise"]]
  [LOG; LOG_INV; NONE] ["sigma2"; "rho_0"; "tau"] [None; Some (-1, 1); Some (0, 6)].
Example demo_p_consistent : consistent demo_p = true. Proof. reflexivity. Qed.

(** C12: the two maps are inverse of one another. *)
Theorem C12_scales_inverse : forall v n,
  normalize (denormalize v n) n = v /\
  (n = NONE \/ 0 < v -> denormalize (normalize v n) n = v).
Proof. exact (fun v n => conj (norm_denorm v n) (denorm_norm v n)). Qed.
Print Assumptions C12_scales_inverse.
Example C12_scales_case : denormalize (normalize 2 LOG_INV) LOG_INV = 2.
Proof. apply C12_scales_inverse. right; lra. Qed.

Theorem C12_set_denormalized_values : forall p nv,
  consistent p = true -> length nv = length (values p) -> positive_where_log nv (normalizations p) ->
  let (p', ok) := set_denormalized_values p nv in
  ok = true /\ denormalized_values p' = nv /\ consistent p' = true /\
  paths p' = paths p /\ normalizations p' = normalizations p /\ names p' = names p /\ bounds p' = bounds p.
Proof. exact set_denorm. Qed.
Print Assumptions C12_set_denormalized_values.
Example C12_set_denormalized_case : positive_where_log [2; 3; -7] (normalizations demo_p).
Proof.
  constructor; [right; lra|]. constructor; [right; lra|]. constructor; [now left|]. constructor.
Qed.

Theorem C12_set_denormalized_same : forall p, consistent p = true ->
  set_denormalized_values p (denormalized_values p) = (p, true).
Proof. exact set_denorm_id. Qed.
Print Assumptions C12_set_denormalized_same.

Theorem C12_set_denormalized_mismatch : forall p nv, length nv <> length (values p) ->
  set_denormalized_values p nv = (p, false).
Proof. exact set_denorm_mismatch. Qed.
Print Assumptions C12_set_denormalized_mismatch.
Example C12_mismatch_case : set_denormalized_values demo_p [1] = (demo_p, false).
Proof. reflexivity. Qed.

(** the entries a query designates: path equal to the query, or starting with it *)
Definition designates (q : path) (prefix_match : bool) (pth : path) : Prop :=
  if prefix_match then prefix_of q pth else pth = q.
Definition designated (p : param) (q : path) (pm : bool) (i : nat) : Prop :=
  exists pth, nth_error (paths p) i = Some pth /\ designates q pm pth.
Lemma path_match_designates q pm pth : path_match q pm pth = true <-> designates q pm pth.
Proof. destruct pm; [apply path_match_prefix | apply path_match_exact]. Qed.
Lemma path_indices_designated p q pm i : In i (path_indices p q pm) <-> designated p q pm i.
Proof.
  rewrite path_indices_in. split; intros [pth [h1 h2]]; exists pth; (split; [exact h1 |]); now apply path_match_designates.
Qed.
(** a set of positions has only one increasing enumeration *)
Lemma sorted_unique (l m : list nat) : StronglySorted lt l -> StronglySorted lt m -> (forall i, In i l <-> In i m) -> l = m.
Proof.
  intro s. revert m. induction s as [| a l s IH hl]; intros m t h.
  - destruct m as [| b m]; [reflexivity |]. exfalso. apply (h b). now left.
  - destruct t as [| b m t hm]; [exfalso; apply (h a); now left |]. rewrite Forall_forall in hl, hm.
    assert (e : a = b).
    { assert (ha : In a (b :: m)) by (apply h; now left). assert (hb : In b (a :: l)) by (apply h; now left).
      destruct ha as [-> | ha]; [reflexivity |]. destruct hb as [<- | hb]; [reflexivity |]. apply hm in ha. apply hl in hb. lia. }
    subst b. f_equal. apply IH; [exact t |]. intro i. split; intro hi.
    + assert (q : In i (a :: m)) by (apply h; now right). destruct q as [<- | q]; [apply hl in hi; lia | exact q].
    + assert (q : In i (a :: l)) by (apply h; now right). destruct q as [<- | q]; [apply hm in hi; lia | exact q].
Qed.
Lemma take_nth {A} (l : list A) idx t k i : take l idx = Some t -> nth_error idx k = Some i -> nth_error t k = nth_error l i.
Proof.
  revert t k. induction idx as [| j r IH]; intros t k e h; [destruct k; discriminate |]. cbn in e.
  destruct (nth_error l j) as [a |] eqn:ea; [| discriminate]. destruct (take l r) as [u |] eqn:eu; [| discriminate].
  assert (e' : t = a :: u) by congruence. subst t. destruct k as [| k]; cbn in *; [congruence | now apply IH].
Qed.

(** [idx] lists the designated positions in increasing order: the k-th of them receives the k-th new value, the other
    entries keep theirs, nothing else changes *)
Theorem C12_set_by_path : forall p q nv pm idx,
  consistent p = true -> StronglySorted lt idx -> (forall i, In i idx <-> designated p q pm i) -> length idx = length nv ->
  let (p', ok) := set_by_path p q nv pm in
  ok = true /\ get_by_path p' q pm = Some nv /\ consistent p' = true /\
  (forall k i, nth_error idx k = Some i -> nth_error (values p') i = nth_error nv k) /\
  (forall i, ~ designated p q pm i -> nth_error (values p') i = nth_error (values p) i) /\
  paths p' = paths p /\ normalizations p' = normalizations p /\ names p' = names p /\ bounds p' = bounds p.
Proof.
  intros p q nv pm idx hc hs hi hl.
  assert (e : idx = path_indices p q pm).
  { apply sorted_unique; [exact hs | apply enum_filter_sorted |]. intro i. now rewrite hi, path_indices_designated. }
  subst idx. assert (H := set_by_path_ok p q nv pm hc hl). destruct (set_by_path p q nv pm) as [p' ok].
  destruct H as (h1 & h2 & h3 & h4 & h5 & h6 & h7 & h8). repeat split; auto.
  - intros k i hk. symmetry. apply (take_nth (values p') (path_indices p q pm)); [| exact hk].
    unfold get_by_path, path_indices in h2. rewrite h5 in h2. exact h2.
  - intros i hn. destruct (nth_error (paths p) i) as [pth |] eqn:ep.
    + apply (h4 i pth ep). destruct (path_match q pm pth) eqn:em; [| reflexivity]. exfalso. apply hn. exists pth. split; [exact ep | now apply path_match_designates].
    + apply nth_error_None in ep. apply consistent_iff in hc as [c1 _]. apply consistent_iff in h3 as [c2 _].
      rewrite h5 in c2. rewrite (proj2 (nth_error_None (values p') i)), (proj2 (nth_error_None (values p) i)); [reflexivity | lia | lia].
Qed.
Print Assumptions C12_set_by_path.
Example C12_set_by_path_case :
  set_by_path demo_p ["covparam"] [7; 8] true =
  (mkParam [7; 8; 5] (paths demo_p) (normalizations demo_p) (names demo_p) (bounds demo_p), true).
Proof. reflexivity. Qed.

Theorem C12_set_by_path_wrong_count : forall p q nv pm idx,
  StronglySorted lt idx -> (forall i, In i idx <-> designated p q pm i) -> length idx <> length nv ->
  set_by_path p q nv pm = (p, false).
Proof.
  intros p q nv pm idx hs hi hl. apply set_by_path_bad.
  replace (path_indices p q pm) with idx; [exact hl |].
  apply sorted_unique; [exact hs | apply enum_filter_sorted |]. intro i. now rewrite hi, path_indices_designated.
Qed.
Print Assumptions C12_set_by_path_wrong_count.
Example C12_wrong_count_case : length (path_indices demo_p ["covparam"] true) = 2%nat.
Proof. reflexivity. Qed.

(** By name: the first entry of that name only; unknown names raise and change nothing. *)
Theorem C12_set_by_name : forall p name v, consistent p = true ->
  (In name (names p) -> exists p' i, set_by_name p name v = (p', true) /\ consistent p' = true /\
     nth_error (names p) i = Some name /\ (forall j, (j < i)%nat -> nth_error (names p) j <> Some name) /\
     nth_error (values p') i = Some v /\ get_by_name p' name = Some v /\
     (forall k, k <> i -> nth_error (values p') k = nth_error (values p) k) /\
     (forall other, other <> name -> get_by_name p' other = get_by_name p other)) /\
  (~ In name (names p) -> set_by_name p name v = (p, false)).
Proof. exact set_by_name_spec. Qed.
Print Assumptions C12_set_by_name.
Example C12_set_by_name_case : values (fst (set_by_name demo_p "rho_0" 9)) = [0; 9; 5] /\
  In "rho_0" (names demo_p) /\ ~ In "nope" (names demo_p).
Proof. repeat split; [simpl; auto|]. simpl. intros [H|[H|[H|[]]]]; discriminate. Qed.

(** With distinct keywords that all name parameters, each named parameter reads back on the
    denormalised scale and the others keep their value. *)
Theorem C12_set_from_unnormalized : forall p kw,
  consistent p = true -> NoDup (map fst kw) ->
  (forall n v, In (n, v) kw -> In n (names p) /\ (norm_by_name p n = Some NONE \/ 0 < v)) ->
  exists p', set_from_unnormalized p kw = (p', true) /\ consistent p' = true /\
    (forall n v, In (n, v) kw -> denorm_by_name p' n = Some v) /\
    (forall n, ~ In n (map fst kw) -> denorm_by_name p' n = denorm_by_name p n).
Proof. exact sfu_ok. Qed.
Print Assumptions C12_set_from_unnormalized.
Example C12_set_from_unnormalized_case : let kw := [("tau", -3); ("sigma2", 4)] in
  NoDup (map fst kw) /\
  (forall n v, In (n, v) kw -> In n (names demo_p) /\ (norm_by_name demo_p n = Some NONE \/ 0 < v)).
Proof.
split.
- repeat constructor; simpl; intuition discriminate.
- intros n v [[= <- <-]|[[= <- <-]|[]]]; (split; [simpl; tauto|]); [left; reflexivity|right; lra].
Qed.

(** With an unknown name the call raises, after the keywords before it have been applied. *)
Theorem C12_set_from_unnormalized_not_atomic : forall p kw1 kw2 p1 bad v,
  set_from_unnormalized p kw1 = (p1, true) -> ~ In bad (names p) ->
  set_from_unnormalized p (kw1 ++ (bad, v) :: kw2) = (p1, false).
Proof. exact sfu_fail. Qed.
Print Assumptions C12_set_from_unnormalized_not_atomic.
Example C12_not_atomic_case :
  set_from_unnormalized demo_p [("tau", -3); ("oops", 1)] =
  (mkParam [0; 1; -3] (paths demo_p) (normalizations demo_p) (names demo_p) (bounds demo_p), false).
Proof. reflexivity. Qed.

(** C13 *)
Theorem C13_concat_entries : forall ps, Forall (fun p => consistent p = true) ps ->
  (ps <> [] -> exists p, param_concat ps = Some p /\ consistent p = true /\ entries p = flat_map entries ps) /\
  param_concat [] = None.
Proof. exact (fun ps h => conj (fun hn => concat_ok ps hn h) eq_refl). Qed.
Print Assumptions C13_concat_entries.

Theorem C13_select_from_concat : forall ps p q pm,
  Forall (fun p => consistent p = true) ps -> param_concat ps = Some p ->
  exists parts, Forall2 (fun pi vi => get_by_path pi q pm = Some vi) ps parts /\
    get_by_path p q pm = Some (concat parts).
Proof. exact concat_get. Qed.
Print Assumptions C13_select_from_concat.
Example C13_select_case : exists p, param_concat [demo_p; demo_p] = Some p /\
  get_by_path p ["noise"] true = Some [5; 5].
Proof. eexists; split; reflexivity. Qed.

(** Reading a path returns the values of the entries whose path is (or starts with) it, in order. *)
Theorem C13_get_by_path : forall p q pm, consistent p = true ->
  get_by_path p q pm = Some (map e_value (filter (fun e => path_match q pm (e_path e)) (entries p))).
Proof. exact get_by_path_spec. Qed.
Print Assumptions C13_get_by_path.

Theorem C13_path_match : forall q p,
  (path_match q true p = true <-> prefix_of q p) /\ (path_match q false p = true <-> p = q).
Proof. exact (fun q p => conj (path_match_prefix q p) (path_match_exact q p)). Qed.
Print Assumptions C13_path_match.
Example C13_path_match_case : prefix_of ["covparam"] ["covparam"; "variance"].
Proof. exists ["variance"]. reflexivity. Qed.

Theorem C13_indices : forall p q pm,
  StronglySorted lt (path_indices p q pm) /\ forall i, In i (path_indices p q pm) <-> designated p q pm i.
Proof. exact (fun p q pm => conj (enum_filter_sorted _ _ _ _) (path_indices_designated p q pm)). Qed.
Print Assumptions C13_indices.
Example C12_designated_case : StronglySorted lt [0; 1]%nat /\ forall i, In i [0; 1]%nat <-> designated demo_p ["covparam"] true i.
Proof. exact (C13_indices demo_p ["covparam"] true). Qed.
Example C13_indices_case : path_indices demo_p ["covparam"] true = [0; 1]%nat.
Proof. reflexivity. Qed.

(** Indexing (int, slice, or list of possibly negative positions) keeps the five fields together. *)
Theorem C13_getitem : forall p idx, consistent p = true ->
  match py_take (entries p) idx with
  | Some es => exists p', param_getitem p idx = Some p' /\ consistent p' = true /\ entries p' = es
  | None => param_getitem p idx = None
  end.
Proof. exact getitem_spec. Qed.
Print Assumptions C13_getitem.
Example C13_getitem_case : param_getitem demo_p [-1; 0]%Z = Some (mkParam [5; 0]
  [["noise"]; ["covparam"; "variance"]] [NONE; LOG] ["tau"; "sigma2"] [Some (0, 6); None]).
Proof. reflexivity. Qed.

(** The two parts of a concatenation are recovered by slicing. *)
Theorem C13_concat_then_slice : forall p q pq,
  consistent p = true -> consistent q = true -> param_concat [p; q] = Some pq ->
  param_getitem pq (zseq 0 (length (values p))) = Some p /\
  param_getitem pq (zseq (length (values p)) (length (values q))) = Some q.
Proof. exact concat_slices. Qed.
Print Assumptions C13_concat_then_slice.
Example C13_concat_slice_case : exists pq, param_concat [demo_p; demo_p] = Some pq.
Proof. eexists; reflexivity. Qed.

(** A view exists exactly for non-empty contiguous blocks, and then holds the same values. *)
Theorem C13_views : forall p q pm, consistent p = true ->
  get_by_path_view p q pm =
  match path_indices p q pm with
  | [] => None
  | idx => if consecutive idx then get_by_path p q pm else None
  end.
Proof. exact view_spec. Qed.
Print Assumptions C13_views.
Example C13_views_case : get_by_path_view demo_p ["covparam"] true = Some [0; 1] /\
  get_by_path_view demo_p ["nope"] true = None.
Proof. split; reflexivity. Qed.

(** C14 *)
Theorem C14_check_bounds : forall p, consistent p = true ->
  check_bounds p = map (fun e => in_bound (denormalize (e_value e) (e_norm e)) (e_bound e)) (entries p) /\
  forall v b, in_bound v b = true <-> match b with None => True | Some (lo, hi) => lo <= v <= hi end.
Proof. exact (fun p h => conj (check_bounds_spec p h) in_bound_iff). Qed.
Print Assumptions C14_check_bounds.

Theorem C14_anisotropic : forall s rhos bs br prefix,
  exists p, make_anisotropic_param (s :: rhos) bs br prefix = Some p /\
  consistent p = true /\ values p = s :: rhos /\
  denormalized_values p = exp s :: map (fun r => exp (- r)) rhos /\
  check_bounds p = in_bound (exp s) bs :: map (fun r => in_bound (exp (- r)) br) rhos.
Proof. exact aniso_ok. Qed.
Print Assumptions C14_anisotropic.
Example C14_anisotropic_case : make_anisotropic_param [1; 2] None (Some (0, 1)) "k_" =
  Some (mkParam [1; 2] [["covparam"; "variance"]; ["covparam"; "lengthscale"]] [LOG; LOG_INV] ["k_sigma2"; "k_rho_0"]
          [None; Some (0, 1)]).
Proof. reflexivity. Qed.

(** Bounds on the log-variance that are negative reject every value, including those inside. *)
Theorem C14_false_alarm_refuted : exists s lo hi p,
  lo <= s <= hi /\ make_anisotropic_param [s] (Some (lo, hi)) None "" = Some p /\
  check_bounds p = [false] /\
  (forall s' p', make_anisotropic_param [s'] (Some (lo, hi)) None "" = Some p' -> check_bounds p' = [false]).
Proof.
exists (-2), (-3), (-1). eexists. split; [lra|]. split; [reflexivity|].
assert (G : forall s', [in_bound (exp s') (Some (-3, -1))] = [false]).
{ intros s'. rewrite log_bound_negative by lra. reflexivity. }
split; [apply G|]. intros s' p' [= <-]. apply G.
Qed.
Print Assumptions C14_false_alarm_refuted.

(** Conversely a log-variance outside its bounds may be accepted. *)
Theorem C14_missed_violation_refuted : exists s lo hi p,
  ~ lo <= s <= hi /\ make_anisotropic_param [s] (Some (lo, hi)) None "" = Some p /\ check_bounds p = [true].
Proof.
exists 0, 1, 2. eexists. split; [lra|]. split; [reflexivity|].
change ([in_bound (exp 0) (Some (1, 2))] = [true]). f_equal. apply in_bound_iff. rewrite exp_0. lra.
Qed.
Print Assumptions C14_missed_violation_refuted.
