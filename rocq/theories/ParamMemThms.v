(** Property theorem C107: what shares memory with a Param. *)
From Coq Require Import String List Arith ZArith Reals Lia Lra Bool.
From Verif Require Import DataModel ParamModel ParamProofs ParamMemModel.
Import ListNotations.
Local Open Scope R_scope.
Local Open Scope string_scope.
Local Open Scope list_scope.

(** the view lies in its buffer *)
Definition valid (h : heap) (v : view) : Prop :=
  exists bf, nth_error h (v_buf v) = Some bf /\ (v_off v + v_len v <= length (b_cells bf))%nat.
(** an object with fields of equal lengths *)
Definition sound (h : heap) (o : pobj) : Prop :=
  valid h (o_view o) /\ o_dim o = v_len (o_view o) /\ length (o_paths o) = o_dim o /\ length (o_norms o) = o_dim o /\
  length (o_names o) = o_dim o /\ length (o_bounds o) = o_dim o.
(** cell k of buffer b is an entry of v *)
Definition covers (v : view) (b k : nat) : Prop := b = v_buf v /\ (v_off v <= k < v_off v + v_len v)%nat.

Lemma nth_ext_eq {A} (l k : list A) : (forall i, nth_error l i = nth_error k i) -> l = k.
Proof.
  revert k. induction l as [| a l IH]; intros [| b k] H; auto; try (specialize (H 0%nat); discriminate).
  assert (E := H 0%nat). injection E as ->. f_equal. apply IH. intros i. apply (H (S i)).
Qed.
Lemma nth_firstn {A} (l : list A) n i : nth_error (firstn n l) i = if Nat.ltb i n then nth_error l i else None.
Proof.
  revert n i. induction l as [| a l IH]; intros [| n] [| i]; cbn; auto; [destruct n as [| m]; [| destruct (i <=? m)%nat]; reflexivity | apply IH].
Qed.
Local Arguments Nat.ltb : simpl never.
Lemma nth_skipn' {A} (l : list A) n i : nth_error (skipn n l) i = nth_error l (n + i).
Proof. revert l. induction n as [| n IH]; intros [| a l]; cbn; auto. destruct i; reflexivity. Qed.
Lemma nth_contents h v i : nth_error (contents h v) i = if Nat.ltb i (v_len v) then cell h (v_buf v) (v_off v + i) else None.
Proof.
  unfold contents, cell. destruct (nth_error h (v_buf v)) as [bf |].
  - unfold py_slice. rewrite nth_firstn, nth_skipn'. replace (v_off v + v_len v - v_off v)%nat with (v_len v) by lia. reflexivity.
  - destruct i; destruct (_ <? _)%nat; reflexivity.
Qed.
Lemma contents_ext h h' v : (forall k, covers v (v_buf v) k -> cell h' (v_buf v) k = cell h (v_buf v) k) -> contents h' v = contents h v.
Proof.
  intros H. apply nth_ext_eq. intros i. rewrite !nth_contents. destruct (Nat.ltb_spec i (v_len v)); auto. apply H. split; auto. lia.
Qed.
Lemma contents_length h v : valid h v -> length (contents h v) = v_len v.
Proof.
  intros (bf & E & L). unfold contents. rewrite E. unfold py_slice. rewrite firstn_length, skipn_length. lia.
Qed.

(** same buffers, types and lengths *)
Definition same_shape (h h' : heap) : Prop := length h' = length h /\
  forall b, match nth_error h b, nth_error h' b with
            | Some x, Some y => b_type y = b_type x /\ length (b_cells y) = length (b_cells x) | None, None => True | _, _ => False end.
Lemma same_refl h : same_shape h h.
Proof. split; auto. intros b. destruct (nth_error h b); auto. Qed.
Lemma same_trans h1 h2 h3 : same_shape h1 h2 -> same_shape h2 h3 -> same_shape h1 h3.
Proof.
  intros [L1 H1] [L2 H2]. split; [congruence |]. intros b. specialize (H1 b). specialize (H2 b).
  destruct (nth_error h1 b), (nth_error h2 b), (nth_error h3 b); try tauto. destruct H1, H2. split; congruence.
Qed.
Lemma same_valid h h' v : same_shape h h' -> valid h v -> valid h' v.
Proof.
  intros [_ H] (bf & E & L). specialize (H (v_buf v)). rewrite E in H. destruct (nth_error h' (v_buf v)) as [y |] eqn:E'; [| tauto].
  exists y. split; auto. destruct H as [_ ->]. exact L.
Qed.
Lemma same_type h h' v : same_shape h h' -> type_of h' v = type_of h v.
Proof.
  intros [_ H]. specialize (H (v_buf v)). unfold type_of. destruct (nth_error h (v_buf v)), (nth_error h' (v_buf v)); tauto.
Qed.
Lemma same_sound h h' o : same_shape h h' -> sound h o -> sound h' o.
Proof. intros S (V & R). split; auto. eapply same_valid; eauto. Qed.

Lemma write_same h b k x : same_shape h (write h b k x).
Proof.
  unfold write. destruct (nth_error h b) as [bf |] eqn:E; [| apply same_refl]. split; [apply upd_length |]. intros c.
  destruct (Nat.eq_dec b c) as [<- | ne].
  - rewrite E, upd_same by (apply nth_error_Some; congruence). cbn. split; auto. apply upd_length.
  - rewrite upd_other by auto. destruct (nth_error h c); auto.
Qed.
Lemma write_cell h b k x c j : cell (write h b k x) c j =
  if Nat.eqb b c && Nat.eqb k j then match cell h c j with Some _ => Some (cast (match nth_error h b with Some bf => b_type bf | None => TFloat end) x) | None => None end
  else cell h c j.
Proof.
  unfold write. destruct (nth_error h b) as [bf |] eqn:E.
  - unfold cell. destruct (Nat.eqb_spec b c) as [<- | ne]; cbn.
    + rewrite upd_same by (apply nth_error_Some; congruence). cbn. rewrite E. destruct (Nat.eqb_spec k j) as [<- | nk].
      * destruct (nth_error (b_cells bf) k) eqn:Ek; [apply upd_same; apply nth_error_Some; congruence |].
        apply nth_error_None. rewrite upd_length. apply nth_error_None. exact Ek.
      * apply upd_other. auto.
    + rewrite upd_other by auto. reflexivity.
  - unfold cell. destruct (Nat.eqb_spec b c) as [<- | ne]; cbn; [rewrite E; destruct (_ =? _)%nat; reflexivity | reflexivity].
Qed.
Lemma set_entry_spec h v i x h' ok : valid h v -> set_entry h v i x = (h', ok) ->
  same_shape h h' /\ (forall b k, ~ covers v b k -> cell h' b k = cell h b k) /\
  (ok = true <-> (i < v_len v)%nat) /\ contents h' v = upd (contents h v) i (cast (type_of h v) x).
Proof.
  unfold set_entry. intros V. assert (Lc := contents_length _ _ V). destruct (Nat.ltb_spec i (v_len v)) as [hi | hi]; intros [= <- <-].
  - split; [apply write_same |]. split; [| split; [tauto |]].
    + intros b k nc. rewrite write_cell. destruct (Nat.eqb_spec (v_buf v) b) as [<- | ne]; auto. destruct (Nat.eqb_spec (v_off v + i) k) as [<- | nk]; auto.
      exfalso. apply nc. split; auto. lia.
    + apply nth_ext_eq. intros j. rewrite nth_contents. destruct (Nat.ltb_spec j (v_len v)) as [hj | hj].
      * rewrite write_cell, Nat.eqb_refl. cbn. destruct (Nat.eqb_spec (v_off v + i) (v_off v + j)) as [e | e].
        -- assert (i = j) by lia. subst j. rewrite upd_same by lia. assert (N := nth_contents h v i). apply Nat.ltb_lt in hi. rewrite hi in N. rewrite <- N.
           destruct (nth_error (contents h v) i) eqn:E; [reflexivity |]. apply nth_error_None in E. apply Nat.ltb_lt in hi. lia.
        -- rewrite upd_other by lia. rewrite nth_contents. apply Nat.ltb_lt in hj. rewrite hj. reflexivity.
      * symmetry. apply nth_error_None. rewrite upd_length, Lc. exact hj.
  - split; [apply same_refl |]. split; auto. split; [split; [discriminate | lia] |]. apply nth_ext_eq. intros j.
    destruct (Nat.eq_dec i j) as [<- | ne]; [| rewrite upd_other by auto; reflexivity].
    transitivity (@None R); [apply nth_error_None; lia | symmetry; apply nth_error_None; rewrite upd_length; lia].
Qed.
Definition only (v : view) (h h' : heap) : Prop := same_shape h h' /\ forall b k, ~ covers v b k -> cell h' b k = cell h b k.
Lemma only_refl v h : only v h h. Proof. split; [apply same_refl | auto]. Qed.
Lemma only_trans v h1 h2 h3 : only v h1 h2 -> only v h2 h3 -> only v h1 h3.
Proof. intros [A1 B1] [A2 B2]. split; [eapply same_trans; eauto |]. intros b k n. rewrite B2, B1; auto. Qed.
Lemma write_all_spec l : forall h v h' ok, valid h v -> write_all h v l = (h', ok) ->
  only v h h' /\ ((forall i x, In (i, x) l -> (i < v_len v)%nat) -> ok = true /\
    contents h' v = fold_left (fun c iv => upd c (fst iv) (snd iv)) (map (fun iv => (fst iv, cast (type_of h v) (snd iv))) l) (contents h v)).
Proof.
  induction l as [| [i x] l IH]; intros h v h' ok V; cbn.
  - intros [= <- <-]. split; [apply only_refl | auto].
  - destruct (set_entry h v i x) as [h1 ok1] eqn:E. destruct (set_entry_spec _ _ _ _ _ _ V E) as (S & O & K & C). destruct ok1.
    + intros W. assert (V1 := same_valid _ _ _ S V). destruct (IH _ _ _ _ V1 W) as [O' C']. split; [eapply only_trans; eauto; split; auto |].
      intros H. destruct C' as [-> C']; [intros; eapply H; right; eauto |]. split; auto. rewrite C', C, (same_type h h1) by auto. reflexivity.
    + intros [= <- <-]. split; [split; auto |]. intros H. exfalso. destruct K as [_ K]. assert (false = true) by (apply K; eapply H; left; eauto). discriminate.
Qed.
Lemma kw_only o kw : forall h h' ok, valid h (o_view o) -> m_set_from_unnormalized h o kw = (h', ok) -> only (o_view o) h h'.
Proof.
  induction kw as [| [n x] kw IH]; intros h h' ok V; cbn; [intros [= <- <-]; apply only_refl |].
  destruct (index_of n (o_names o)) as [i |]; [| intros [= <- <-]; apply only_refl].
  destruct (nth_error (o_norms o) i) as [nm |]; [| intros [= <- <-]; apply only_refl].
  destruct (set_entry h (o_view o) i (normalize x nm)) as [h1 ok1] eqn:E. destruct (set_entry_spec _ _ _ _ _ _ V E) as (S & O & _). destruct ok1.
  - intros W. eapply only_trans; [split; eauto |]. eapply IH; eauto. eapply same_valid; eauto.
  - intros [= <- <-]. split; auto.
Qed.
Lemma update_only h o u h' ok : valid h (o_view o) -> do_update h o u = (h', ok) -> only (o_view o) h h'.
Proof.
  intros V. destruct u as [n x | q nv pm | kw | i x]; cbn.
  - unfold m_set_by_name. destruct (index_of n (o_names o)) as [i |]; [| intros [= <- <-]; apply only_refl]. intros E.
    destruct (set_entry_spec _ _ _ _ _ _ V E) as (S & O & _). split; auto.
  - unfold m_set_by_path. destruct (_ =? _)%nat; [| intros [= <- <-]; apply only_refl]. intros E. apply (write_all_spec _ _ _ _ _ V E).
  - apply kw_only; auto.
  - intros E. destruct (set_entry_spec _ _ _ _ _ _ V E) as (S & O & _). split; auto.
Qed.
Lemma updates_only us : forall h o, valid h (o_view o) -> only (o_view o) h (do_updates h o us).
Proof.
  induction us as [| u us IH]; intros h o V; cbn; [apply only_refl |]. destruct (do_update h o u) as [h1 ok] eqn:E. assert (O := update_only _ _ _ _ _ V E).
  eapply only_trans; eauto. apply IH. eapply same_valid; eauto. apply O.
Qed.
Lemma only_disjoint h h' v w : only v h h' -> v_buf v <> v_buf w -> contents h' w = contents h w.
Proof. intros [_ O] ne. apply contents_ext. intros k _. apply O. intros [e _]. congruence. Qed.

Lemma snapshot_consistent h o : sound h o -> consistent (snapshot h o) = true.
Proof. intros (V & D & H1 & H2 & H3 & H4). apply consistent_iff. cbn. rewrite contents_length by auto. repeat split; congruence. Qed.
Lemma kw_snapshot o kw : forall h h' ok, sound h o -> type_of h (o_view o) = TFloat -> m_set_from_unnormalized h o kw = (h', ok) ->
  (snapshot h' o, ok) = set_from_unnormalized (snapshot h o) kw.
Proof.
  induction kw as [| [n x] kw IH]; intros h h' ok So T; cbn; [intros [= <- <-]; auto |]. assert (So' := So). destruct So' as (V & D & H1 & H2 & H3 & H4).
  destruct (index_of n (o_names o)) as [i |] eqn:Ei; [| intros [= <- <-]; auto].
  destruct (nth_error (o_norms o) i) as [nm |] eqn:En; [| intros [= <- <-]; auto].
  destruct (set_entry h (o_view o) i (normalize x nm)) as [h1 ok1] eqn:E. destruct (set_entry_spec _ _ _ _ _ _ V E) as (S & O & K & C).
  assert (ok1 = true) as ->. { apply K. rewrite <- D, <- H2. apply nth_error_Some. congruence. }
  intros W. rewrite (IH h1 h' ok); [| eapply same_sound; eauto | rewrite <- T; apply same_type; auto | exact W].
  f_equal. unfold snapshot, with_values. cbn. rewrite C, T. reflexivity.
Qed.
Lemma path_snapshot h o q nv pm h' ok : sound h o -> m_set_by_path h o q nv pm = (h', ok) ->
  (snapshot h' o, ok) = set_by_path (snapshot h o) q (map (cast (type_of h (o_view o))) nv) pm.
Proof.
  intros So. assert (Cs := snapshot_consistent _ _ So). assert (So' := So). destruct So' as (V & D & _).
  unfold m_set_by_path, set_by_path. rewrite map_length. change (path_indices (snapshot h o) q pm) with (m_indices o q pm).
  destruct (_ =? _)%nat eqn:El; [| intros [= <- <-]; reflexivity]. intros W. destruct (write_all_spec _ _ _ _ _ V W) as [_ G].
  destruct G as [-> G].
  { intros i x Hi. apply in_combine_l in Hi. apply (path_indices_lt (snapshot h o) q pm) in Hi; auto. cbn in Hi. rewrite contents_length in Hi; auto. }
  f_equal. unfold snapshot, with_values. cbn. rewrite G. do 2 f_equal.
  clear. generalize (m_indices o q pm). induction nv as [| x nv IH]; intros [| i l]; cbn; auto. f_equal. apply IH.
Qed.
Lemma name_snapshot h o n x h' ok : sound h o -> m_set_by_name h o n x = (h', ok) ->
  (snapshot h' o, ok) = set_by_name (snapshot h o) n (cast (type_of h (o_view o)) x).
Proof.
  intros So. assert (Cs := snapshot_consistent _ _ So). assert (So' := So). destruct So' as (V & D & _). unfold m_set_by_name, set_by_name. cbn [names snapshot].
  destruct (index_of n (o_names o)) as [i |] eqn:Ei; [| intros [= <- <-]; auto]. intros E. destruct (set_entry_spec _ _ _ _ _ _ V E) as (S & O & K & C).
  assert (ok = true) as ->. { apply K. apply (index_of_lt n (snapshot h o)) in Ei; auto. cbn in Ei. rewrite contents_length in Ei; auto. }
  f_equal. unfold snapshot, with_values. cbn. rewrite C. reflexivity.
Qed.

(** the updates act in place: on the values as ParamModel says (with numbers truncated in an integer array), on no cell outside the
    view, and on every array that shares a cell *)
Theorem C107_in_place : forall h o u h' ok, sound h o -> do_update h o u = (h', ok) ->
  sound h' o /\ (forall b k, ~ covers (o_view o) b k -> cell h' b k = cell h b k) /\
  (forall w i k, v_buf w = v_buf (o_view o) -> (v_off w + i = v_off (o_view o) + k)%nat -> (i < v_len w)%nat -> (k < o_dim o)%nat ->
     nth_error (contents h' w) i = nth_error (values (snapshot h' o)) k) /\
  match u with
  | UName n x => (snapshot h' o, ok) = set_by_name (snapshot h o) n (cast (type_of h (o_view o)) x)
  | UPath q nv pm => (snapshot h' o, ok) = set_by_path (snapshot h o) q (map (cast (type_of h (o_view o))) nv) pm
  | UKw kw => type_of h (o_view o) = TFloat -> (snapshot h' o, ok) = set_from_unnormalized (snapshot h o) kw
  | UCell i x => values (snapshot h' o) = upd (values (snapshot h o)) i (cast (type_of h (o_view o)) x) /\ (ok = true <-> (i < o_dim o)%nat)
  end.
Proof.
  intros h o u h' ok So E. assert (V := proj1 So). assert (D := proj1 (proj2 So)). assert (O := update_only _ _ _ _ _ V E).
  split; [eapply same_sound; eauto; apply O |]. split; [apply O |]. split.
  - intros w i k eb eo hi hk. cbn. rewrite !nth_contents. rewrite D in hk. apply Nat.ltb_lt in hi. apply Nat.ltb_lt in hk. rewrite hi, hk, eb, eo. reflexivity.
  - destruct u as [n x | q nv pm | kw | i x]; cbn in E.
    + apply name_snapshot; auto.
    + apply path_snapshot; auto.
    + intros T. eapply kw_snapshot; eauto.
    + destruct (set_entry_spec _ _ _ _ _ _ V E) as (_ & _ & K & C). cbn. rewrite D. auto.
Qed.
Print Assumptions C107_in_place.

(** arrays obtained with return_view=True or as p.values follow the Param through all later updates, and writing to them updates it *)
Lemma subview_contents h v a b : contents h (subview v a b) = py_slice (contents h v) a b.
Proof.
  apply nth_ext_eq. intros i. rewrite nth_contents. unfold py_slice. rewrite nth_firstn, nth_skipn', nth_contents. cbn.
  destruct (Nat.ltb_spec i (Nat.min b (v_len v) - Nat.min a (v_len v))), (Nat.ltb_spec i (b - a)), (Nat.ltb_spec (a + i) (v_len v)); auto; try lia.
  f_equal. lia.
Qed.
Lemma last_in (l : list nat) d : l <> [] -> In (last l d) l.
Proof. induction l as [| a [| b l] IH]; intros h; [congruence | left; auto | right; apply IH; discriminate]. Qed.
Theorem C107_views : forall h o us, sound h o -> let h' := do_updates h o us in
  sound h' o /\ contents h' (m_values o) = values (snapshot h' o) /\
  (forall n w, m_name_view o n = Some w -> exists x, contents h' w = [x] /\ get_by_name (snapshot h' o) n = Some x) /\
  (forall q pm, match m_path_view o q pm with
                | Some w => get_by_path_view (snapshot h' o) q pm = Some (contents h' w)
                | None => get_by_path_view (snapshot h' o) q pm = None end) /\
  (forall w a b, w = subview (o_view o) a b -> (a <= b <= o_dim o)%nat -> forall i x, (i < b - a)%nat ->
     set_entry h' w i x = do_update h' o (UCell (a + i) x) /\ v_len w = (b - a)%nat).
Proof.
  intros h o us So h'. assert (So' : sound h' o) by (eapply same_sound; eauto; apply updates_only; apply So).
  assert (Cs := snapshot_consistent _ _ So'). assert (V := proj1 So'). assert (D := proj1 (proj2 So')).
  split; auto. split; auto. split; [| split].
  - intros n w. unfold m_name_view. destruct (index_of n (o_names o)) as [i |] eqn:Ei; [| discriminate]. intros [= <-]. rewrite subview_contents.
    assert (hi : (i < length (contents h' (o_view o)))%nat) by (apply (index_of_lt n (snapshot h' o)); auto).
    unfold get_by_name. cbn [names snapshot values]. rewrite Ei. destruct (nth_error (contents h' (o_view o)) i) as [x |] eqn:Ex; [| apply nth_error_None in Ex; lia].
    exists x. split; auto. apply nth_ext_eq. intros k. unfold py_slice. rewrite nth_firstn, nth_skipn'. replace (i + 1 - i)%nat with 1%nat by lia.
    destruct k as [| k]; [rewrite Nat.add_0_r; exact Ex | destruct k; reflexivity].
  - intros q pm. unfold m_path_view, get_by_path_view. change (path_indices (snapshot h' o) q pm) with (m_indices o q pm).
    destruct (consecutive (m_indices o q pm)); auto. destruct (m_indices o q pm) as [| i r]; auto. rewrite subview_contents. reflexivity.
  - intros w a b -> hab i x hi. rewrite D in hab. split; [| cbn; lia]. cbn. unfold set_entry, m_values. cbn.
    rewrite (proj2 (Nat.ltb_lt i _)), (proj2 (Nat.ltb_lt (a + i) _)) by lia. do 2 f_equal. lia.
Qed.
Print Assumptions C107_views.

(** copies *)
Lemma alloc_cells h t l b k : (b < length h)%nat -> cell (h ++ [mkBuf t l]) b k = cell h b k.
Proof. intros H. unfold cell. rewrite nth_error_app1 by auto. reflexivity. Qed.
Lemma alloc_view h t l : contents (h ++ [mkBuf t l]) (mkView (length h) 0 (length l)) = l /\ valid (h ++ [mkBuf t l]) (mkView (length h) 0 (length l)) /\
  type_of (h ++ [mkBuf t l]) (mkView (length h) 0 (length l)) = t.
Proof.
  assert (E : nth_error (h ++ [mkBuf t l]) (length h) = Some (mkBuf t l)) by (rewrite nth_error_app2, Nat.sub_diag; auto).
  unfold contents, valid, type_of. cbn [v_buf v_off v_len]. rewrite E. unfold py_slice. cbn. rewrite Nat.sub_0_r, firstn_all. split; auto. split; [eexists; split; [reflexivity |]; cbn; lia | auto].
Qed.
Lemma valid_lt h v : valid h v -> (v_buf v < length h)%nat.
Proof. intros (bf & E & _). apply nth_error_Some. congruence. Qed.
Lemma alloc_old h t l v : valid h v -> contents (h ++ [mkBuf t l]) v = contents h v /\ valid (h ++ [mkBuf t l]) v /\ type_of (h ++ [mkBuf t l]) v = type_of h v.
Proof.
  intros V. assert (lt := valid_lt _ _ V). split; [apply contents_ext; intros; apply alloc_cells; auto |]. unfold valid, type_of.
  rewrite nth_error_app1 by auto. split; auto.
Qed.
(** a new array with contents l: nothing else changes, and no later update of any older object changes it *)
Definition fresh_copy (h h1 : heap) (w : view) (l : list R) : Prop :=
  contents h1 w = l /\ valid h1 w /\ (forall v, valid h v -> contents h1 v = contents h v) /\
  forall o us, sound h o -> contents (do_updates h1 o us) w = l /\
    forall i x, contents (fst (set_entry (do_updates h1 o us) w i x)) (o_view o) = contents (do_updates h1 o us) (o_view o).
Lemma alloc_fresh h t l : fresh_copy h (fst (alloc h t l)) (snd (alloc h t l)) l.
Proof.
  cbn. destruct (alloc_view h t l) as (C & V & _). split; auto. split; auto. split; [intros v Hv; apply alloc_old; auto |].
  intros o us So. destruct (alloc_old h t l _ (proj1 So)) as (_ & Vo & _). assert (lt := valid_lt _ _ (proj1 So)).
  assert (O := updates_only us _ o Vo). split.
  - rewrite (only_disjoint _ _ _ _ O); [exact C | cbn; lia].
  - intros i x. set (h2 := do_updates _ _ _) in *. assert (V2 := same_valid _ _ _ (proj1 O) V).
    destruct (set_entry h2 _ i x) as [h3 ok] eqn:E. destruct (set_entry_spec _ _ _ _ _ _ V2 E) as (S & O2 & _).
    apply contents_ext. intros k Hk. apply O2. intros [e _]. cbn in e. lia.
Qed.
Lemma new_list_spec h t l ps ns nm bs : new_from_list h t l ps ns nm bs =
  if Nat.eqb (length ps) (length nm) && Nat.eqb (length nm) (length ns) && Nat.eqb (length ns) (length bs) && Nat.eqb (length bs) (length l)
  then Some (h ++ [mkBuf t l], mkObj (mkView (length h) 0 (length l)) (length l) ps ns nm bs) else None.
Proof. unfold new_from_list, new_from_array, alloc, lengths_ok. cbn. destruct (_ && _ && _ && _); reflexivity. Qed.
Definition fresh_object (h h1 : heap) (o1 : pobj) (p : param) : Prop :=
  sound h1 o1 /\ snapshot h1 o1 = p /\ fresh_copy h h1 (o_view o1) (values p).
Lemma new_list_fresh h t l ps ns nm bs : match new_from_list h t l ps ns nm bs with
  | Some (h1, o1) => fresh_object h h1 o1 (mkParam l ps ns nm bs) /\ param_init l ps ns nm bs = Some (mkParam l ps ns nm bs) /\ type_of h1 (o_view o1) = t
  | None => param_init l ps ns nm bs = None end.
Proof.
  rewrite new_list_spec. unfold param_init, consistent. cbn. destruct (_ && _ && _ && _) eqn:E; auto.
  apply andb_true_iff in E as [E E4]. apply andb_true_iff in E as [E E3]. apply andb_true_iff in E as [E1 E2].
  apply Nat.eqb_eq in E1, E2, E3, E4. destruct (alloc_view h t l) as (C & V & T). split; [| split; auto]. split; [| split].
  - split; auto. cbn. repeat split; congruence.
  - unfold snapshot. cbn [o_view o_paths o_norms o_names o_bounds]. rewrite C. reflexivity.
  - apply (alloc_fresh h t l).
Qed.
Theorem C107_copies : forall h o, sound h o ->
  (forall q pm, exists h1 w l, m_get_by_path h o q pm = Some (h1, w) /\ get_by_path (snapshot h o) q pm = Some l /\ fresh_copy h h1 w l) /\
  (fresh_copy h (fst (m_denormalized h o)) (snd (m_denormalized h o)) (denormalized_values (snapshot h o))) /\
  (forall idx, match m_getitem h o idx, param_getitem (snapshot h o) idx with
     | Some (h1, o1), Some p => fresh_object h h1 o1 p | None, None => True | _, _ => False end) /\
  (forall os, match m_concat h os, param_concat (map (snapshot h) os) with
     | Some (h1, o1), Some p => fresh_object h h1 o1 p | None, None => True | _, _ => False end).
Proof.
  intros h o So. assert (Cs := snapshot_consistent _ _ So). split; [| split; [| split]].
  - intros q pm. unfold m_get_by_path, get_by_path. cbn [values snapshot]. change (path_indices (snapshot h o) q pm) with (m_indices o q pm).
    destruct (take_some _ (contents h (o_view o)) (m_indices o q pm)) as (l & El & _); [intros i Hi; apply (path_indices_lt (snapshot h o) q pm); auto |].
    rewrite El. eexists _, _, l. split; [reflexivity |]. split; auto. apply (alloc_fresh h _ l).
  - apply alloc_fresh.
  - intros idx. unfold m_getitem, param_getitem. cbn [values paths normalizations names bounds snapshot].
    destruct (py_take (contents h (o_view o)) idx) as [l |]; auto. destruct (py_take (o_paths o) idx) as [ps |]; auto. destruct (py_take (o_norms o) idx) as [ns |]; auto.
    destruct (py_take (o_names o) idx) as [nm |]; auto. destruct (py_take (o_bounds o) idx) as [bs |]; auto.
    assert (N := new_list_fresh h (type_of h (o_view o)) l ps ns nm bs). destruct (new_from_list _ _ _ _ _ _ _) as [[h1 o1] |]; [destruct N as (F & -> & _); exact F | rewrite N; exact I].
  - intros [| o1 os]; [exact I |]. unfold m_concat, param_concat. set (os' := o1 :: os). change (map (snapshot h) (o1 :: os)) with (map (snapshot h) os').
    destruct (map (snapshot h) os') eqn:Em; [discriminate |]. rewrite <- Em. clear Em. rewrite !map_map. cbn [values paths normalizations names bounds snapshot].
    match goal with |- context [new_from_list h ?t ?l ?a ?b ?c ?d] => assert (N := new_list_fresh h t l a b c d); destruct (new_from_list h t l a b c d) as [[h1 ob] |] end.
    + destruct N as (F & E & _). match goal with |- match ?x with _ => _ end => change x with (param_init (concat (map (fun o => contents h (o_view o)) os')) (concat (map o_paths os')) (concat (map o_norms os')) (concat (map o_names os')) (concat (map o_bounds os'))) end. rewrite E. exact F.
    + match goal with |- match ?x with _ => _ end => change x with (param_init (concat (map (fun o => contents h (o_view o)) os')) (concat (map o_paths os')) (concat (map o_norms os')) (concat (map o_names os')) (concat (map o_bounds os'))) end. rewrite N. exact I.
Qed.
Print Assumptions C107_copies.

(** assigning denormalized_values gives the Param a new array: arrays that shared its memory keep the old values for ever *)
(** the copies keep the type of the values; the result of concat has integers exactly when all its parts have *)
Theorem C107_copy_types : forall h,
  (forall o q pm h1 w, m_get_by_path h o q pm = Some (h1, w) -> type_of h1 w = type_of h (o_view o)) /\
  (forall o idx h1 o1, m_getitem h o idx = Some (h1, o1) -> type_of h1 (o_view o1) = type_of h (o_view o)) /\
  (forall os h1 o1, m_concat h os = Some (h1, o1) -> (type_of h1 (o_view o1) = TInt <-> forall o, In o os -> type_of h (o_view o) = TInt)) /\
  (forall o, values (snapshot h o) <> [] -> o_norms o <> [] -> (forall n, In n (o_norms o) -> n = NONE) ->
     type_of (fst (m_denormalized h o)) (snd (m_denormalized h o)) = type_of h (o_view o)).
Proof.
  intro h. assert (L : forall t l ps ns nm bs h1 o1, new_from_list h t l ps ns nm bs = Some (h1, o1) -> type_of h1 (o_view o1) = t).
  { intros t l ps ns nm bs h1 o1 E. assert (N := new_list_fresh h t l ps ns nm bs). rewrite E in N. tauto. }
  split; [| split; [| split]].
  - intros o q pm h1 w. unfold m_get_by_path. destruct (take _ _) as [l |]; [| discriminate]. intros [= <- <-]. apply alloc_view.
  - intros o idx h1 o1. unfold m_getitem. destruct (py_take (contents h (o_view o)) idx), (py_take (o_paths o) idx), (py_take (o_norms o) idx), (py_take (o_names o) idx), (py_take (o_bounds o) idx); try discriminate. apply L.
  - intros os h1 o1. unfold m_concat. destruct os as [| o0 os]; [discriminate |]. intros E. apply L in E. rewrite E.
    destruct (forallb _ (o0 :: os)) eqn:F.
    + rewrite forallb_forall in F. split; auto. intros _ o Ho. specialize (F o Ho). destruct (type_of h (o_view o)); congruence.
    + split; [discriminate |]. intros A. exfalso. assert (T : forallb (fun o => match type_of h (o_view o) with TInt => true | TFloat => false end) (o0 :: os) = true).
      { apply forallb_forall. intros o Ho. rewrite (A o Ho). reflexivity. } congruence.
  - intros o V0 N0 N. unfold m_denormalized, denormalized_values. cbn [values snapshot normalizations] in *.
    destruct (contents h (o_view o)) as [| x l]; [congruence |]. destruct (o_norms o) as [| n ns]; [congruence |]. cbn [zip_with].
    set (k := zip_with denormalize l ns). cbn [length]. rewrite (proj2 (forallb_forall _ (firstn (S (length k)) (n :: ns)))).
    + apply alloc_view.
    + intros m Hm. rewrite (N m); auto. rewrite <- (firstn_skipn (S (length k)) (n :: ns)). apply in_or_app. auto.
Qed.
Print Assumptions C107_copy_types.
Theorem C107_detached : forall h o nv, sound h o ->
  let '(h1, o1, ok) := m_set_denormalized h o nv in
  (snapshot h1 o1, ok) = set_denormalized_values (snapshot h o) nv /\ sound h1 o1 /\
  (length nv = o_dim o -> type_of h1 (o_view o1) = TFloat /\ forall w us, valid h w -> contents (do_updates h1 o1 us) w = contents h w) /\
  (length nv <> o_dim o -> h1 = h /\ o1 = o).
Proof.
  intros h o nv So. assert (So' := So). destruct So' as (V & D & H1 & H2 & H3 & H4). unfold m_set_denormalized, set_denormalized_values.
  cbn [values snapshot normalizations]. rewrite contents_length, <- D by auto. destruct (Nat.eqb_spec (length nv) (o_dim o)) as [e | e]; cbn.
  - set (l := zip_with normalize nv (o_norms o)). destruct (alloc_view h TFloat l) as (C & V1 & T).
    assert (Ll : length l = o_dim o) by (unfold l; rewrite zip_with_length; congruence).
    split; [| split; [| split; [| congruence]]].
    + f_equal. unfold snapshot, with_values. cbn [o_view o_paths o_norms o_names o_bounds]. rewrite C. reflexivity.
    + split; [exact V1 |]. cbn. repeat split; auto.
    + intros _. split; [exact T |]. intros w us Vw. destruct (alloc_old h TFloat l w Vw) as (Cw & _). rewrite <- Cw.
      assert (lw := valid_lt _ _ Vw). eapply only_disjoint; [apply updates_only; exact V1 |]. cbn. lia.
  - split; auto. split; auto. split; [intros; congruence | auto].
Qed.
Print Assumptions C107_detached.

(** an array given to the constructor is shared with the Param (and with any other Param made from it); a list is copied *)
Theorem C107_caller : forall h v ps ns nm bs o, valid h v -> new_from_array v ps ns nm bs = Some o ->
  sound h o /\ (forall us, contents (do_updates h o us) v = values (snapshot (do_updates h o us) o)) /\
  (forall ps' ns' nm' bs' o' us, new_from_array v ps' ns' nm' bs' = Some o' ->
     values (snapshot (do_updates h o us) o') = values (snapshot (do_updates h o us) o)) /\
  (forall i x, (i < v_len v)%nat -> values (snapshot (fst (set_entry h v i x)) o) = upd (values (snapshot h o)) i (cast (type_of h v) x)).
Proof.
  intros h v ps ns nm bs o V. unfold new_from_array, lengths_ok. cbn.
  destruct (_ && _ && _ && _) eqn:E; [| discriminate]. intros [= <-]. apply andb_true_iff in E as [E E4]. apply andb_true_iff in E as [E E3]. apply andb_true_iff in E as [E1 E2].
  apply Nat.eqb_eq in E1, E2, E3, E4. split; [split; cbn; repeat split; auto; congruence |]. split; [reflexivity |]. split.
  - intros ps' ns' nm' bs' o' us. destruct (_ && _ && _ && _); [| discriminate]. intros [= <-]. reflexivity.
  - intros i x hi. destruct (set_entry h v i x) as [h1 ok] eqn:Es. apply (set_entry_spec _ _ _ _ _ _ V Es).
Qed.
Print Assumptions C107_caller.
Theorem C107_caller_list : forall h t l ps ns nm bs h1 o1, new_from_list h t l ps ns nm bs = Some (h1, o1) ->
  fresh_object h h1 o1 (mkParam l ps ns nm bs) /\ type_of h1 (o_view o1) = t.
Proof. intros h t l ps ns nm bs h1 o1 E. assert (N := new_list_fresh h t l ps ns nm bs). rewrite E in N. tauto. Qed.
Print Assumptions C107_caller_list.

(** a Param made of integers: a value set by name is read back truncated, hence unchanged exactly when it is an integer *)
Lemma trunc_int z : trunc (IZR z) = IZR z.
Proof.
  unfold trunc. assert (I : forall z, Int_part (IZR z) = z).
  { intros k. unfold Int_part. rewrite <- (tech_up (IZR k) (k + 1)); [lia | rewrite plus_IZR; lra | rewrite plus_IZR; lra]. }
  destruct (Rle_dec 0 (IZR z)); [rewrite I; auto |]. rewrite <- (opp_IZR z), I, opp_IZR. lra.
Qed.
Theorem C107_integer : forall h o n x h', sound h o -> type_of h (o_view o) = TInt -> do_update h o (UName n x) = (h', true) ->
  exists y, get_by_name (snapshot h' o) n = Some y /\ (exists z, y = IZR z) /\ Rabs (x - y) < 1 /\ Rabs y <= Rabs x /\ (y = x <-> exists z, x = IZR z).
Proof.
  intros h o n x h' So T E. apply name_snapshot in E; auto. rewrite T in E. cbn [cast] in E. exists (trunc x).
  assert (Cs := snapshot_consistent _ _ So). destruct (set_by_name_spec (snapshot h o) n (trunc x) Cs) as [G G']. split.
  - destruct (in_dec string_dec n (names (snapshot h o))) as [i | i].
    + destruct (G i) as (p' & k & Ep & _ & _ & _ & _ & Gn & _). rewrite Ep in E. injection E as ->. exact Gn.
    + unfold set_by_name in E. assert (Ix := index_of_spec n (names (snapshot h o))). destruct (index_of n (names (snapshot h o))) as [k |]; [| congruence].
      destruct Ix as [Ix _]. apply nth_error_In in Ix. tauto.
  - assert (B : forall y, 0 <= y -> 0 <= IZR (Int_part y) <= y /\ y < IZR (Int_part y) + 1).
    { intros y hy. destruct (base_Int_part y) as [b1 b2]. split; [| lra]. split; [| lra]. apply IZR_le.
      assert (-1 < Int_part y)%Z; [apply lt_IZR; lra | lia]. }
    split; [unfold trunc; destruct (Rle_dec 0 x); [eauto | exists (- Int_part (- x))%Z; rewrite opp_IZR; reflexivity] |].
    split; [| split; [| split; [intros e; rewrite <- e; unfold trunc; destruct (Rle_dec 0 x); [eauto | exists (- Int_part (- x))%Z; rewrite opp_IZR; reflexivity] | intros (z & ->); apply trunc_int]]].
    + unfold trunc. destruct (Rle_dec 0 x) as [hx | hx]; [destruct (B x hx) | destruct (B (- x) ltac:(lra))]; apply Rabs_def1; lra.
    + unfold trunc. destruct (Rle_dec 0 x) as [hx | hx]; [destruct (B x hx); rewrite !Rabs_pos_eq by lra; lra |].
      destruct (B (- x) ltac:(lra)). rewrite !Rabs_left1 by lra. lra.
Qed.
Print Assumptions C107_integer.

(** p.values = array never checks the length: names beyond the array cannot be read or set, denormalized_values keeps the entries that
    have a normalisation, and assigning denormalized_values back to itself raises when the array is longer than the labels *)
Theorem C107_values_setter : forall h o v, sound h o -> valid h v -> let o' := m_set_values o v in
  (sound h o' <-> v_len v = o_dim o) /\
  length (denormalized_values (snapshot h o')) = Nat.min (v_len v) (o_dim o) /\
  (forall n i, index_of n (o_names o) = Some i -> (get_by_name (snapshot h o') n = None <-> (v_len v <= i)%nat) /\
     (forall x, snd (do_update h o' (UName n x)) = true <-> (i < v_len v)%nat)) /\
  ((o_dim o < v_len v)%nat -> snd (m_set_denormalized h o' (denormalized_values (snapshot h o'))) = false).
Proof.
  intros h o v So Vv o'. destruct So as (V & D & H1 & H2 & H3 & H4).
  assert (Z : forall l k, length (zip_with denormalize l k) = Nat.min (length l) (length k)) by (induction l as [| a l IH]; intros [| b k]; cbn; auto).
  assert (Ld : length (denormalized_values (snapshot h o')) = Nat.min (v_len v) (o_dim o)).
  { unfold denormalized_values. rewrite Z. cbn. rewrite contents_length, H2; auto. }
  split; [| split; [exact Ld | split]].
  - split; [intros (_ & _ & S1 & _); cbn in S1; congruence |]. intros e. split; [exact Vv |]. cbn. repeat split; congruence.
  - intros n i Ei. unfold get_by_name. cbn. unfold m_set_by_name. cbn. rewrite Ei. split; [rewrite nth_error_None, contents_length; tauto |].
    intros x. destruct (set_entry h v i x) as [h1 ok] eqn:E. cbn. apply (set_entry_spec _ _ _ _ _ _ Vv E).
  - intros lt. unfold m_set_denormalized. rewrite Ld. cbn. destruct (Nat.eqb_spec (Nat.min (v_len v) (o_dim o)) (v_len v)); [lia | reflexivity].
Qed.
Print Assumptions C107_values_setter.
(** two entries of one path: the view follows an update by name, the copy does not, and the view is left behind by the setter *)
Example C107_case : let h := [mkBuf TFloat [1; 2; 3]] in
  exists o, new_from_array (mkView 0 0 3) [["a"]; ["b"]; ["b"]] [NONE; NONE; NONE] ["x"; "y"; "z"] [None; None; None] = Some o /\ sound h o /\
  m_path_view o ["b"] false = Some (mkView 0 1 2) /\
  contents (do_updates h o [UName "z" 7]) (mkView 0 1 2) = [2; 7] /\
  snd (m_set_denormalized h o [4; 5; 6]) = true /\ sound [mkBuf TInt [1; 2; 3]] o.
Proof.
  eexists. split; [reflexivity |]. assert (forall t, sound [mkBuf t [1; 2; 3]] (mkObj (mkView 0 0 3) 3 [["a"]; ["b"]; ["b"]] [NONE; NONE; NONE] ["x"; "y"; "z"] [None; None; None])).
  { intros t. split; [| cbn; repeat split]. eexists. split; [reflexivity | cbn; lia]. }
  repeat split; try apply H.
Qed.
