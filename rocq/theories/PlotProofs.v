(** Proofs about PlotModel. *)
From Coq Require Import Reals List Bool Arith ZArith String Lra Lia Permutation Sorted.
From Verif Require Import ConfigModel FlModel DesignModel DesignProofs QuantModel QuantProofs DiagProofs PlotModel.
Import ListNotations.
Local Open Scope R_scope.

Definition half_width (ppf : R -> R) (level v : R) : R := ppf ((1 + level) / 2) * sqrt v.

(** ** bands *)
Lemma bands_ok x mean variance edges : forall deltas fill labels,
  (List.length deltas <= List.length fill)%nat -> (List.length deltas <= List.length labels)%nat ->
  snd (bands x mean variance edges fill labels deltas) = None.
Proof.
  induction deltas as [| d ds IH]; intros [| c fs] [| l ls] h1 h2; cbn in *; try lia; auto. apply IH; lia.
Qed.
Lemma bands_nth x mean variance : forall deltas fill labels i,
  (List.length deltas <= List.length fill)%nat -> (List.length deltas <= List.length labels)%nat -> (i < List.length deltas)%nat ->
  nth_error (fst (bands x mean variance None fill labels deltas)) i =
  Some (Fill (x ++ rev x) (upper mean variance (nth i deltas 0) ++ rev (lower mean variance (nth i deltas 0))) (nth i fill ""%string) (nth i labels ""%string)).
Proof.
  induction deltas as [| d ds IH]; intros [| c fs] [| l ls] i h1 h2 h3; cbn in *; try lia. destruct i as [| i]; cbn; [reflexivity |].
  apply IH; lia.
Qed.
Lemma bands_length x mean variance : forall deltas fill labels,
  List.length (fst (bands x mean variance None fill labels deltas)) = Nat.min (List.length deltas) (Nat.min (List.length fill) (List.length labels)).
Proof. induction deltas as [| d ds IH]; intros [| c fs] [| l ls]; cbn; auto. Qed.
Lemma bands_err x mean variance edges : forall deltas fill labels,
  (List.length fill < List.length deltas)%nat \/ (List.length labels < List.length deltas)%nat ->
  snd (bands x mean variance edges fill labels deltas) = Some IndexErr.
Proof.
  induction deltas as [| d ds IH]; intros [| c fs] [| l ls] h; cbn in *; try lia; auto. apply IH; lia.
Qed.
Lemma rev_nth_str (l : list string) i : (i < List.length l)%nat -> nth i (rev l) ""%string = nth (List.length l - S i) l ""%string.
Proof. intro h. now rewrite rev_nth. Qed.
Lemma zip_with_nth (f : R -> R -> R) l m p : (p < List.length l)%nat -> (p < List.length m)%nat ->
  nth p (zip_with f l m) 0 = f (nth p l 0) (nth p m 0).
Proof.
  revert m p. induction l as [| a l IH]; intros [| b m] [| p] h1 h2; cbn in *; try lia; auto. apply IH; lia.
Qed.
Lemma zip_with_length (A B C : Type) (f : A -> B -> C) l m : List.length (zip_with f l m) = Nat.min (List.length l) (List.length m).
Proof. unfold zip_with. now rewrite map_length, combine_length. Qed.
Lemma upper_length mean variance d : List.length (upper mean variance d) = Nat.min (List.length mean) (List.length variance).
Proof. apply zip_with_length. Qed.
Lemma lower_length mean variance d : List.length (lower mean variance d) = Nat.min (List.length mean) (List.length variance).
Proof. apply zip_with_length. Qed.

(** ** the sweep *)
Lemma set_nth_length j a l : List.length (set_nth j a l) = List.length l.
Proof. revert j. induction l as [| b l IH]; intros [| j]; cbn; auto. Qed.
Lemma set_nth_same j a l : (j < List.length l)%nat -> nth j (set_nth j a l) 0 = a.
Proof. revert j. induction l as [| b l IH]; intros [| j] h; cbn in *; try lia; auto. apply IH. lia. Qed.
Lemma set_nth_other j j' a l : j' <> j -> nth j' (set_nth j a l) 0 = nth j' l 0.
Proof.
  revert j j'. induction l as [| b l IH]; intros [| j] [| j'] h; cbn; auto; try congruence.
Qed.
Lemma set_nth_self j l : (j < List.length l)%nat -> set_nth j (nth j l 0) l = l.
Proof. revert j. induction l as [| b l IH]; intros [| j] h; cbn in *; try lia; auto. f_equal. apply IH. lia. Qed.
Lemma sweep_length lo hi a nt : (1 <= nt)%nat -> List.length (sweep lo hi a nt) = nt.
Proof. intro h. unfold sweep. rewrite sort_length, app_length, linspace_length. cbn. lia. Qed.
Lemma sweep_in lo hi a nt y : In y (sweep lo hi a nt) <-> In y (linspace lo hi (nt - 1)) \/ y = a.
Proof.
  unfold sweep. pose proof (sort_perm (linspace lo hi (nt - 1) ++ [a])) as P. split; intro h.
  - apply (Permutation_in _ (Permutation_sym P)) in h. apply in_app_or in h as [h | [h | []]]; auto.
  - apply (Permutation_in _ P). apply in_or_app. destruct h as [h | ->]; [auto | right; left; auto].
Qed.
Lemma linspace_ends lo hi n : (2 <= n)%nat -> In lo (linspace lo hi n) /\ In hi (linspace lo hi n).
Proof.
  intro h. assert (hl := linspace_length lo hi n). split.
  - replace lo with (nth 0 (linspace lo hi n) 0) at 1.
    + apply nth_In. lia.
    + destruct n as [| [| n]]; try lia. unfold linspace. cbn [seq map nth]. cbn [INR]. lra.
  - replace hi with (nth (n - 1) (linspace lo hi n) 0) at 1.
    + apply nth_In. lia.
    + destruct n as [| [| n]]; try lia. unfold linspace. rewrite nth_map_seq by lia.
      assert (INR (S (S n) - 1) <> 0) by (apply not_0_INR; lia). field. assumption.
Qed.
Lemma trunc_int z : trunc (IZR z) = IZR z.
Proof.
  unfold trunc. destruct (rltb (IZR z) 0) eqn:E.
  - assert (e : Int_part (IZR (- z)) = (- z)%Z) by (unfold Int_part; rewrite <- (tech_up (IZR (- z)) (- z + 1)); [lia | rewrite plus_IZR; lra | rewrite plus_IZR; lra]).
    rewrite opp_IZR in e. rewrite e, opp_IZR. lra.
  - assert (e : Int_part (IZR z) = z) by (unfold Int_part; rewrite <- (tech_up (IZR z) (z + 1)); [lia | rewrite plus_IZR; lra | rewrite plus_IZR; lra]).
    now rewrite e.
Qed.
Lemma trunc_is_int a : exists z, trunc a = IZR z.
Proof.
  unfold trunc. destruct (rltb a 0); [exists (- Int_part (- a))%Z; now rewrite opp_IZR | eexists; reflexivity].
Qed.
Lemma trunc_between a : Rabs (trunc a) <= Rabs a /\ Rabs (a - trunc a) < 1.
Proof.
  unfold trunc, rltb. destruct (Rlt_dec a 0) as [h | h].
  - destruct (base_Int_part (- a)) as [h1 h2]. assert (h0 : 0 <= IZR (Int_part (- a))).
    { apply IZR_le. assert (-1 < Int_part (- a))%Z; [| lia]. apply lt_IZR. lra. }
    split; unfold Rabs; repeat destruct Rcase_abs; lra.
  - destruct (base_Int_part a) as [h1 h2]. assert (h0 : 0 <= IZR (Int_part a)).
    { apply IZR_le. assert (-1 < Int_part a)%Z; [| lia]. apply lt_IZR. lra. }
    split; unfold Rabs; repeat destruct Rcase_abs; lra.
Qed.

(** ** anchors *)
Definition fl_le (a b : fl) : Prop := fl_ltb b a = false.
Lemma fl_ltb_trans_le a b c : a <> NaN -> b <> NaN -> c <> NaN -> fl_ltb a b = true -> fl_ltb c b = false -> fl_ltb a c = true.
Proof.
  unfold fl_ltb, rltb. destruct a, b, c; try congruence; cbn; intros _ _ _; repeat match goal with |- context [if Rlt_dec ?u ?v then _ else _] => destruct (Rlt_dec u v) end; intros; try congruence; lra.
Qed.
Lemma fl_ltb_irrefl a : fl_ltb a a = false.
Proof. unfold fl_ltb, rltb. destruct a; auto. destruct (Rlt_dec x x); auto; lra. Qed.
Lemma fl_ltb_asym a b : fl_ltb a b = true -> fl_ltb b a = false.
Proof. unfold fl_ltb, rltb. destruct a, b; auto; repeat match goal with |- context [if Rlt_dec ?u ?v then _ else _] => destruct (Rlt_dec u v) end; intros; try congruence; lra. Qed.
Lemma argmin_from_spec : forall l pre best vbest,
  (forall y, In y (pre ++ l) -> y <> NaN) ->
  nth_error pre best = Some vbest ->
  (forall k y, nth_error pre k = Some y -> fl_ltb y vbest = false /\ ((k < best)%nat -> fl_ltb vbest y = true)) ->
  exists v, nth_error (pre ++ l) (argmin_from (List.length pre) best vbest l) = Some v /\
    forall k y, nth_error (pre ++ l) k = Some y -> fl_ltb y v = false /\ ((k < argmin_from (List.length pre) best vbest l)%nat -> fl_ltb v y = true).
Proof.
  induction l as [| a l IH]; intros pre best vbest hn hb hp; cbn [argmin_from].
  - exists vbest. rewrite app_nil_r. split; auto.
  - assert (e : pre ++ a :: l = (pre ++ [a]) ++ l) by now rewrite <- app_assoc.
    assert (el : List.length (pre ++ [a]) = S (List.length pre)) by (rewrite app_length; cbn; lia).
    assert (bl : (best < List.length pre)%nat) by (apply nth_error_Some; congruence).
    assert (na : a <> NaN) by (apply hn; apply in_or_app; right; left; auto).
    assert (nb : vbest <> NaN) by (apply hn; apply in_or_app; left; eapply nth_error_In; eauto).
    destruct (fl_ltb a vbest) eqn:E; rewrite e, <- el; apply IH; try (rewrite <- e; exact hn).
    + rewrite nth_error_app2 by lia. now rewrite Nat.sub_diag.
    + intros k y hk. destruct (Nat.lt_ge_cases k (List.length pre)) as [h | h].
      * rewrite nth_error_app1 in hk by lia. destruct (hp k y hk) as [h1 h2].
        assert (ny : y <> NaN) by (apply hn; apply in_or_app; left; eapply nth_error_In; eauto).
        assert (ay : fl_ltb a y = true) by (eapply fl_ltb_trans_le; [exact na | exact nb | exact ny | exact E | exact h1]).
        split; [now apply fl_ltb_asym | auto].
      * rewrite nth_error_app2 in hk by lia. destruct (k - List.length pre)%nat as [| q] eqn:Q; cbn in hk; [| destruct q; discriminate].
        injection hk as <-. split; [apply fl_ltb_irrefl | intro; lia].
    + rewrite nth_error_app1 by lia. exact hb.
    + intros k y hk. destruct (Nat.lt_ge_cases k (List.length pre)) as [h | h].
      * rewrite nth_error_app1 in hk by lia. now apply hp.
      * rewrite nth_error_app2 in hk by lia. destruct (k - List.length pre)%nat as [| q] eqn:Q; cbn in hk; [| destruct q; discriminate].
        injection hk as <-. split; [exact E | intro; lia].
Qed.
Lemma argmin_spec l : l <> [] -> (forall y, In y l -> y <> NaN) ->
  exists v, nth_error l (argmin l) = Some v /\
    forall k y, nth_error l k = Some y -> fl_ltb y v = false /\ ((k < argmin l)%nat -> fl_ltb v y = true).
Proof.
  intros h hn. destruct l as [| a l]; [congruence |]. cbn [argmin].
  apply (argmin_from_spec l [a] 0 a); [exact hn | reflexivity |].
  intros [| k] y hk; cbn in hk; [| destruct k; discriminate]. injection hk as <-. split; [apply fl_ltb_irrefl | intro; lia].
Qed.

(** ** panels *)
Lemma set_nth_int_self (b : bool) row j : (j < List.length row)%nat -> (b = true -> exists z, nth j row 0 = IZR z) ->
  set_nth j (if b then trunc (nth j row 0) else nth j row 0) row = row.
Proof. intros h hb. destruct b; [destruct (hb eq_refl) as [z e]; rewrite e, trunc_int, <- e |]; now apply set_nth_self. Qed.
Lemma in_bounds_iff a n : in_bounds a n = true <-> (0 <= a < Z.of_nat n)%Z.
Proof. unfold in_bounds. rewrite andb_true_iff, Z.leb_le, Z.ltb_lt. tauto. Qed.
Section P.
Variable ppf : R -> R.
Variable predict : list (list R) -> list R * list R.
Variable is_int : bool.
Variable xi : list (list R).
Variable zi : list fl.
Variables box_lo box_hi : list R.
Variable nt : nat.
Variable show_data : bool.
Local Notation panel := (panel ppf predict is_int xi zi box_lo box_hi nt show_data).
Local Notation dim_loop := (dim_loop ppf predict is_int xi zi box_lo box_hi nt show_data).
Local Notation anchor_loop := (anchor_loop ppf predict is_int xi zi box_lo box_hi nt show_data).
Lemma panel_ok first k j : snd (panel first k j) = None.
Proof. destruct first; reflexivity. Qed.
Definition numbered (na i k : nat) (dq : nat * Z) : nat * list draw :=
  ((na * fst dq + i + 1)%nat, fst (panel (Nat.eqb i 0 && Nat.eqb (fst dq) 0) k (Z.to_nat (snd dq)))).
Lemma dim_loop_ok D na i k : forall dims d, Forall (fun j => in_bounds j D = true) dims ->
  dim_loop D na i k d dims = (map (numbered na i k) (combine (seq d (List.length dims)) dims), None).
Proof.
  induction dims as [| j dims IH]; intros d h; [reflexivity |]. inversion h as [| ? ? h1 h2]; subst. cbn [PlotModel.dim_loop List.length seq combine map].
  rewrite h1, panel_ok, (IH (S d) h2). reflexivity.
Qed.
Lemma dim_loop_bad D na i k : forall dims1 j dims2 d, Forall (fun j => in_bounds j D = true) dims1 -> in_bounds j D = false ->
  dim_loop D na i k d (dims1 ++ j :: dims2) = (map (numbered na i k) (combine (seq d (List.length dims1)) dims1), Some IndexErr).
Proof.
  induction dims1 as [| a dims1 IH]; intros j dims2 d h hj; cbn [PlotModel.dim_loop List.length seq combine map app]; [now rewrite hj |].
  inversion h as [| ? ? h1 h2]; subst. rewrite h1, panel_ok, (IH j dims2 (S d) h2 hj). reflexivity.
Qed.
Definition column_panels (na : nat) (dims : list Z) (ik : nat * Z) : list (nat * list draw) :=
  map (numbered na (fst ik) (Z.to_nat (snd ik))) (combine (seq 0 (List.length dims)) dims).
Lemma anchor_loop_ok D na dims : Forall (fun j => in_bounds j D = true) dims -> forall ks i,
  Forall (fun k => in_bounds k (List.length xi) = true) ks ->
  anchor_loop D na i dims ks = (flat_map (column_panels na dims) (combine (seq i (List.length ks)) ks), None).
Proof.
  intros hd. induction ks as [| k ks IH]; intros i h; [reflexivity |]. inversion h as [| ? ? h1 h2]; subst. cbn [PlotModel.anchor_loop List.length seq combine flat_map].
  rewrite h1, dim_loop_ok by exact hd. cbn [snd fst]. rewrite (IH (S i) h2). reflexivity.
Qed.
Lemma anchor_loop_bad D na dims : Forall (fun j => in_bounds j D = true) dims -> forall ks1 k ks2 i,
  Forall (fun k => in_bounds k (List.length xi) = true) ks1 -> in_bounds k (List.length xi) = false ->
  anchor_loop D na i dims (ks1 ++ k :: ks2) = (flat_map (column_panels na dims) (combine (seq i (List.length ks1)) ks1), Some IndexErr).
Proof.
  intros hd. induction ks1 as [| a ks1 IH]; intros k ks2 i h hk; cbn [PlotModel.anchor_loop List.length seq combine flat_map app]; [now rewrite hk |].
  inversion h as [| ? ? h1 h2]; subst. rewrite h1, dim_loop_ok by exact hd. cbn [snd fst]. rewrite (IH k ks2 (S i) h2 hk). reflexivity.
Qed.
Lemma column_numbers na dims ik : map fst (column_panels na dims ik) = map (fun q => (na * q + fst ik + 1)%nat) (seq 0 (List.length dims)).
Proof.
  unfold column_panels. rewrite map_map. cbn [numbered fst].
  change (map (fun x : nat * Z => (na * fst x + fst ik + 1)%nat) (combine (seq 0 (List.length dims)) dims) = map (fun q => (na * q + fst ik + 1)%nat) (seq 0 (List.length dims))).
  rewrite <- (map_map fst (fun q => (na * q + fst ik + 1)%nat)). f_equal.
  generalize 0%nat. induction dims as [| j dims IH]; intro s; cbn; [reflexivity |]. f_equal. apply IH.
Qed.
Lemma combine_seq_in (A : Type) (l : list A) : forall s i a, In (i, a) (combine (seq s (List.length l)) l) <-> (s <= i)%nat /\ nth_error l (i - s) = Some a.
Proof.
  induction l as [| b l IH]; intros s i a; cbn [List.length seq combine].
  - split; [intros [] | intros [_ h]; destruct (i - s)%nat; discriminate].
  - cbn [In]. rewrite IH. split.
    + intros [e | [h1 h2]].
      * injection e as <- <-. rewrite Nat.sub_diag. auto.
      * split; [lia |]. replace (i - s)%nat with (S (i - S s)) by lia. exact h2.
    + intros [h1 h2]. destruct (i - s)%nat as [| q] eqn:Q.
      * left. injection h2 as ->. f_equal. lia.
      * right. split; [lia |]. replace (i - S s)%nat with q by lia. exact h2.
Qed.
Lemma numbers_perm na dims : forall ks, na = List.length ks ->
  Permutation (map fst (flat_map (column_panels na dims) (combine (seq 0 (List.length ks)) ks))) (seq 1 (List.length dims * na)).
Proof.
  intros ks hn.
  assert (e : map fst (flat_map (column_panels na dims) (combine (seq 0 (List.length ks)) ks)) =
              flat_map (fun i => map (fun q => (na * q + i + 1)%nat) (seq 0 (List.length dims))) (seq 0 na)).
  { assert (G : forall l s, map fst (flat_map (column_panels na dims) (combine (seq s (List.length l)) l)) =
              flat_map (fun i => map (fun q => (na * q + i + 1)%nat) (seq 0 (List.length dims))) (seq s (List.length l))).
    { induction l as [| k l IH]; intro s; cbn [List.length seq combine flat_map]; [reflexivity |].
      rewrite map_app, column_numbers, IH. reflexivity. }
    rewrite (G ks 0%nat). f_equal. now rewrite hn. }
  rewrite e. clear e hn ks. set (nd := List.length dims). apply NoDup_Permutation.
  - assert (H : forall m s, (s + m <= na)%nat -> NoDup (flat_map (fun i => map (fun q => (na * q + i + 1)%nat) (seq 0 nd)) (seq s m))).
    { induction m as [| m IH]; intros s hs; cbn [seq flat_map]; [constructor |].
      assert (N1 : NoDup (map (fun q => (na * q + s + 1)%nat) (seq 0 nd))).
      { apply FinFun.Injective_map_NoDup; [| apply seq_NoDup]. intros a b hab. assert (na <> 0)%nat by lia. nia. }
      specialize (IH (S s) ltac:(lia)). revert N1 IH.
      assert (D : forall y, In y (map (fun q => (na * q + s + 1)%nat) (seq 0 nd)) -> ~ In y (flat_map (fun i => map (fun q => (na * q + i + 1)%nat) (seq 0 nd)) (seq (S s) m))).
      { intros y hy hy'. apply in_map_iff in hy as [q [<- _]]. apply in_flat_map in hy' as [i [hi hy']]. apply in_seq in hi.
        apply in_map_iff in hy' as [q' [e' _]]. assert (q = q')%nat by nia. subst. lia. }
      revert D. generalize (map (fun q => (na * q + s + 1)%nat) (seq 0 nd)). generalize (flat_map (fun i => map (fun q => (na * q + i + 1)%nat) (seq 0 nd)) (seq (S s) m)).
      intros l2 l1 D N1 N2. induction l1 as [| a l1 IHl]; cbn; [exact N2 |]. inversion N1; subst. constructor.
      - rewrite in_app_iff. intros [h | h]; [tauto |]. exact (D a (or_introl eq_refl) h).
      - apply IHl; auto. intros y hy. apply D. now right. }
    apply H. lia.
  - apply seq_NoDup.
  - intro y. rewrite in_seq, in_flat_map. split.
    + intros [i [hi hy]]. apply in_seq in hi. apply in_map_iff in hy as [q [<- hq]]. apply in_seq in hq. nia.
    + intros [h1 h2]. assert (na <> 0)%nat by nia. exists ((y - 1) mod na)%nat. split.
      * apply in_seq. split; [lia |]. cbn. apply Nat.mod_upper_bound. lia.
      * apply in_map_iff. exists ((y - 1) / na)%nat. split.
        -- pose proof (Nat.div_mod (y - 1) na ltac:(lia)). lia.
        -- apply in_seq. split; [lia |]. cbn. apply Nat.div_lt_upper_bound; lia.
Qed.
Lemma column_in na dims ks i d k j : nth_error ks i = Some k -> nth_error dims d = Some j ->
  In (numbered na i (Z.to_nat k) (d, j)) (flat_map (column_panels na dims) (combine (seq 0 (List.length ks)) ks)).
Proof.
  intros hk hj. apply in_flat_map. exists (i, k). split.
  - apply combine_seq_in. rewrite Nat.sub_0_r. split; [lia | exact hk].
  - unfold column_panels. cbn [fst snd]. apply in_map. apply combine_seq_in. rewrite Nat.sub_0_r. split; [lia | exact hj].
Qed.
End P.
