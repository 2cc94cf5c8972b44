(** Lemmas about the SVGD model. *)
From Coq Require Import Reals Lra Lia List Bool Arith Sorted Permutation.
From Coquelicot Require Import Coquelicot.
From Verif Require Import ConfigModel FlModel PriorModel ParamModel SvgdModel SelectProofs NutsProofs.
Import List ListNotations.
Notation length := List.length.
Local Open Scope R_scope.

(** * sums over pairs *)
Section Sums.
Context (A : Type).
Lemma sum_ext (f g : A -> R) l : (forall x, In x l -> f x = g x) -> sum_list (map f l) = sum_list (map g l).
Proof. intro h. f_equal. apply map_ext_in. exact h. Qed.
Lemma sum_plus (f g : A -> R) l : sum_list (map (fun x => f x + g x) l) = sum_list (map f l) + sum_list (map g l).
Proof. induction l as [| x l IH]; [unfold sum_list; cbn; ring |]. cbn [map]. rewrite !sum_cons, IH. ring. Qed.
Lemma sum_scal (c : R) (f : A -> R) l : sum_list (map (fun x => c * f x) l) = c * sum_list (map f l).
Proof. induction l as [| x l IH]; [unfold sum_list; cbn; ring |]. cbn [map]. rewrite !sum_cons, IH. ring. Qed.
Lemma sum_0 l : sum_list (map (fun _ : A => 0) l) = 0.
Proof. induction l as [| x l IH]; [reflexivity |]. cbn [map]. rewrite sum_cons, IH. ring. Qed.
Lemma sum_swap (g : A -> A -> R) l k : sum_list (map (fun x => sum_list (map (fun y => g x y) k)) l) = sum_list (map (fun y => sum_list (map (fun x => g x y) l)) k).
Proof.
  induction l as [| x l IH]; cbn [map].
  - rewrite sum_0. reflexivity.
  - rewrite sum_cons, IH, <- sum_plus. apply sum_ext. intros y _. now rewrite sum_cons.
Qed.
Lemma sum_antisym (g : A -> A -> R) l : (forall x y, g x y = - g y x) -> sum_list (map (fun x => sum_list (map (fun y => g x y) l)) l) = 0.
Proof.
  intro h. set (S := sum_list (map (fun x => sum_list (map (fun y => g x y) l)) l)). assert (S = - S); [| lra]. unfold S at 1. rewrite sum_swap.
  unfold S.
  replace (- sum_list (map (fun x => sum_list (map (fun y => g x y) l)) l)) with (-1 * sum_list (map (fun x => sum_list (map (fun y => g x y) l)) l)) by ring.
  rewrite <- sum_scal. apply sum_ext. intros x _. rewrite <- sum_scal. apply sum_ext. intros y _. rewrite (h y x). ring.
Qed.
Lemma sum_filter (f : A -> R) (b : A -> bool) l : sum_list (map (fun x => if b x then f x else 0) l) = sum_list (map f (filter b l)).
Proof. induction l as [| x l IH]; [reflexivity |]. cbn [map filter]. rewrite sum_cons, IH. destruct (b x); cbn [map]; [now rewrite sum_cons | ring]. Qed.
End Sums.

(** * squared distances and kernel *)
Lemma sq_dist_sym u : forall v, sq_dist u v = sq_dist v u.
Proof.
  unfold sq_dist. induction u as [| a u IH]; intros [| b v]; cbn [zip_with map]; try reflexivity. rewrite !sum_cons, IH. ring.
Qed.
Lemma sq_dist_pos u : forall v, 0 <= sq_dist u v.
Proof. unfold sq_dist. induction u as [| a u IH]; intros [| b v]; cbn [zip_with map]; try (unfold sum_list; cbn; lra). rewrite sum_cons. specialize (IH v). assert (q := Rle_0_sqr (a - b)). unfold Rsqr in q. lra. Qed.
Lemma sq_dist_0 u : forall v, length u = length v -> (sq_dist u v = 0 <-> u = v).
Proof.
  induction u as [| a u IH]; intros [| b v] hl; try discriminate; [split; [reflexivity | intros _; unfold sq_dist, sum_list; cbn; reflexivity] |].
  unfold sq_dist. cbn [zip_with map]. rewrite sum_cons. change (sum_list (map (fun d => d * d) (zip_with Rminus u v))) with (sq_dist u v). assert (p := sq_dist_pos u v). split.
  - intro h. assert (q := Rle_0_sqr (a - b)). unfold Rsqr in q. assert (e1 : (a - b) * (a - b) = 0) by lra. assert (e2 : sq_dist u v = 0) by lra. apply IH in e2; [| cbn in hl; lia]. subst. f_equal. nra.
  - intro h. injection h as -> ->. rewrite (proj2 (IH v eq_refl) eq_refl). ring.
Qed.
(** squared distance as a function of one coordinate of the first point *)
Lemma sq_dist_upd u : forall v c t, (c < length u)%nat -> length u = length v -> sq_dist (upd u c t) v = sq_dist u v - (nth c u 0 - nth c v 0) * (nth c u 0 - nth c v 0) + (t - nth c v 0) * (t - nth c v 0).
Proof.
  induction u as [| a u IH]; intros [| b v] c t hc hl; cbn in hc, hl; try lia. destruct c as [| c]; cbn [upd nth].
  - unfold sq_dist. cbn [zip_with map]. rewrite !sum_cons. ring.
  - unfold sq_dist. cbn [zip_with map]. rewrite !sum_cons. specialize (IH v c t ltac:(lia) ltac:(lia)). unfold sq_dist in IH. rewrite IH. ring.
Qed.
Lemma upd_same (u : vec) c : upd u c (nth c u 0) = u.
Proof. revert c. induction u as [| a u IH]; intros [| c]; cbn; [reflexivity | reflexivity | reflexivity | now rewrite IH]. Qed.
Lemma upd_length (u : vec) c t : length (upd u c t) = length u.
Proof. revert c. induction u as [| a u IH]; intros [| c]; cbn; [reflexivity | reflexivity | reflexivity | now rewrite IH]. Qed.
Lemma upd_nth (u : vec) c t : (c < length u)%nat -> nth c (upd u c t) 0 = t.
Proof. revert c. induction u as [| a u IH]; intros [| c] h; cbn in *; try lia; [reflexivity |]. apply IH. lia. Qed.
Lemma gauss_derive (h D a b : R) : h <> 0 -> is_derive (fun t : R => exp (- (D - (a - b) * (a - b) + (t - b) * (t - b)) / h)) a (2 / h * exp (- D / h) * (b - a)).
Proof.
  intro hh. auto_derive; [exact I |]. replace (- (D - (a - b) * (a - b) + (a + - b) * (a + - b)) * / h) with (- D / h) by (field; exact hh). unfold Rdiv. ring.
Qed.
Lemma kernel_derive h (u v : vec) c : h <> 0 -> (c < length u)%nat -> length u = length v ->
  is_derive (fun t : R => kernel h (upd u c t) v) (nth c u 0) (2 / h * kernel h u v * (nth c v 0 - nth c u 0)).
Proof.
  intros hh hc hl. apply (is_derive_ext (fun t : R => exp (- (sq_dist u v - (nth c u 0 - nth c v 0) * (nth c u 0 - nth c v 0) + (t - nth c v 0) * (t - nth c v 0)) / h))).
  - intro t. unfold kernel. now rewrite sq_dist_upd.
  - apply gauss_derive. exact hh.
Qed.

(** * clipping *)
Lemma clip_length x : forall lo hi, length lo = length x -> length hi = length x -> length (clip x lo hi) = length x.
Proof. induction x as [| a x IH]; intros [| l lo] [| h hi] h1 h2; cbn in *; try lia. rewrite IH; lia. Qed.
Lemma clip_nth x : forall lo hi c, length lo = length x -> length hi = length x -> (c < length x)%nat -> nth c (clip x lo hi) 0 = clip1 (nth c x 0) (nth c lo 0) (nth c hi 0).
Proof. induction x as [| a x IH]; intros [| l lo] [| h hi] c h1 h2 hc; cbn in *; try lia. destruct c as [| c]; [reflexivity |]. apply IH; lia. Qed.
Lemma clip1_in a l h : l <= h -> l <= clip1 a l h <= h.
Proof. intro hl. unfold clip1. split; [apply Rmin_glb; [apply Rmax_r | exact hl] | apply Rmin_r]. Qed.
Lemma clip1_id a l h : l <= a <= h -> clip1 a l h = a.
Proof. intro hl. unfold clip1. rewrite Rmax_left by lra. apply Rmin_left. lra. Qed.
(** membership in a box *)
Definition in_box (lo hi x : vec) : Prop := length x = length lo /\ length hi = length lo /\ forall c, (c < length x)%nat -> nth c lo 0 <= nth c x 0 <= nth c hi 0.
Lemma clip_in_box lo hi x : length lo = length x -> length hi = length x -> (forall c, (c < length x)%nat -> nth c lo 0 <= nth c hi 0) -> in_box lo hi (clip x lo hi).
Proof.
  intros h1 h2 hb. unfold in_box. rewrite clip_length by assumption. split; [lia |]. split; [lia |]. intros c hc. rewrite clip_nth by assumption. apply clip1_in. now apply hb.
Qed.
Lemma clip_id lo hi x : in_box lo hi x -> clip x lo hi = x.
Proof.
  intros [h1 [h2 h3]]. apply (nth_ext _ _ 0 0); [apply clip_length; lia |]. intros c hc. rewrite clip_length in hc by lia. rewrite clip_nth by lia. apply clip1_id. now apply h3.
Qed.
(** * bounds *)
Lemma normalize_bounds_len b dim lo hi : normalize_bounds b dim = Some (lo, hi) -> length lo = dim /\ length hi = dim.
Proof.
  unfold normalize_bounds. destruct b as [l u]. assert (G : (let lo := flatten l dim in let hi := flatten u dim in if Nat.eqb (length lo) dim && Nat.eqb (length hi) dim then Some (lo, hi) else None) = Some (lo, hi) -> length lo = dim /\ length hi = dim).
  { cbv zeta. destruct (Nat.eqb (length (flatten l dim)) dim) eqn:e1; [| discriminate]. destruct (Nat.eqb (length (flatten u dim)) dim) eqn:e2; [| discriminate]. cbn [andb]. intro h.
    apply Nat.eqb_eq in e1, e2. assert (lo = flatten l dim) by congruence. assert (hi = flatten u dim) by congruence. now subst. }
  destruct l as [a | l]; [destruct u as [b | u] |]; [| exact G | exact G]. intro h. assert (lo = repeat a dim) by congruence. assert (hi = repeat b dim) by congruence. subst. now rewrite !repeat_length.
Qed.
Lemma precond_spec d dim j p : resolve_preconditioner d dim j = Some p -> length p = dim /\ forall a, In a p -> 0 < a.
Proof.
  unfold resolve_preconditioner. destruct d as [d |].
  - cbv zeta. set (d' := match d with [a] => repeat a dim | _ => d end). destruct (Nat.eqb (length d') dim) eqn:e1; [| discriminate]. destruct (existsb (fun a => rleb a 0) d') eqn:e2; [discriminate |]. intro h.
    assert (p = map (fun a => Rmax a j) d') by congruence. subst p. apply Nat.eqb_eq in e1. rewrite map_length. split; [exact e1 |]. intros a ha. apply in_map_iff in ha as [b [<- hb]].
    assert (q : rleb b 0 = false). { destruct (rleb b 0) eqn:q; [| reflexivity]. exfalso. rewrite (proj2 (existsb_exists _ _)) in e2; [discriminate | now exists b]. }
    apply rleb_false in q. pose proof (Rmax_l b j). lra.
  - intro h. assert (p = repeat 1 dim) by congruence. subst p. rewrite repeat_length. split; [reflexivity |]. intros a ha. apply repeat_spec in ha. lra.
Qed.

(** * medians *)
Definition count (b : R -> bool) (l : list R) : nat := length (filter b l).
(** at most half of the entries lie strictly on either side *)
Definition is_median (l : list R) (m : R) : Prop := (2 * count (fun x => rltb x m) l <= length l)%nat /\ (2 * count (fun x => rltb m x) l <= length l)%nat.
Lemma insert_perm a l : Permutation (a :: l) (insert a l).
Proof. induction l as [| b l IH]; cbn; [apply Permutation_refl |]. destruct (rleb a b); [apply Permutation_refl |]. apply perm_trans with (b :: a :: l); [apply perm_swap | now constructor]. Qed.
Lemma isort_perm l : Permutation l (isort l).
Proof. induction l as [| a l IH]; cbn; [constructor |]. apply perm_trans with (a :: isort l); [now constructor | apply insert_perm]. Qed.
Lemma insert_sorted a l : StronglySorted Rle l -> StronglySorted Rle (insert a l).
Proof.
  induction l as [| b l IH]; intro h; cbn; [repeat constructor |]. inversion h as [| b' l' h1 h2]; subst. destruct (rleb a b) eqn:e.
  - apply rleb_iff in e. constructor; [exact h |]. constructor; [exact e |]. rewrite Forall_forall in *. intros x hx. specialize (h2 x hx). lra.
  - apply rleb_false in e. constructor; [now apply IH |]. rewrite Forall_forall in *. intros x hx. apply (Permutation_in _ (Permutation_sym (insert_perm a l))) in hx as [<- | hx]; [lra | now apply h2].
Qed.
Lemma isort_sorted l : StronglySorted Rle (isort l).
Proof. induction l as [| a l IH]; cbn; [constructor |]. now apply insert_sorted. Qed.
Lemma count_perm b l l' : Permutation l l' -> count b l = count b l'.
Proof.
  unfold count. induction 1 as [| x l l' _ IH | x y l | l l' l'' _ IH1 _ IH2]; cbn; [reflexivity | destruct (b x); cbn; lia | destruct (b x), (b y); reflexivity | lia].
Qed.
Lemma sorted_nth l : StronglySorted Rle l -> forall i j, (i <= j)%nat -> (j < length l)%nat -> nth i l 0 <= nth j l 0.
Proof.
  induction 1 as [| a l h1 IH h2]; intros i j hij hj; cbn in hj; [lia |]. destruct j as [| j]; [assert (i = 0)%nat by lia; subst; lra |]. destruct i as [| i]; cbn.
  - rewrite Forall_forall in h2. apply h2, nth_In. lia.
  - apply IH; lia.
Qed.
Lemma count_le l : forall (b : R -> bool) k, (forall i, (k <= i)%nat -> (i < length l)%nat -> b (nth i l 0) = false) -> (count b l <= k)%nat.
Proof.
  unfold count. induction l as [| a l IH]; intros b k h; [cbn; lia |]. destruct k as [| k].
  - cbn. assert (q := h 0%nat ltac:(lia) ltac:(cbn; lia)). cbn in q. rewrite q. apply IH. intros i _ hi. apply (h (S i)); [lia | cbn; lia].
  - assert (I := IH b k (fun i h1 h2 => h (S i) ltac:(lia) ltac:(cbn; lia))). cbn. destruct (b a); cbn; lia.
Qed.
Lemma count_le_rev l : forall (b : R -> bool) k, (forall i, (i < k)%nat -> (i < length l)%nat -> b (nth i l 0) = false) -> (count b l <= length l - k)%nat.
Proof.
  unfold count. induction l as [| a l IH]; intros b k h; [cbn; lia |]. destruct k as [| k].
  - assert (filt : (length (filter b (a :: l)) <= length (a :: l))%nat); [| cbn in *; lia]. generalize (a :: l). induction l0 as [| x l0 IH']; cbn; [lia |]. destruct (b x); cbn; lia.
  - cbn. assert (q := h 0%nat ltac:(lia) ltac:(cbn; lia)). cbn in q. rewrite q. apply IH. intros i h1 h2. apply (h (S i)); [lia | cbn; lia].
Qed.
Lemma median_spec l : l <> [] -> is_median l (median l) /\ exists a b, In a l /\ In b l /\ a <= median l <= b.
Proof.
  intro ne. set (s := isort l). assert (P := isort_perm l). fold s in P. assert (L := Permutation_length P). assert (S := isort_sorted l). fold s in S.
  assert (hm : (0 < length l)%nat) by (destruct l; [contradiction | cbn; lia]).
  set (i := ((length l - 1) / 2)%nat). set (j := (length l / 2)%nat).
  assert (hij : (i <= j)%nat) by (apply Nat.div_le_mono; lia). assert (hj : (j < length l)%nat) by (apply Nat.div_lt; lia).
  assert (e1 : (length l <= 2 * (i + 1))%nat). { unfold i. assert (q := Nat.div_mod (length l - 1) 2 ltac:(lia)). assert (r := Nat.mod_upper_bound (length l - 1) 2 ltac:(lia)). lia. }
  assert (e2 : (2 * j <= length l)%nat) by (unfold j; apply Nat.mul_div_le; lia).
  assert (e3 : (2 * i + 1 <= length l)%nat) by (assert (q := Nat.mul_div_le (length l - 1) 2 ltac:(lia)); fold i in q; lia).
  assert (em : median l = (nth i s 0 + nth j s 0) / 2) by reflexivity.
  assert (sij : nth i s 0 <= nth j s 0) by (apply sorted_nth; [exact S | exact hij | lia]).
  split; [split |].
  - rewrite (count_perm _ _ _ P). assert (c : (count (fun x => rltb x (median l)) s <= j)%nat); [| lia]. apply count_le. intros k h1 h2. apply rltb_false. rewrite em. assert (q := sorted_nth s S j k h1 h2). lra.
  - rewrite (count_perm _ _ _ P). assert (c : (count (fun x => rltb (median l) x) s <= length s - (i + 1))%nat); [| lia]. apply count_le_rev. intros k h1 h2. apply rltb_false. rewrite em. assert (q := sorted_nth s S k i ltac:(lia) ltac:(lia)). lra.
  - exists (nth i s 0), (nth j s 0). split; [apply (Permutation_in _ (Permutation_sym P)), nth_In; lia |]. split; [apply (Permutation_in _ (Permutation_sym P)), nth_In; lia |]. rewrite em. lra.
Qed.
