(** Theorems about the design utilities (C68, C69, C84). *)
From Coq Require Import Reals Lra Lia List Bool Arith.
From Verif Require Import FlModel DesignModel NutsProofs NutsProofs6 DesignProofs.
Import ListNotations.
Local Open Scope R_scope.

(** C68: the grid lists every combination of levels exactly once, in lexicographic order of the level numbers. *)
Theorem C68_grid dim (m : list nat) xmin xmax : (0 < dim)%nat -> length m = dim -> (dim <= length xmin)%nat -> (dim <= length xmax)%nat ->
  exists x, regulargrid dim (inr m) xmin xmax = Some x /\ length x = fold_right Nat.mul 1%nat m /\
  (forall k, in_range m k -> (rank m k < length x)%nat /\ nth (rank m k) x [] = grid_point xmin xmax m k) /\
  (forall r, (r < length x)%nat -> exists! k, in_range m k /\ rank m k = r).
Proof.
  intros hd hm h1 h2. unfold regulargrid. cbn [counts].
  assert (e1 : Nat.ltb (length m) dim = false) by (apply Nat.ltb_ge; lia). assert (e2 : Nat.ltb (length xmin) dim = false) by (apply Nat.ltb_ge; lia).
  assert (e3 : Nat.ltb (length xmax) dim = false) by (apply Nat.ltb_ge; lia). assert (e4 : Nat.eqb (length m) 0 = false) by (apply Nat.eqb_neq; lia).
  rewrite e1, e2, e3, e4. cbn [orb]. assert (ef : firstn dim m = m) by (rewrite <- hm; apply firstn_all). rewrite ef, Nat.eqb_refl. cbn [orb].
  eexists. split; [reflexivity |]. rewrite map_length, seq_length.
  assert (ep : forall l, prod l = fold_right Nat.mul 1%nat l) by (induction l as [| c l IH]; [reflexivity | cbn; now rewrite IH]).
  split; [apply ep |]. split.
  - intros k hk. assert (l := rank_lt m k hk). split; [exact l |].
    set (f := fun r => map _ (seq 0 dim)). rewrite (nth_indep _ [] (f 0%nat)) by (now rewrite map_length, seq_length).
    rewrite map_nth, seq_nth by exact l. unfold f. rewrite Nat.add_0_l. rewrite <- hm. now apply grid_row.
  - intros r hr. destruct (unrank_ok m r hr) as [u1 u2]. exists (unrank m r). split; [now split |].
    intros k [k1 k2]. apply (rank_inj m); [assumption | assumption | congruence].
Qed.
Print Assumptions C68_grid.
(** an integer count is the same count on every coordinate; rows are inside the box and pairwise distinct *)
Theorem C68_box_and_distinct dim (n : nat + list nat) xmin xmax x : (0 < dim)%nat -> regulargrid dim n xmin xmax = Some x ->
  (forall c, n = inl c -> regulargrid dim (inr (repeat c dim)) xmin xmax = Some x) /\
  (forall p, In p x -> length p = dim /\ ((forall i, (i < dim)%nat -> nth i xmin 0 <= nth i xmax 0) ->
     forall i, (i < dim)%nat -> nth i xmin 0 <= nth i p 0 <= nth i xmax 0)) /\
  ((forall i, (i < dim)%nat -> nth i xmin 0 < nth i xmax 0) -> NoDup x).
Proof.
  intros hd e. split; [intros c ->; exact e |]. unfold regulargrid in e. set (l := counts dim n) in *. clearbody l. cbv zeta in e.
  destruct (Nat.ltb (length l) dim) eqn:e1; [discriminate |]. apply Nat.ltb_ge in e1. destruct (_ || _ || _) eqn:e2 in e; [discriminate |]. clear e2.
  set (m := firstn dim l) in *. assert (hm : length m = dim) by (unfold m; rewrite firstn_length; lia).
  destruct (_ || _)%bool eqn:e2 in e; [| discriminate]. apply orb_true_iff in e2 as [e2 | e2]; apply Nat.eqb_eq in e2; [| lia]. rewrite e2 in e. clear e2.
  assert (hx : x = map (fun r => grid_point xmin xmax m (unrank m r)) (seq 0 (prod m))).
  { injection e as <-. apply map_ext_in. intros r hr. apply in_seq in hr. destruct (unrank_ok m r) as [u1 u2]; [lia |].
    rewrite <- (grid_row xmin xmax m _ u1), u2, hm. reflexivity. }
  subst x. clear e. split.
  - intros p hp. apply in_map_iff in hp as [r [<- hr]]. apply in_seq in hr. destruct (unrank_ok m r) as [u1 u2]; [lia |].
    split; [unfold grid_point; rewrite map_length, seq_length; exact hm |]. intros hb i hi. unfold grid_point. rewrite nth_map_seq by lia.
    apply lev_box; [now apply hb | apply in_range_nth; [exact u1 | lia]].
  - intro hb. assert (N : forall a n, (a + n <= prod m)%nat -> NoDup (map (fun r => grid_point xmin xmax m (unrank m r)) (seq a n))); [| now apply N].
    intros a k. revert a. induction k as [| k IH]; intros a ha; cbn [seq map]; [constructor |]. constructor; [| apply IH; lia].
    intro h. apply in_map_iff in h as [r [er hr]]. apply in_seq in hr. destruct (unrank_ok m r) as [u1 u2]; [lia |]. destruct (unrank_ok m a) as [u3 u4]; [lia |].
    apply grid_point_inj in er; [| assumption | assumption | intros i hi; apply hb; lia]. rewrite er, u4 in u2. lia.
Qed.
Print Assumptions C68_box_and_distinct.
Example C68_example : regulargrid 2 (inr [2; 3]%nat) [0; 10] [1; 12] = Some [[0; 10]; [0; 11]; [0; 12]; [1; 10]; [1; 11]; [1; 12]].
Proof.
  destruct (C68_grid 2 [2; 3]%nat [0; 10] [1; 12]) as [x [e [hl [h _]]]]; [lia | reflexivity | cbn; lia | cbn; lia |]. rewrite e. f_equal.
  assert (N : forall r k p, in_range [2; 3]%nat k -> rank [2; 3]%nat k = r -> grid_point [0; 10] [1; 12] [2; 3]%nat k = p -> nth r x [] = p).
  { intros r k p hk <- <-. now apply h. }
  apply (nth_ext _ _ [] []); [exact hl |]. rewrite hl. cbn [fold_right Nat.mul Nat.add]. intros r hr.
  assert (L : forall a b n k v, a + (b - a) * INR k / INR (n - 1) = v -> lev a b n k = v) by (intros; assumption).
  destruct r as [| [| [| [| [| [| r]]]]]]; [| | | | | | lia]; cbn [nth].
  - apply (N _ [0; 0]%nat); [repeat constructor | reflexivity | unfold grid_point; cbn [length seq map nth]; repeat f_equal; apply L; cbn; field].
  - apply (N _ [0; 1]%nat); [repeat constructor | reflexivity | unfold grid_point; cbn [length seq map nth]; repeat f_equal; apply L; cbn; field].
  - apply (N _ [0; 2]%nat); [repeat constructor | reflexivity | unfold grid_point; cbn [length seq map nth]; repeat f_equal; apply L; cbn; field].
  - apply (N _ [1; 0]%nat); [repeat constructor | reflexivity | unfold grid_point; cbn [length seq map nth]; repeat f_equal; apply L; cbn; field].
  - apply (N _ [1; 1]%nat); [repeat constructor | reflexivity | unfold grid_point; cbn [length seq map nth]; repeat f_equal; apply L; cbn; field].
  - apply (N _ [1; 2]%nat); [repeat constructor | reflexivity | unfold grid_point; cbn [length seq map nth]; repeat f_equal; apply L; cbn; field].
Qed.
(** too few counts or bounds raise; spare counts raise unless they do not change the number of rows *)
Theorem C68_errors dim (m : list nat) xmin xmax :
  ((length m < dim)%nat \/ (length xmin < dim)%nat \/ (length xmax < dim)%nat -> regulargrid dim (inr m) xmin xmax = None) /\
  ((0 < dim < length m)%nat -> fold_right Nat.mul 1%nat m <> fold_right Nat.mul 1%nat (firstn dim m) -> regulargrid dim (inr m) xmin xmax = None).
Proof.
  assert (ep : forall l, prod l = fold_right Nat.mul 1%nat l) by (induction l as [| c l IH]; [reflexivity | cbn; now rewrite IH]).
  unfold regulargrid. cbn [counts]. cbv zeta. split.
  - intros [h | [h | h]]; apply Nat.ltb_lt in h; rewrite h; cbn [orb]; rewrite ?orb_true_r; reflexivity.
  - intros h ne. rewrite <- (ep m), <- (ep (firstn dim m)) in ne. apply Nat.eqb_neq in ne. rewrite ne. assert (e : Nat.eqb dim 0 = false) by (apply Nat.eqb_neq; lia). rewrite e. cbn [orb].
    destruct (_ || _ || _ || _)%bool; reflexivity.
Qed.
Print Assumptions C68_errors.

(** C69: the "fill distance" is the smallest distance between the two point sets. *)
(** Euclidean distance, stated without the model's functions *)
Definition euclid (p q : list R) : R := sqrt (fold_right Rplus 0 (map (fun t => (fst t - snd t) ^ 2) (combine p q))).
Lemma dist_euclid p q : dist p q = euclid p q.
Proof.
  unfold dist, euclid. f_equal. revert q. induction p as [| a p IH]; intros [| b q]; try reflexivity.
  cbn [sqdist combine map fold_right fst snd]. rewrite IH. f_equal. ring.
Qed.
(** largest distance from a point of x to its nearest point of s *)
Definition fill_distance (s x : list (list R)) (D : R) : Prop :=
  (forall q, In q x -> exists p, In p s /\ euclid p q <= D) /\ (exists q, In q x /\ forall p, In p s -> D <= euclid p q) /\ exists p q, In p s /\ In q x /\ D = euclid p q.
Theorem C69_smallest_distance s x : s <> [] -> x <> [] ->
  exists v, filldist_approx s x = Some v /\ (exists p q, In p s /\ In q x /\ v = euclid p q) /\ (forall p q, In p s -> In q x -> v <= euclid p q).
Proof.
  setoid_rewrite <- dist_euclid.
  intros hs hx. destruct (cdist_nonempty s x hs hx) as [d e]. exists d. split; [now apply filldist_value |].
  destruct (np_min_spec _ _ e) as [h1 h2]. split; [apply in_cdist in h1; exact h1 |]. intros p q hp hq. apply h2. apply in_cdist. exists p, q. now repeat split.
Qed.
Print Assumptions C69_smallest_distance.
Theorem C69_never_larger s x v D : s <> [] -> x <> [] -> filldist_approx s x = Some v -> fill_distance s x D ->
  v <= D /\ (v = D <-> forall q, In q x -> (exists p, In p s /\ euclid p q = D) /\ forall p, In p s -> D <= euclid p q).
Proof.
  intros hs hx ev [h1 [[q0 [hq0 h2]] [p0 [q1 [hp0 [hq1 h3]]]]]]. destruct (C69_smallest_distance s x hs hx) as [v' [e1 [[p [q [hp [hq e2]]]] h4]]].
  assert (ew : v = v') by congruence. rewrite ew in *. clear ew ev. assert (le : v' <= D) by (rewrite h3; now apply h4). split; [exact le |]. split.
  - intros ed q' hq'. rewrite ed in h4. assert (low : forall p, In p s -> D <= euclid p q') by (intros; now apply h4). split; [| exact low].
    destruct (h1 q' hq') as [p' [hp' l]]. exists p'. split; [exact hp' |]. apply Rle_antisym; [exact l | now apply low].
  - intro h. destruct (h q hq) as [_ l]. specialize (l p hp). lra.
Qed.
Print Assumptions C69_never_larger.
Lemma dist1 a b : dist [a] [b] = Rabs (a - b).
Proof. unfold dist. cbn [sqdist]. rewrite Rplus_0_r. apply sqrt_Rsqr_abs. Qed.
(** the defect has every size: the code can return 1 (or 0) while the fill distance is any K >= 1 *)
Theorem C69_underestimates (K : R) : 1 <= K ->
  filldist_approx [[0]] [[1]; [K]] = Some 1 /\ filldist_approx [[0]] [[0]; [K]] = Some 0 /\
  fill_distance [[0]] [[1]; [K]] K /\ fill_distance [[0]] [[0]; [K]] K.
Proof.
  unfold fill_distance. setoid_rewrite <- dist_euclid.
  intro hK. assert (d0 : dist [0] [0] = 0) by (rewrite dist1, Rminus_0_r, Rabs_R0; reflexivity). assert (d1 : dist [0] [1] = 1) by (rewrite dist1, Rabs_left; lra).
  assert (dK : dist [0] [K] = K) by (rewrite dist1, Rabs_left; lra).
  split; [| split; [| split]].
  - apply filldist_value; [discriminate |]. cbn [cdist flat_map map app np_min fold_left]. rewrite d1, dK, Rmin_left by lra. reflexivity.
  - apply filldist_value; [discriminate |]. cbn [cdist flat_map map app np_min fold_left]. rewrite d0, dK, Rmin_left by lra. reflexivity.
  - split; [| split].
    + intros q [<- | [<- | []]]; exists [0]; (split; [now left |]); lra.
    + exists [K]. split; [right; now left |]. intros p [<- | []]. lra.
    + exists [0], [K]. split; [now left |]. split; [right; now left |]. now symmetry.
  - split; [| split].
    + intros q [<- | [<- | []]]; exists [0]; (split; [now left |]); lra.
    + exists [K]. split; [right; now left |]. intros p [<- | []]. lra.
    + exists [0], [K]. split; [now left |]. split; [right; now left |]. now symmetry.
Qed.
Print Assumptions C69_underestimates.
Theorem C69_degenerate s x : filldist_approx s [] = Some 0 /\ (x <> [] -> filldist_approx [] x = None).
Proof. split; [reflexivity |]. destruct x; [contradiction |]. reflexivity. Qed.
Print Assumptions C69_degenerate.

(** C84: random designs. *)
(** scaling a unit-cube sample puts it into the box, coordinate by coordinate *)
Theorem C84_scale d s l u y : Forall (fun r => length r = d) s -> length l = d -> length u = d -> scale d s l u = Some y ->
  length y = length s /\ (forall i, (i < d)%nat -> nth i l 0 < nth i u 0) /\
  forall k i, (k < length s)%nat -> (i < d)%nat ->
    nth i (nth k y []) 0 = nth i l 0 + nth i (nth k s []) 0 * (nth i u 0 - nth i l 0) /\
    nth i l 0 <= nth i (nth k y []) 0 <= nth i u 0.
Proof.
  intros hs hl hu. unfold scale, broadcast. assert (e1 : Nat.eqb (length l) d = true) by (now apply Nat.eqb_eq). assert (e2 : Nat.eqb (length u) d = true) by (now apply Nat.eqb_eq).
  rewrite e1, e2. destruct (all_lt l u) eqn:ea; [| discriminate]. destruct s as [| r0 s']; [discriminate |]. set (s := r0 :: s') in *.
  destruct (forallb (forallb unit_entry) s) eqn:ef; [| discriminate]. intro h. assert (hy : y = map (scale_row l u) s) by congruence. subst y. clear h.
  assert (hlt := all_lt_nth l u ltac:(lia) ea). split; [apply map_length |]. split; [intros i hi; apply hlt; lia |].
  intros k i hk hi. rewrite (nth_indep _ [] (scale_row l u [])) by (now rewrite map_length). rewrite map_nth.
  assert (hr : length (nth k s []) = d) by (rewrite Forall_forall in hs; apply hs; now apply nth_In).
  destruct (scale_row_nth l u (nth k s [])) as [_ hn]; [lia | lia |]. rewrite hn by lia. split; [ring |].
  rewrite forallb_forall in ef. assert (fr := ef _ (nth_In s [] hk)). rewrite forallb_forall in fr.
  assert (hin : In (nth i (nth k s []) 0) (nth k s [])) by (apply nth_In; lia). assert (ue := fr _ hin). unfold unit_entry in ue.
  apply andb_true_iff in ue as [u1 u2]. apply rleb_iff in u1. apply rleb_iff in u2. specialize (hlt i ltac:(lia)). nra.
Qed.
Print Assumptions C84_scale.
(** smallest distance between two points of a sample *)
Definition separation (s : list (list R)) (d : R) : Prop :=
  (exists i j, (i < j < length s)%nat /\ d = euclid (nth i s []) (nth j s [])) /\
  (forall i j, (i < j < length s)%nat -> d <= euclid (nth i s []) (nth j s [])).
Lemma in_pdist s v : In v (pdist s) <-> exists i j, (i < j < length s)%nat /\ v = euclid (nth i s []) (nth j s []).
Proof.
  induction s as [| x s IH]; cbn [pdist].
  - split; [intros [] | intros (i & j & h & _); cbn in h; lia].
  - rewrite in_app_iff, IH, in_map_iff. split.
    + intros [(q & <- & hq) | (i & j & h & ->)].
      * apply (In_nth _ _ []) in hq as (j & hj & <-). exists 0%nat, (S j). split; [cbn; lia | apply dist_euclid].
      * exists (S i), (S j). split; [cbn; lia | reflexivity].
    + intros ([| i] & [| j] & h & ->); cbn [length] in h; try lia.
      * left. exists (nth j s []). split; [apply dist_euclid | apply nth_In; lia].
      * right. exists i, j. split; [lia | reflexivity].
Qed.
Theorem C84_mindist s d : mindist s = Some d <-> separation s d.
Proof.
  unfold mindist. split.
  - intro h. apply np_min_spec in h as [h1 h2]. split; [now apply in_pdist |]. intros i j h. apply h2, in_pdist. now exists i, j.
  - intros [h1 h2]. apply in_pdist in h1. destruct (np_min (pdist s)) as [v |] eqn:e.
    + apply np_min_spec in e as [e1 e2]. f_equal. apply Rle_antisym; [now apply e2 |]. apply in_pdist in e1 as (i & j & h & ->). now apply h2.
    + destruct (pdist s); [destruct h1 | discriminate].
Qed.
(** the returned design is the first candidate with the largest minimal distance, mapped to the box *)
Theorem C84_maximin dim draws l u y : maximinlhs dim draws l u = Some y ->
  exists pre s post d, draws = pre ++ s :: post /\ scale dim s l u = Some y /\ separation s d /\ 0 < d /\
    (forall s' d', In s' pre -> separation s' d' -> d' < d) /\ (forall s' d', In s' post -> separation s' d' -> d' <= d).
Proof.
  unfold maximinlhs. destruct (mm_loop draws 0 None) as [[s |] |] eqn:e; [| discriminate | discriminate]. intro h.
  destruct (mm_loop_spec draws 0 None _ e) as [[_ h'] | [pre [s1 [post [d [e1 [e2 [e3 [h1 [h2 h3]]]]]]]]]]; [discriminate |].
  assert (s1 = s) by congruence. subst s1. exists pre, s, post, d.
  repeat split; auto; try (now apply C84_mindist); intros s' d' i hs; apply C84_mindist in hs; eauto.
Qed.
Print Assumptions C84_mindist.
Print Assumptions C84_maximin.
Theorem C84_low_discrepancy dim disc draws l u y : ldrandunif dim disc draws l u = Some y ->
  exists pre s post, draws = pre ++ s :: post /\ scale dim s l u = Some y /\ disc s < 1000000 /\
    (forall s', In s' pre -> disc s < disc s') /\ (forall s', In s' post -> disc s <= disc s').
Proof.
  unfold ldrandunif. destruct (ld_loop_spec disc draws 1000000 None) as [[_ ->] | [pre [s [post [e1 [-> [h1 [h2 h3]]]]]]]]; [discriminate |].
  intro h. exists pre, s, post. now repeat split.
Qed.
Print Assumptions C84_low_discrepancy.
(** when there is no design to return: no iterations, fewer than two points, or coincident points in every candidate *)
Theorem C84_raises dim draws l u :
  (forall s, In s draws -> (length s < 2)%nat \/ separation s 0) -> maximinlhs dim draws l u = None.
Proof.
  intro h. unfold maximinlhs. destruct (mm_loop draws 0 None) as [r |] eqn:e; [| reflexivity].
  destruct (mm_loop_spec draws 0 None _ e) as [[_ ->] | [pre [s [post [d [e1 [e2 [e3 [h1 _]]]]]]]]]; [reflexivity | exfalso].
  destruct (h s) as [hl | h0]; [rewrite e1; apply in_elt | | apply C84_mindist in h0; assert (d = 0) by congruence; lra].
  destruct s as [| p [| q s]]; [discriminate e3 | discriminate e3 | cbn in hl; lia].
Qed.
Print Assumptions C84_raises.
Example C84_single_point dim p draws l u : Forall (fun s => s = [p]) draws -> maximinlhs dim draws l u = None.
Proof. intro h. apply C84_raises. intros s hs. left. rewrite Forall_forall in h. rewrite (h s hs). cbn. lia. Qed.
(** Latin hypercube samples stay Latin after scaling: one point in each of the n equal strata of every coordinate *)
Definition latin (l u : list R) (d n : nat) (s : list (list R)) : Prop :=
  length s = n /\ forall i k, (i < d)%nat -> (k < n)%nat ->
    exists! j, (j < n)%nat /\ INR k * (nth i u 0 - nth i l 0) <= INR n * (nth i (nth j s []) 0 - nth i l 0) < (INR k + 1) * (nth i u 0 - nth i l 0).
Theorem C84_latin dim draws l u y n : length l = dim -> length u = dim -> maximinlhs dim draws l u = Some y ->
  (forall s, In s draws -> Forall (fun r => length r = dim) s /\ latin (repeat 0 dim) (repeat 1 dim) dim n s) -> latin l u dim n y.
Proof.
  intros hl hu h hd. destruct (C84_maximin _ _ _ _ _ h) as [pre [s [post [d [e1 [e2 _]]]]]]. destruct (hd s) as [h1 [h2 h3]]; [rewrite e1; apply in_elt |].
  destruct (C84_scale dim s l u y h1 hl hu e2) as [e3 [hlt e4]]. split; [congruence |]. intros i k hi hk. destruct (h3 i k hi hk) as [j [[hj b] uq]].
  assert (r0 : nth i (repeat 0 dim) 0 = 0) by apply nth_repeat. assert (r1 : nth i (repeat 1 dim) 0 = 1) by (rewrite (nth_indep _ 0 1) by (now rewrite repeat_length); apply nth_repeat).
  rewrite r0, r1 in *. specialize (hlt i hi). exists j. split.
  - split; [exact hj |]. destruct (e4 j i) as [-> _]; [lia | exact hi |]. set (w := nth i u 0 - nth i l 0) in *. assert (0 < w) by (unfold w; lra).
    set (v := nth i (nth j s []) 0) in *. split; [| ]; nra.
  - intros j' [hj' b']. apply uq. split; [exact hj' |]. destruct (e4 j' i) as [e5 _]; [lia | exact hi |]. rewrite e5 in b'.
    set (w := nth i u 0 - nth i l 0) in *. assert (hw : 0 < w) by (unfold w; lra). set (v := nth i (nth j' s []) 0) in *.
    replace (INR n * (nth i l 0 + v * w - nth i l 0)) with (INR n * v * w) in b' by ring. destruct b' as [b1 b2].
    apply Rmult_le_reg_r in b1; [| exact hw]. apply Rmult_lt_reg_r in b2; [| exact hw]. lra.
Qed.
Print Assumptions C84_latin.
(** distances are compared in the unit cube, so in a box with unequal sides the candidate kept need not be the one
    that is best in the box *)
Theorem C84_not_maximin_in_box :
  let s1 := [[0; 0]; [9 / 10; 1 / 10]] in let s2 := [[0; 0]; [1 / 10; 8 / 10]] in
  exists y y2 d d2, maximinlhs 2 [s1; s2] [0; 0] [1; 100] = Some y /\ scale 2 s2 [0; 0] [1; 100] = Some y2 /\
    separation y d /\ separation y2 d2 /\ 7 * d < d2.
Proof.
  intros s1 s2.
  assert (D : forall a b c d, mindist [[a; b]; [c; d]] = Some (sqrt ((a - c) * (a - c) + (b - d) * (b - d)))).
  { intros. cbn. unfold dist. cbn [sqdist]. rewrite Rplus_0_r. reflexivity. }
  assert (S : forall a b, 0 <= a <= 1 -> 0 <= b <= 1 -> scale 2 [[0; 0]; [a; b]] [0; 0] [1; 100] = Some [[0; 0]; [a; b * 100]]).
  { intros a b ha hb. unfold scale, broadcast. cbn [length Nat.eqb all_lt forallb].
    assert (l1 : rltb 0 1 = true) by (apply rltb_iff; lra). assert (l2 : rltb 0 100 = true) by (apply rltb_iff; lra). rewrite l1, l2. cbn [andb].
    unfold unit_entry. assert (r0 : rleb 0 0 = true) by (apply rleb_iff; lra). assert (r1 : rleb 0 1 = true) by (apply rleb_iff; lra).
    assert (ra : rleb 0 a = true) by (apply rleb_iff; lra). assert (ra' : rleb a 1 = true) by (apply rleb_iff; lra).
    assert (rb : rleb 0 b = true) by (apply rleb_iff; lra). assert (rb' : rleb b 1 = true) by (apply rleb_iff; lra).
    rewrite r0, r1, ra, ra', rb, rb'. cbn [andb map scale_row].
    assert (E : forall p q r t p' q' r' t' : R, p = p' -> q = q' -> r = r' -> t = t' -> Some [[p; q]; [r; t]] = Some [[p'; q']; [r'; t']]) by (intros; now subst).
    apply E; ring. }
  do 4 eexists. split; [| split; [apply S; lra | split; [| split; [apply C84_mindist, D |]]]].
  - unfold maximinlhs. cbn [mm_loop]. unfold s1, s2 at 1. rewrite !D.
    assert (p1 : rltb 0 (sqrt ((0 - 9 / 10) * (0 - 9 / 10) + (0 - 1 / 10) * (0 - 1 / 10))) = true) by (apply rltb_iff, sqrt_lt_R0; lra). rewrite p1.
    assert (p2 : rltb (sqrt ((0 - 9 / 10) * (0 - 9 / 10) + (0 - 1 / 10) * (0 - 1 / 10))) (sqrt ((0 - 1 / 10) * (0 - 1 / 10) + (0 - 8 / 10) * (0 - 8 / 10))) = false)
      by (apply rltb_false; apply sqrt_le_1_alt; lra). rewrite p2. apply S; lra.
  - apply C84_mindist, D.
  - match goal with |- 7 * sqrt ?a < sqrt ?b => set (A := a); set (B := b) end.
    assert (hA : A = 10081 / 100) by (unfold A; field). assert (hB : B = 640001 / 100) by (unfold B; field). rewrite hA, hB.
    replace (7 * sqrt (10081 / 100)) with (sqrt (49 * (10081 / 100))).
    + apply sqrt_lt_1_alt. lra.
    + rewrite sqrt_mult by lra. f_equal. replace 49 with (7 * 7) by ring. apply sqrt_square. lra.
Qed.
Print Assumptions C84_not_maximin_in_box.
(** a run with a result *)
Example C84_maximin_example : exists y, maximinlhs 1 [[[1 / 4]; [1 / 4]]; [[0]; [1]]] [0] [2] = Some y /\ y = [[0]; [2]].
Proof.
  eexists. split; [| reflexivity]. unfold maximinlhs. cbn [mm_loop]. unfold mindist. cbn [pdist map app np_min fold_left]. rewrite !dist1.
  replace (1 / 4 - 1 / 4) with 0 by ring. rewrite Rabs_R0. assert (e1 : rltb 0 0 = false) by (apply rltb_false; lra). rewrite e1.
  rewrite (Rabs_left (0 - 1)) by lra. assert (e2 : rltb 0 (- (0 - 1)) = true) by (apply rltb_iff; lra). rewrite e2.
  unfold scale, broadcast. cbn [length Nat.eqb all_lt forallb]. assert (l1 : rltb 0 2 = true) by (apply rltb_iff; lra). rewrite l1. cbn [andb].
  unfold unit_entry. assert (r0 : rleb 0 0 = true) by (apply rleb_iff; lra). assert (r1 : rleb 0 1 = true) by (apply rleb_iff; lra). assert (r2 : rleb 1 1 = true) by (apply rleb_iff; lra).
  rewrite r0, r1, r2. cbn [andb map scale_row].
  assert (E : forall p q p' q' : R, p = p' -> q = q' -> Some [[p]; [q]] = Some [[p']; [q']]) by (intros; now subst). apply E; ring.
Qed.
