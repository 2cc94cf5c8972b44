(** Property theorem C105: quantiles, median and standard deviation of a sharded dataset, sampled quantiles, robust scaling. *)
From Coq Require Import List Arith Reals ZArith Bool Lra Lia Permutation Sorted.
From Verif Require Import ReduceModel ReduceProofs QuantModel QuantProofs.
Import ListNotations.
Local Open Scope R_scope.

(** the value is the linear interpolation of the order statistics of the concatenated rows at position q (n - 1), and
    there is a value exactly when 0 <= q <= 1 (the dataset having a row) *)
Theorem C105_value : forall lst q, concat lst <> [] ->
  (reduce_quantile lst q = Raise <-> ~ (0 <= q <= 1)) /\
  (0 <= q <= 1 -> exists v, reduce_quantile lst q = Arr v /\
    forall j s, Permutation s (map (fun r : row => r j) (concat lst)) -> StronglySorted Rle s ->
      (length s = 1%nat -> v j = nth 0 s 0) /\
      (forall k, (k + 1 < length s)%nat -> INR k <= q * (INR (length s) - 1) <= INR k + 1 ->
        v j = nth k s 0 + (q * (INR (length s) - 1) - INR k) * (nth (k + 1) s 0 - nth k s 0))).
Proof.
  intros lst q hn. split; [split |].
  - intros E hq. rewrite quantile_ok in E; auto. discriminate.
  - intros h. apply quantile_bad. exact h.
  - intros hq. eexists. split; [apply quantile_ok; auto |]. intros j s P S. fold (column j (concat lst)) in P.
    cbn beta. assert (E := sort_unique s _ S P). assert (L := Permutation_length P). split.
    + intros h1. rewrite <- E. destruct (column j (concat lst)) as [| x [| y l]]; cbn in L; try lia. rewrite perc_single. reflexivity.
    + intros k hk hh. rewrite L in hk, hh |- *. rewrite (perc_lin q _ k) by assumption. rewrite E. reflexivity.
Qed.
Print Assumptions C105_value.
(** ends of the range, growth in q; the values at 0 and 1 are the dataset's x_min and x_max *)
Theorem C105_range : forall lst q q', lst <> [] -> Forall (fun d => d <> []) lst -> 0 <= q -> q <= q' -> q' <= 1 ->
  exists lo hi v v', reduce_min lst = Arr lo /\ reduce_max lst = Arr hi /\
    reduce_quantile lst q = Arr v /\ reduce_quantile lst q' = Arr v' /\
    forall j, lo j <= v j /\ v j <= v' j /\ v' j <= hi j /\ (q = 0 -> v j = lo j) /\ (q' = 1 -> v' j = hi j).
Proof.
  intros lst q q' h1 h2 a b c. destruct (reduce_min_ok lst h1 h2) as (lo & E1 & L1). destruct (reduce_max_ok lst h1 h2) as (hi & E2 & L2).
  assert (hn : concat lst <> []). { destruct lst as [| d t]; [congruence |]. inversion h2; subst. cbn. destruct d; cbn; congruence. }
  exists lo, hi, (fun j => percentile_col q (column j (concat lst))), (fun j => percentile_col q' (column j (concat lst))).
  repeat split; auto; try (apply quantile_ok; auto; split; lra).
  - apply perc_bounds; [apply L1 | lra | apply L1].
  - apply perc_mono; auto. apply column_nonempty; auto.
  - assert (X : - hi j <= percentile_col (1 - q') (map Ropp (column j (concat lst)))).
    { apply perc_bounds; [| lra |].
      - apply in_map. apply L2.
      - intros y Hy. apply in_map_iff in Hy as (z & <- & Hz). apply Ropp_le_contravar. apply L2. exact Hz. }
    rewrite perc_opp in X; [| apply column_nonempty; auto | lra]. replace (1 - (1 - q')) with q' in X by ring. lra.
  - intros ->. apply Rle_antisym; [| apply perc_bounds; [apply L1 | lra | apply L1]].
    rewrite perc_zero by (apply column_nonempty; auto).
    destruct (In_nth (sort (column j (concat lst))) (lo j) 0) as (i & hi' & e).
    { eapply Permutation_in; [apply sort_perm |]. apply L1. }
    rewrite <- e. apply sorted_nth; [apply sort_sorted | lia].
  - intros ->. rewrite perc_one by (apply column_nonempty; auto). apply Rle_antisym.
    + apply L2. eapply Permutation_in; [symmetry; apply sort_perm |]. apply nth_In. rewrite sort_length. change (col j (concat lst)) with (column j (concat lst)).
      assert (column j (concat lst) <> []) by (apply column_nonempty; auto). destruct (column j (concat lst)); cbn; [congruence | lia].
    + destruct (In_nth (sort (column j (concat lst))) (hi j) 0) as (i & hi' & e).
      { eapply Permutation_in; [apply sort_perm |]. apply L2. }
      rewrite <- e. apply sorted_nth; [apply sort_sorted |]. rewrite sort_length in *. lia.
Qed.
Print Assumptions C105_range.
(** how many rows lie on each side; the median has at least half of the rows on each side *)
Theorem C105_counts : forall lst q, concat lst <> [] -> 0 <= q <= 1 ->
  exists v m, reduce_quantile lst q = Arr v /\ reduce_median lst = Arr m /\ forall j,
    let n := INR (length (concat lst)) in
    let below t := INR (length (filter (fun r : row => if Rle_dec (r j) t then true else false) (concat lst))) in
    let above t := INR (length (filter (fun r : row => if Rle_dec t (r j) then true else false) (concat lst))) in
    q * (n - 1) < below (v j) /\ (1 - q) * (n - 1) < above (v j) /\ n / 2 <= below (m j) /\ n / 2 <= above (m j).
Proof.
  intros lst q hn hq. assert (hh : inunit (1 / 2)) by (split; lra).
  exists (fun j => percentile_col q (column j (concat lst))), (fun j => percentile_col (1 / 2) (column j (concat lst))).
  split; [apply quantile_ok; auto |]. split; [apply quantile_ok; auto |]. intros j n bl ab.
  assert (fm : forall (f : R -> bool) (l : list row), length (filter (fun r : row => f (r j)) l) = length (filter f (column j l))).
  { intros f l. induction l as [| r l IH]; cbn; auto. destruct (f (r j)); cbn; auto. }
  assert (B : forall t, bl t = INR (below t (column j (concat lst)))) by (intros t; unfold bl, below; f_equal; apply (fm (fun x => if Rle_dec x t then true else false))).
  assert (A : forall t, ab t = INR (above t (column j (concat lst)))) by (intros t; unfold ab, above; f_equal; apply (fm (fun x => if Rle_dec t x then true else false))).
  assert (c := perc_counts q _ (column_nonempty j _ hn) hq). assert (d := perc_counts (1 / 2) _ (column_nonempty j _ hn) hh).
  rewrite column_length in c, d. fold n in c, d. rewrite !B, !A. destruct c as [c1 c2]. destruct d as [d1 d2].
  split; [exact c1 |]. split; [exact c2 |].
  assert (half : forall (a b : nat), 1 / 2 * (INR a - 1) < INR b -> INR a / 2 <= INR b).
  { intros a b h. assert (INR a < INR (2 * b + 1)) by (rewrite plus_INR, mult_INR; cbn [INR]; lra). apply INR_lt in H.
    assert (a <= 2 * b)%nat by lia. apply le_INR in H0. rewrite mult_INR in H0. cbn [INR] in H0. lra. }
  split; apply half; [exact d1 |]. replace (1 - 1 / 2) with (1 / 2) in d2 by field. exact d2.
Qed.
Print Assumptions C105_counts.
(** neither the order of the rows nor the way they are cut into shards matters *)
Theorem C105_order_free : forall lst lst' q, Permutation (concat lst) (concat lst') -> concat lst <> [] -> 0 <= q <= 1 ->
  exists v v', reduce_quantile lst q = Arr v /\ reduce_quantile lst' q = Arr v' /\ forall j, v j = v' j.
Proof.
  intros lst lst' q P hn hq. assert (hn' : concat lst' <> []) by (intro E; rewrite E in P; symmetry in P; apply Permutation_nil in P; auto).
  exists (fun j => percentile_col q (column j (concat lst))), (fun j => percentile_col q (column j (concat lst'))).
  split; [apply quantile_ok; auto |]. split; [apply quantile_ok; auto |]. intros j. apply perc_perm. apply Permutation_map. exact P.
Qed.
Print Assumptions C105_order_free.
(** units: scaling by a >= 0 and shifting commute with quantiles; a change of sign exchanges q and 1 - q *)
Theorem C105_units : forall lst q (a b : R), 0 <= a -> concat lst <> [] -> 0 <= q <= 1 ->
  exists v w u u', reduce_quantile lst q = Arr v /\
    reduce_quantile (map (map (fun (r : row) j => a * r j + b)) lst) q = Arr w /\ (forall j, w j = a * v j + b) /\
    reduce_quantile lst (1 - q) = Arr u /\ reduce_quantile (map (map (fun (r : row) j => - r j)) lst) q = Arr u' /\ (forall j, u' j = - u j).
Proof.
  intros lst q a b ha hn hq. assert (hq' : inunit (1 - q)) by (split; lra).
  assert (nn : forall g : row -> row, concat (map (map g) lst) <> []).
  { intros g. rewrite concat_map_map. destruct (concat lst); cbn; congruence. }
  eexists _, _, _, _. split; [apply quantile_ok; auto |]. split; [apply quantile_ok; auto |]. split.
  { intros j. cbn beta. rewrite concat_map_map. rewrite <- perc_affine; auto; [| apply column_nonempty; auto].
    unfold column. rewrite !map_map. reflexivity. }
  split; [apply quantile_ok; auto |]. split; [apply quantile_ok; auto |].
  intros j. cbn beta. rewrite concat_map_map. rewrite <- perc_opp; auto; [| apply column_nonempty; auto].
  unfold column. rewrite !map_map. reflexivity.
Qed.
Print Assumptions C105_units.
(** the standard deviation is the square root of the unbiased variance; one row gives NaN *)
Theorem C105_std : forall lst,
  ((2 <= length (concat lst))%nat -> exists v s, reduce_var lst = Arr v /\ reduce_std lst = Arr s /\ forall j, 0 <= s j /\ s j * s j = v j) /\
  (length (concat lst) = 1%nat -> reduce_std lst = NanArr).
Proof.
  intros lst. split.
  - intros h. destruct (reduce_var_ok lst h) as (v & E & V). exists v, (fun j => sqrt (v j)). unfold reduce_std. rewrite E.
    repeat split; auto; [apply sqrt_pos | apply sqrt_sqrt]. rewrite V. apply Rmult_le_pos.
    + apply Rsum_nonneg. intros x Hx. apply in_map_iff in Hx as (y & <- & _). apply Rle_0_sqr.
    + apply Rlt_le, Rinv_0_lt_compat. apply le_INR in h. cbn [INR] in h. lra.
  - intros h. unfold reduce_std. rewrite reduce_var_one; auto.
Qed.
Print Assumptions C105_std.
(** the sampled quantile: exact when every shard has at most sample_size // len(shards) rows; in all cases it is the exact quantile of
    some rows of the dataset, min(n_i, sample_size // len(shards)) from shard i, so it stays between x_min and x_max;
    choice draws m distinct indices below n *)
Theorem C105_sampled : forall choice lst q m,
  (forall k n c, (c <= n)%nat -> length (choice k n c) = c /\ NoDup (choice k n c) /\ forall i, In i (choice k n c) -> (i < n)%nat) ->
  lst <> [] -> concat lst <> [] -> 0 <= q <= 1 ->
  (Forall (fun d => (length d <= m / length lst)%nat) lst ->
     exists v v', reduce_quantile lst q = Arr v /\ reduce_quantile_approx choice lst q m = Arr v' /\ forall j, v' j = v j) /\
  ((length lst <= m)%nat -> exists v rows, reduce_quantile_approx choice lst q m = Arr v /\ (forall r, In r rows -> In r (concat lst)) /\
     length rows = fold_right (fun d a => (Nat.min (length d) (m / length lst) + a)%nat) 0%nat lst /\
     reduce_quantile [rows] q = Arr v) /\
  ((m < length lst)%nat -> reduce_quantile_approx choice lst q m = Raise).
Proof.
  intros choice lst q m hc hl hn hq. rewrite approx_unfold by (auto; split; lra). unfold sample. split; [| split].
  - intros F. rewrite Forall_forall in F. assert (P := sample_gen choice (m / length lst) lst 0 hc F).
    assert (nn : concat (map (fun kd : nat * list row => drawn choice (m / length lst) (fst kd) (snd kd)) (combine (seq 0 (length lst)) lst)) <> []).
    { intros E. rewrite E in P. apply Permutation_nil in P. auto. }
    destruct (np_perc_perm q _ _ P nn) as [E1 E2]. eexists _, _. split; [apply quantile_ok; auto |]. split; [exact E1 |]. exact E2.
  - intros hm. set (rows := concat (map (fun kd : nat * list row => drawn choice (m / length lst) (fst kd) (snd kd)) (combine (seq 0 (length lst)) lst))).
    assert (L : length rows = fold_right (fun d a => (Nat.min (length d) (m / length lst) + a)%nat) 0%nat lst) by (apply sample_len; auto).
    assert (hr : rows <> []).
    { intros E. rewrite E in L. cbn in L. assert (1 <= m / length lst)%nat.
      { apply Nat.div_le_lower_bound; [destruct lst; cbn; [congruence | lia] | lia]. }
      clear E rows. assert (Z : forall t : list (list row), 0%nat = fold_right (fun d a => (Nat.min (length d) (m / length lst) + a)%nat) 0%nat t -> concat t = []).
      { induction t as [| d t IH]; cbn; auto. intros e. destruct d as [| r d]; cbn in *; [apply IH; lia |]. destruct (m / length lst)%nat; cbn in e; lia. }
      apply hn. apply Z. exact L. }
    exists (fun j => percentile_col q (column j rows)), rows. split; [destruct rows; [congruence | reflexivity] |]. split; [intros r; apply sample_in; auto |].
    split; [exact L |]. rewrite quantile_ok; cbn; rewrite ?app_nil_r; auto.
  - intros hm. rewrite Nat.div_small by auto.
    assert (L := sample_len choice 0 lst 0 hc). destruct (concat (map _ _)) as [| r t]; [reflexivity |]. cbn in L.
    assert (Z : fold_right (fun (d : list row) a => (Nat.min (length d) 0 + a)%nat) 0%nat lst = 0%nat).
    { clear. induction lst as [| d t IH]; cbn; auto. rewrite IH. lia. }
    rewrite Z in L. discriminate.
Qed.
Print Assumptions C105_sampled.
(** robust scaling: median zero; the range between the two levels becomes one, or is left alone when below 1e-8 *)
Theorem C105_robust : forall q_low q_high l, l <> [] -> 0 <= q_low <= 100 -> 0 <= q_high <= 100 ->
  let t := map (transform (robust_fit q_low q_high l)) l in
  let range x := percentile_col (q_high / 100) x - percentile_col (q_low / 100) x in
  percentile_col (1 / 2) t = 0 /\ (EPS <= range l -> range t = 1) /\ (range l < EPS -> range t = range l).
Proof.
  intros ql qh l hl h1 h2 t range. assert (i1 : inunit (ql / 100)) by (split; lra). assert (i2 : inunit (qh / 100)) by (split; lra).
  assert (i3 : inunit (1 / 2)) by (split; lra). unfold t, range, robust_fit, robust_init.
  replace (50 / 100) with (1 / 2) by field. assert (gp := guard_pos (percentile_col (qh / 100) l - percentile_col (ql / 100) l)).
  rewrite !perc_transform by auto. split; [field; lra |].
  set (w := percentile_col (qh / 100) l - percentile_col (ql / 100) l) in *.
  assert (E : forall c, (percentile_col (qh / 100) l - c) / guard_scale w - (percentile_col (ql / 100) l - c) / guard_scale w = w / guard_scale w) by (intros c; unfold w at 3; field; lra).
  rewrite E. unfold guard_scale. destruct (Rlt_dec w EPS) as [h | h]; split; intros h'; try lra.
  assert (0 < EPS) by (unfold EPS; lra). field. lra.
Qed.
Print Assumptions C105_robust.
(** three shards, five rows 7, 1, 9, 3, 5: the median is 5 and the 0.3 quantile 3.4 *)
Example C105_case : let r a : row := fun _ => a in
  exists v m, reduce_quantile [[r 7; r 1]; [r 9]; [r 3; r 5]] (3 / 10) = Arr v /\ reduce_median [[r 7; r 1]; [r 9]; [r 3; r 5]] = Arr m /\
    v 0%nat = 34 / 10 /\ m 0%nat = 5.
Proof.
  intros r. set (lst := [[r 7; r 1]; [r 9]; [r 3; r 5]]). assert (hn : concat lst <> []) by (cbn; congruence).
  assert (P : Permutation [1; 3; 5; 7; 9] (map (fun x : row => x 0%nat) (concat lst))).
  { cbn. apply (Permutation_cons_app [7] [9; 3; 5] 1). apply (Permutation_cons_app [7; 9] [5] 3). apply (Permutation_cons_app [7; 9] [] 5). reflexivity. }
  assert (S : StronglySorted Rle [1; 3; 5; 7; 9]) by (repeat constructor; lra).
  destruct (C105_value lst (3 / 10) hn) as [_ A]. destruct A as (v & Ev & V); [lra |].
  destruct (C105_value lst (1 / 2) hn) as [_ B]. destruct B as (m & Em & M); [lra |].
  exists v, m. split; [exact Ev |]. split; [exact Em |]. destruct (V 0%nat _ P S) as [_ V']. destruct (M 0%nat _ P S) as [_ M'].
  split.
  - rewrite (V' 1%nat); cbn; [lra | lia | lra].
  - rewrite (M' 2%nat); cbn; [lra | lia | lra].
Qed.
