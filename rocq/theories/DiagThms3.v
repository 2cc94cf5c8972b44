(** C85 (data section of the diagnosis report), C86 (probability integral transforms), C87 (one-parameter profiles). *)
From Coq Require Import Reals Lra Lia List Bool Arith Sorted ZArith String.
From Coquelicot Require Import Coquelicot.
From Verif Require Import ConfigModel FlModel PriorModel ParamModel ParamProofs GaussProofs DesignModel DiagModel PriorProofs SelectProofs SmcProofs NutsProofs DesignProofs DiagProofs DiagThms.
Import List ListNotations.
Notation length := List.length.
Local Open Scope R_scope.

(** * C85 *)
Lemma sum_bnd lo hi l : (forall x, In x l -> lo <= x <= hi) -> INR (length l) * lo <= sum_list l <= INR (length l) * hi.
Proof.
  induction l as [| x l IH]; intro h; [unfold sum_list; cbn; lra |]. cbn [length]. rewrite sum_cons, S_INR.
  specialize (IH (fun y hy => h y (or_intror hy))). destruct (h x (or_introl eq_refl)). lra.
Qed.
Lemma sum_lin3 a b c l : sum_list (map (fun x => a * (x * x) + b * x + c) l) = a * sum_list (map (fun x => x * x) l) + b * sum_list l + INR (length l) * c.
Proof. induction l as [| x l IH]; [unfold sum_list; cbn; ring |]. cbn [map length]. rewrite !sum_cons, IH, S_INR. ring. Qed.
(** the summary rows: attained extremes, their difference, mean and spread *)
Theorem C85_describe x factor d : describe x factor = Some d ->
  In (ds_min d) x /\ In (ds_max d) x /\ (forall v, In v x -> ds_min d <= v <= ds_max d) /\ ds_delta d = ds_max d - ds_min d /\
  ds_min d <= ds_mean d <= ds_max d /\ ds_mean d * INR (length x) = sum_list x /\
  0 <= ds_std d /\ ds_std d * ds_std d <= (ds_max d - ds_mean d) * (ds_mean d - ds_min d) /\ 2 * ds_std d <= ds_delta d /\
  ds_scaled d = match factor with Some s => Some (ds_delta d * s) | None => None end.
Proof.
  unfold describe. destruct (np_min x) as [mn |] eqn:e1; [| discriminate]. destruct (np_max x) as [mx |] eqn:e2; [| discriminate]. intro h.
  assert (hd : d = mkDesc mn mx (mx - mn) (mean x) (std x) (match factor with Some s => Some ((mx - mn) * s) | None => None end)) by congruence. clear h. subst d. cbn [ds_min ds_max ds_delta ds_mean ds_std ds_scaled].
  destruct (np_min_spec _ _ e1) as [i1 b1]. destruct (np_max_spec _ _ e2) as [i2 b2].
  assert (ne : x <> []) by (intros ->; discriminate). assert (hl := len_pos _ x ne).
  assert (hb : forall v, In v x -> mn <= v <= mx) by (intros v hv; split; [now apply b1 | now apply b2]).
  assert (em : mean x * INR (length x) = sum_list x) by (unfold mean; field; lra).
  assert (hm : mn <= mean x <= mx).
  { destruct (sum_bnd mn mx x hb) as [s1 s2]. rewrite <- em in s1, s2. split; apply (Rmult_le_reg_r (INR (length x))); lra. }
  destruct (std_sq x ne) as [p1 p2].
  assert (pv : std x * std x <= (mx - mean x) * (mean x - mn)).
  { rewrite p2. unfold tss_of, sum_sq. rewrite map_map.
    assert (q : 0 <= sum_list (map (fun v => (mx - v) * (v - mn)) x)).
    { apply sum_list_pos. intros w hw. apply in_map_iff in hw as [v [<- hv]]. destruct (hb v hv). apply Rmult_le_pos; lra. }
    fold (mean x). set (m := mean x) in *.
    rewrite (map_ext (fun v => (v - m) * (v - m)) (fun v => 1 * (v * v) + (- 2 * m) * v + m * m)) by (intro; ring). rewrite sum_lin3, <- em.
    rewrite (map_ext (fun v => (mx - v) * (v - mn)) (fun v => (-1) * (v * v) + (mx + mn) * v + - (mx * mn))) in q by (intro; ring). rewrite sum_lin3, <- em in q.
    apply (Rmult_le_reg_r (INR (length x))); [exact hl |]. unfold Rdiv. rewrite Rmult_assoc, Rinv_l, Rmult_1_r by lra. nra. }
  split; [exact i1 |]. split; [exact i2 |]. split; [exact hb |]. split; [reflexivity |]. split; [exact hm |]. split; [exact em |]. split; [exact p1 |]. split; [exact pv |]. split; [| reflexivity].
  assert (q : (2 * std x) * (2 * std x) <= (mx - mn) * (mx - mn)) by (clear p2; assert (sqp := Rle_0_sqr (mx + mn - 2 * mean x)); unfold Rsqr in sqp; lra). apply Rsqr_incr_0_var; [exact q | lra].
Qed.
Print Assumptions C85_describe.
(** the column called delta_over_sigma: for the observations it is the range divided by the VARIANCE parameter, for
    input j it is the range divided by the length scale *)
Theorem C85_delta_over_sigma c0 c z d : report_z (c0 :: c) z = Some d ->
  let sigma := exp (c0 / 2) in sigma * sigma = exp c0 /\ ds_scaled d = Some (ds_delta d / (sigma * sigma)) /\
  (ds_scaled d = Some (ds_delta d / sigma) <-> ds_delta d = 0 \/ c0 = 0).
Proof.
  intros h sigma. unfold report_z in h. destruct (aniso_ok c0 c None None String.EmptyString) as [p [ep [_ [_ [hv _]]]]]. rewrite ep in h.
  assert (es : sigma * sigma = exp c0) by (unfold sigma; rewrite <- exp_plus; f_equal; lra). split; [exact es |].
  assert (sp : 0 < sigma) by apply exp_pos. rewrite hv in h. cbn in h. destruct (C85_describe _ _ _ h) as [_ [_ [_ [_ [_ [_ [_ [_ [_ e]]]]]]]]]. rewrite e, es.
  split; [f_equal; unfold Rdiv; ring |]. split.
  - intro q. assert (q' : ds_delta d * (1 / exp c0) = ds_delta d / sigma) by congruence. rewrite <- es in q'.
    destruct (Req_dec (ds_delta d) 0) as [h0 | h0]; [now left | right].
    assert (s1 : sigma = 1). { assert (ds_delta d * sigma = ds_delta d * 1); [| nra]. transitivity (ds_delta d / sigma * (sigma * sigma)); [field; lra |]. rewrite <- q'. field. lra. }
    unfold sigma in s1. rewrite <- exp_0 in s1. apply exp_inv in s1. lra.
  - intros [q | q].
    + rewrite q. f_equal. unfold Rdiv. ring.
    + f_equal. unfold sigma. rewrite q. replace (0 / 2) with 0 by field. rewrite exp_0. field.
Qed.
Print Assumptions C85_delta_over_sigma.
Theorem C85_range_over_rho c0 c d j x ds : d = length c -> (j < d)%nat -> report_x (c0 :: c) d j x = Some ds ->
  ds_scaled ds = Some (ds_delta ds / exp (- nth j c 0)).
Proof.
  intros -> hj. unfold report_x. destruct (aniso_ok c0 c None None String.EmptyString) as [p [-> [_ [_ [hv _]]]]]. intro h.
  rewrite hv in h. cbv zeta in h. 
  assert (e : nth j (skipn (length (exp c0 :: map (fun r => exp (- r)) c) - length c) (exp c0 :: map (fun r => exp (- r)) c)) 0 = exp (- nth j c 0)).
  { cbn [length]. rewrite map_length. replace (S (length c) - length c)%nat with 1%nat by lia. cbn [skipn]. rewrite (nth_indep _ 0 (exp (- 0))) by (rewrite map_length; exact hj). exact (map_nth (fun r => exp (- r)) c 0 j). }
  rewrite e in h. destruct (C85_describe _ _ _ h) as [_ [_ [_ [_ [_ [_ [_ [_ [_ q]]]]]]]]]. rewrite q. f_equal. unfold Rdiv. ring.
Qed.
Print Assumptions C85_range_over_rho.
(** change of unit of the observations: the range is multiplied by a, sigma2 by a^2, and the reported ratio by 1/a *)
Lemma np_min_unique l v : In v l -> (forall b, In b l -> v <= b) -> np_min l = Some v.
Proof.
  intros h1 h2. destruct (np_min l) as [w |] eqn:e; [| destruct l; [destruct h1 | discriminate]]. destruct (np_min_spec _ _ e) as [h3 h4]. f_equal. apply Rle_antisym; [now apply h4 | now apply h2].
Qed.
Lemma np_max_unique l v : In v l -> (forall b, In b l -> b <= v) -> np_max l = Some v.
Proof.
  intros h1 h2. destruct (np_max l) as [w |] eqn:e; [| destruct l; [destruct h1 | discriminate]]. destruct (np_max_spec _ _ e) as [h3 h4]. f_equal. apply Rle_antisym; [now apply h2 | now apply h4].
Qed.
Theorem C85_not_unit_free c0 c z d a : 0 < a -> report_z (c0 :: c) z = Some d ->
  exists d', report_z (c0 + 2 * ln a :: c) (map (fun x => a * x) z) = Some d' /\ ds_delta d' = a * ds_delta d /\
    ds_scaled d' = Some (ds_delta d / exp c0 / a).
Proof.
  intros ha h. destruct (aniso_ok c0 c None None String.EmptyString) as [p [ep [_ [_ [hv _]]]]]. unfold report_z in h. rewrite ep, hv in h. cbn in h.
  destruct (C85_describe _ _ _ h) as [i1 [i2 [hb [hd [_ [_ [_ [_ [_ e]]]]]]]]].
  destruct (aniso_ok (c0 + 2 * ln a) c None None String.EmptyString) as [p' [ep' [_ [_ [hv' _]]]]]. unfold report_z. rewrite ep', hv'. cbn.
  unfold describe. rewrite (np_min_unique _ (a * ds_min d)), (np_max_unique _ (a * ds_max d)).
  - eexists. split; [reflexivity |]. cbn [ds_delta ds_scaled]. split; [rewrite hd; ring |]. f_equal. rewrite hd, exp_plus. replace (2 * ln a) with (ln a + ln a) by ring. rewrite exp_plus, exp_ln by exact ha. field. split; [apply Rgt_not_eq, exp_pos | lra].
  - apply in_map_iff. now exists (ds_max d).
  - intros b hb'. apply in_map_iff in hb' as [v [<- hv1]]. destruct (hb v hv1). apply Rmult_le_compat_l; lra.
  - apply in_map_iff. now exists (ds_min d).
  - intros b hb'. apply in_map_iff in hb' as [v [<- hv1]]. destruct (hb v hv1). apply Rmult_le_compat_l; lra.
Qed.
Print Assumptions C85_not_unit_free.
Example C85_example : exists d, report_z [ln 4; 0] [1; 3] = Some d /\ ds_delta d = 2 /\ ds_scaled d = Some (1 / 2).
Proof.
  destruct (aniso_ok (ln 4) [0] None None String.EmptyString) as [p [ep [_ [_ [hv _]]]]]. unfold report_z. rewrite ep, hv. cbn. rewrite exp_ln by lra. unfold describe. cbn.
  rewrite Rmin_left, Rmax_right by lra. eexists. split; [reflexivity |]. cbn. split; [lra |]. f_equal. lra.
Qed.

(** * C86 *)
(** vector targets: one transform per point, in (0,1) exactly where the predictive variance is positive *)
Theorem C86_pit_values z m v : length z = length m -> length m = length v ->
  exists l, pit false z m v = [l] /\ length l = length z /\ forall i, (i < length z)%nat ->
    let zi := nth i z 0 in let mi := nth i m 0 in let vi := nth i v 0 in
    (0 < vi -> exists u, nth i l NaN = Fin u /\ 0 < u < 1 /\ u = ncdf ((zi - mi) / sqrt vi) /\ (u < 1 / 2 <-> zi < mi)) /\
    (vi <= 0 -> nth i l NaN = NaN).
Proof.
  intros h1 h2. eexists. split; [reflexivity |]. split; [rewrite map_length, !combine_length; lia |]. intros i hi zi mi vi.
  set (g := fun p : R * R * R => pit_one (fst (fst p)) (snd (fst p)) (snd p)).
  assert (e : nth i (map g (combine (combine z m) v)) NaN = pit_one zi mi vi).
  { rewrite (nth_indep _ NaN (g (0, 0, 0))) by (rewrite map_length, !combine_length; lia). rewrite map_nth, combine_nth by (rewrite combine_length; lia). rewrite combine_nth by lia. reflexivity. }
  rewrite e. unfold pit_one, norm_cdf. split; intro hv.
  - rewrite Rmax_left by lra. assert (sp : 0 < sqrt vi) by now apply sqrt_lt_R0. assert (q : rltb 0 (sqrt vi) = true) by (apply rltb_iff; exact sp). rewrite q.
    exists (ncdf ((zi - mi) / sqrt vi)). split; [reflexivity |]. split; [apply ncdf_range |]. split; [reflexivity |]. rewrite <- ncdf_0.
    assert (ip : 0 < / sqrt vi) by now apply Rinv_0_lt_compat. split; intro k.
    + destruct (Rlt_le_dec zi mi) as [k2 | k2]; [exact k2 | exfalso]. assert (0 <= (zi - mi) / sqrt vi) by (apply Rmult_le_pos; lra).
      destruct H as [H | H]; [assert (i1 := ncdf_increasing _ _ H); lra | rewrite <- H in k; lra].
    + apply ncdf_increasing. assert (0 < (mi - zi) / sqrt vi) by (apply Rmult_lt_0_compat; lra). unfold Rdiv in *. nra.
  - rewrite Rmax_right by lra. rewrite sqrt_0. assert (q : rltb 0 0 = false) by (apply rltb_false; lra). now rewrite q.
Qed.
Print Assumptions C86_pit_values.
Theorem C86_pit_monotone z z' m v u u' : pit_one z m v = Fin u -> pit_one z' m v = Fin u' -> (u < u' <-> z < z').
Proof.
  unfold pit_one, norm_cdf. destruct (rltb 0 (sqrt (Rmax v 0))) eqn:e; [| discriminate]. apply rltb_iff in e. set (s := sqrt (Rmax v 0)) in *. intros h1 h2.
  assert (u = ncdf ((z - m) / s)) by congruence. assert (u' = ncdf ((z' - m) / s)) by congruence. subst. assert (ip : 0 < / s) by now apply Rinv_0_lt_compat.
  assert (inc : forall x y, x < y -> ncdf ((x - m) / s) < ncdf ((y - m) / s)) by (intros x y k; apply ncdf_increasing; unfold Rdiv; nra).
  split; intro k; [| now apply inc]. destruct (Rlt_le_dec z z') as [k2 | [k2 | k2]]; [exact k2 | apply inc in k2; lra | subst; lra].
Qed.
Print Assumptions C86_pit_monotone.
(** column targets: NumPy broadcasting returns every target against every prediction *)
Theorem C86_column_targets z m v : length z = length m -> length m = length v ->
  length (pit true z m v) = length z /\ (forall r, In r (pit true z m v) -> length r = length z) /\
  forall i j, (i < length z)%nat -> (j < length z)%nat -> nth j (nth i (pit true z m v) []) NaN = pit_one (nth i z 0) (nth j m 0) (nth j v 0).
Proof.
  intros h1 h2.
  assert (zl : forall (f : R -> R -> fl) l k, length (zip_with f l k) = Nat.min (length l) (length k)) by (intros f l; induction l as [| a l IH]; intros [| b k]; cbn; [reflexivity | reflexivity | reflexivity | now rewrite IH]).
  assert (zn : forall (f : R -> R -> fl) l k j, (j < length l)%nat -> (j < length k)%nat -> nth j (zip_with f l k) NaN = f (nth j l 0) (nth j k 0)).
  { intros f l. induction l as [| a l IH]; intros [| b k] j g1 g2; cbn in g1, g2; try lia. destruct j as [| j]; cbn; [reflexivity |]. apply IH; lia. }
  unfold pit. split; [apply map_length |]. split.
  - intros r hr. apply in_map_iff in hr as [x [<- _]]. rewrite zl. lia.
  - intros i j hi hj. rewrite (nth_indep _ [] (zip_with (pit_one 0) m v)) by (rewrite map_length; exact hi). rewrite (map_nth (fun x => zip_with (pit_one x) m v)). apply zn; lia.
Qed.
Print Assumptions C86_column_targets.
Example C86_example : pit true [0; 1] [0; 1] [1; 0] = [[Fin (ncdf 0); NaN]; [Fin (ncdf 1); NaN]].
Proof.
  unfold pit. cbn [map zip_with]. unfold pit_one, norm_cdf. rewrite !Rmax_left, sqrt_1, sqrt_0 by lra.
  assert (q : rltb 0 1 = true) by (apply rltb_iff; lra). assert (q2 : rltb 0 0 = false) by (apply rltb_false; lra). rewrite q, q2.
  replace ((0 - 0) / 1) with 0 by field. replace ((1 - 0) / 1) with 1 by field. reflexivity.
Qed.

(** * C87: profiles *)
(** each row is computed from the criterion with the other parameters held at the given values *)
Theorem C87_freeze crit covparam j x : (j < length covparam)%nat -> exists c, freeze crit covparam j x = crit c /\
  length c = length covparam /\ nth j c 0 = x /\ forall i, i <> j -> nth i c 0 = nth i covparam 0.
Proof.
  intro hj. exists (upd covparam j x). split; [reflexivity |]. revert j hj. induction covparam as [| a l IH]; intros j hj; [cbn in hj; lia |]. destruct j as [| j]; cbn.
  - split; [reflexivity |]. split; [reflexivity |]. intros [| i] hi; [lia | reflexivity].
  - destruct (IH j ltac:(cbn in hj; lia)) as [h1 [h2 h3]]. split; [now rewrite h1 |]. split; [exact h2 |]. intros [| i] hi; [reflexivity |]. apply h3. lia.
Qed.
Print Assumptions C87_freeze.
Theorem C87_rows crit covparam ind box delta n rs : statistics_fast crit covparam ind box delta n = Some rs ->
  let js := match ind with Some l => l | None => seq 0 (length covparam) end in
  length rs = length js /\ forall k, (k < length js)%nat -> let j := nth k js 0%nat in
    (j < length covparam)%nat /\ exists st lo hi, nth_error rs k = Some st /\ fast_univariate_stats (freeze crit covparam j) lo hi n = Some st /\
      match box with
      | Some (l, u) => nth_error l j = Some lo /\ nth_error u j = Some hi
      | None => lo = nth j covparam 0 - delta /\ hi = nth j covparam 0 + delta
      end.
Proof.
  intros h js. unfold statistics_fast in h. change (stats_rows crit covparam box delta n js = Some rs) in h. clearbody js. revert rs h. induction js as [| j js IH]; intros rs h; cbn [stats_rows] in h.
  - assert (rs = []) by congruence. subst. split; [reflexivity | cbn; intros; lia].
  - destruct (stats_row crit covparam box delta n j) as [st |] eqn:e; [| discriminate]. destruct (stats_rows crit covparam box delta n js) as [rs' |] eqn:e2; [| discriminate].
    assert (rs = st :: rs') by congruence. subst. destruct (IH rs' eq_refl) as [i1 i2]. split; [cbn; now rewrite i1 |]. intros [| k] hk; [| cbn in hk; cbn [nth nth_error]; apply i2; lia].
    cbn [nth nth_error]. clear IH i1 i2. unfold stats_row in e. destruct (nth_error covparam j) as [opt |] eqn:eo; [| discriminate].
    split; [apply nth_error_Some; congruence |]. destruct box as [[l u] |].
    + destruct (nth_error l j) as [lo |] eqn:el; [| discriminate]. destruct (nth_error u j) as [hi |] eqn:eu; [| discriminate]. exists st, lo, hi. auto.
    + exists st, (opt - delta), (opt + delta). split; [reflexivity |]. split; [exact e |]. apply (nth_error_nth covparam j 0) in eo. rewrite eo. auto.
Qed.
Print Assumptions C87_rows.
(** with no box and an even number of grid points (the default is 250) the optimum is never on the grid: the reported
    mode is at least delta/(n-1) away from it; with an odd number the optimum is the middle point *)
Theorem C87_even_grid_misses_optimum f opt delta n st : 0 < delta -> Nat.even n = true ->
  fast_univariate_stats f (opt - delta) (opt + delta) n = Some st -> Rabs (st_mode st - opt) >= delta / INR (n - 1).
Proof.
  intros hd he h. destruct (C71_grid_coherent _ _ _ _ _ h) as [_ [_ [_ [_ [_ hm]]]]]. apply (In_nth _ _ 0) in hm as [k [hk e]]. rewrite linspace_length in hk.
  rewrite linspace_nth in e by exact hk. apply Nat.even_spec in he as [m ->].
  assert (hn : (2 * m - 1 = S (2 * (m - 1)))%nat) by lia. assert (pos : 0 < INR (2 * m - 1)) by (apply lt_0_INR; lia).
  assert (e2 : st_mode st - opt = delta * (2 * INR k - INR (2 * m - 1)) / INR (2 * m - 1)).
  { rewrite <- e. unfold lev. field. lra. }
  rewrite e2. unfold Rdiv. rewrite !Rabs_mult. rewrite (Rabs_right (/ INR (2 * m - 1))) by (apply Rle_ge; left; now apply Rinv_0_lt_compat). rewrite (Rabs_right delta) by lra.
  apply Rmult_ge_compat_r; [apply Rle_ge; left; now apply Rinv_0_lt_compat |].
  assert (q : 1 <= Rabs (2 * INR k - INR (2 * m - 1))).
  { assert (ei : 2 * INR k - INR (2 * m - 1) = IZR (2 * Z.of_nat k - Z.of_nat (2 * m - 1))) by (rewrite minus_IZR, mult_IZR, <- !INR_IZR_INZ; reflexivity).
    rewrite ei, Rabs_Zabs. apply IZR_le. lia. }
  nra.
Qed.
Print Assumptions C87_even_grid_misses_optimum.
Theorem C87_odd_grid_has_optimum opt delta m : nth m (linspace (opt - delta) (opt + delta) (2 * m + 1)) 0 = opt \/ m = 0%nat.
Proof.
  destruct m as [| m]; [now right | left]. rewrite linspace_nth by lia. unfold lev. replace (2 * S m + 1 - 1)%nat with (2 * S m)%nat by lia. rewrite mult_INR. change (INR 2) with 2. field.
  apply Rgt_not_eq, lt_0_INR. lia.
Qed.
Print Assumptions C87_odd_grid_has_optimum.
(** a quadratic criterion: the reported mode is not the optimum *)
Example C87_example : exists st, fast_univariate_stats (fun x => Fin (x * x)) (0 - 1) (0 + 1) 250 = Some st /\ st_mode st <> 0.
Proof.
  destruct (C71_grid_values (fun x => Fin (x * x)) (0 - 1) (0 + 1) 250) as [_ [st [e _]]]; [lia | lra | | |].
  - rewrite Forall_map, Forall_forall. intros; exact I.
  - destruct (linspace (0 - 1) (0 + 1) 250) as [| x l] eqn:q; [apply (f_equal (@List.length R)) in q; rewrite linspace_length in q; discriminate |]. exists (x * x). now left.
  - exists st. split; [exact e |]. intro q. assert (k := C87_even_grid_misses_optimum _ 0 1 250 st ltac:(lra) eq_refl e). rewrite q in k. replace (0 - 0) with 0 in k by ring. rewrite Rabs_R0 in k.
    assert (0 < 1 / INR (250 - 1)) by (apply Rdiv_lt_0_compat; [lra | apply lt_0_INR; lia]). lra.
Qed.
