(** Theorems about model diagnosis: performance indices, one-dimensional statistics, transforms and the report
    (C70, C71, C85, C86, C87). *)
From Coq Require Import Reals Lra Lia List Bool Arith Sorted.
From Coquelicot Require Import Coquelicot.
From Verif Require Import ConfigModel FlModel PriorModel ParamModel GaussProofs DesignModel DiagModel PriorProofs SelectProofs SmcProofs NutsProofs NutsProofs4 DesignProofs DiagProofs.
Import List ListNotations.
Notation length := List.length.
Local Open Scope R_scope.

(** * C70: performance indices *)
Definition sum_sq (v : list R) : R := sum_list (map (fun x => x * x) v).
Definition tss_of (z : list R) : R := sum_sq (map (fun x => x - sum_list z / INR (length z)) z).
Lemma sum_sq_pos v : 0 <= sum_sq v /\ (sum_sq v = 0 <-> forall x, In x v -> x = 0).
Proof.
  unfold sum_sq. destruct (sum_list_pos (map (fun x => x * x) v)) as [h1 h2]; [intros x hx; apply in_map_iff in hx as [y [<- _]]; nra |]. split; [exact h1 |]. rewrite h2. split.
  - intros h x hx. assert (x * x = 0) by (apply h; apply in_map_iff; now exists x). nra.
  - intros h x hx. apply in_map_iff in hx as [y [<- hy]]. rewrite (h y hy). ring.
Qed.
Lemma sq_norm2 v : sq (norm2 v) = sum_sq v.
Proof. unfold sq, norm2. apply sqrt_sqrt. apply (proj1 (sum_sq_pos v)). Qed.
Lemma std_sq z : z <> [] -> 0 <= std z /\ std z * std z = tss_of z / INR (length z).
Proof.
  intro h. split; [apply sqrt_pos |]. unfold std. rewrite sqrt_sqrt.
  - unfold mean at 1. rewrite map_length. f_equal. unfold tss_of, sum_sq. now rewrite map_map.
  - unfold mean at 1. apply Rmult_le_pos.
    + apply sum_list_pos. intros x hx. apply in_map_iff in hx as [y [<- _]]. apply Rle_0_sqr.
    + left. apply Rinv_0_lt_compat. rewrite map_length. apply lt_0_INR. destruct z; [contradiction | cbn; lia].
Qed.
Lemma len_pos (A : Type) (z : list A) : z <> [] -> 0 < INR (length z).
Proof. intro h. apply lt_0_INR. destruct z; [contradiction | cbn; lia]. Qed.
Lemma max_len (A : Type) (z : list A) : z <> [] -> Nat.max (length z) 1 = length z.
Proof. destruct z; [contradiction | cbn; lia]. Qed.
Lemma fl_div_pos x y : y <> 0 -> fl_div (Fin x) (Fin y) = Fin (x / y).
Proof. intro h. cbn. unfold reqb. destruct (Req_EM_T y 0); [contradiction | reflexivity]. Qed.
Theorem C70_values z e : z <> [] ->
  let r := performance z e in
  ix_n r = length z /\ ix_tss r = tss_of z /\ ix_sse r = sum_sq e /\
  0 <= ix_rmse r /\ ix_rmse r * ix_rmse r * INR (length z) = sum_sq e /\
  0 <= ix_std r /\ ix_std r * ix_std r * INR (length z) = tss_of z.
Proof.
  intros hz r. assert (hl := len_pos _ z hz). unfold r, performance. cbn [ix_n ix_tss ix_sse ix_rmse ix_std].
  split; [reflexivity |]. split; [apply sq_norm2 |]. split; [apply sq_norm2 |]. split; [apply sqrt_pos |]. split; [| split].
  - rewrite max_len by exact hz. rewrite sqrt_sqrt; [rewrite sq_norm2; field; lra |]. rewrite sq_norm2. apply Rmult_le_pos; [apply (proj1 (sum_sq_pos e)) | left; now apply Rinv_0_lt_compat].
  - apply (proj1 (std_sq z hz)).
  - rewrite (proj2 (std_sq z hz)). field. lra.
Qed.
Print Assumptions C70_values.
Theorem C70_consistency z e : z <> [] -> tss_of z <> 0 ->
  let r := performance z e in
  exists q rho, ix_q2 r = Fin q /\ ix_rmse_over_std r = Fin rho /\ ix_ratio r = Fin (1 - q) /\
    q = 1 - sum_sq e / tss_of z /\ q = 1 - rho * rho /\ 0 <= rho /\ q <= 1 /\ (q = 1 <-> forall x, In x e -> x = 0) /\
    (ix_log10 r = Fin (ln (1 - q) / ln 10) \/ (q = 1 /\ ix_log10 r = NInf)).
Proof.
  intros hz ht r. destruct (C70_values z e hz) as [_ [e1 [e2 [h1 [e3 [h2 e4]]]]]]. assert (hl := len_pos _ z hz).
  assert (hs : ix_std (performance z e) <> 0) by (intro q; rewrite q in e4; apply ht; lra).
  destruct (sum_sq_pos e) as [p1 p2]. destruct (sum_sq_pos (map (fun x => x - sum_list z / INR (length z)) z)) as [p3 _]. fold (tss_of z) in p3.
  exists (1 - sum_sq e / tss_of z), (ix_rmse (performance z e) / ix_std (performance z e)).
  assert (er : ix_ratio r = Fin (sum_sq e / tss_of z)).
  { change (ix_ratio r) with (fl_div (Fin (ix_sse (performance z e))) (Fin (ix_tss (performance z e)))). rewrite e1, e2. now apply fl_div_pos. }
  assert (ipos : 0 < / tss_of z) by (apply Rinv_0_lt_compat; lra).
  split; [| split; [| split; [| split; [| split; [| split; [| split; [| split]]]]]]].
  - change (ix_q2 r) with (fl_sub (Fin 1) (fl_div (Fin (ix_sse (performance z e))) (Fin (ix_tss (performance z e))))). rewrite e1, e2, fl_div_pos by exact ht. reflexivity.
  - change (ix_rmse_over_std r) with (fl_div (Fin (ix_rmse (performance z e))) (Fin (ix_std (performance z e)))). now apply fl_div_pos.
  - rewrite er. f_equal. ring.
  - reflexivity.
  - set (a := ix_rmse (performance z e)) in *. set (b := ix_std (performance z e)) in *. rewrite <- e3, <- e4. field. split; [exact hs | lra].
  - apply Rmult_le_pos; [exact h1 |]. left. apply Rinv_0_lt_compat. lra.
  - assert (0 <= sum_sq e / tss_of z) by (apply Rmult_le_pos; lra). lra.
  - rewrite <- p2. split; [| intros ->; unfold Rdiv; ring]. intro q. assert (sum_sq e / tss_of z = 0) by lra.
    assert (sum_sq e = sum_sq e / tss_of z * tss_of z) by (field; lra). rewrite H in H0. lra.
  - change (ix_log10 r) with (fl_log10 (ix_ratio r)). rewrite er. set (v := sum_sq e / tss_of z). assert (hv : 0 <= v) by (apply Rmult_le_pos; lra).
    assert (h10 : ln 10 <> 0) by (apply Rgt_not_eq; rewrite <- ln_1; apply ln_increasing; lra).
    unfold fl_log10. cbn [fl_ln]. destruct (rltb 0 v) eqn:q.
    + left. rewrite fl_div_pos by exact h10. do 3 f_equal. ring.
    + apply rltb_false in q. right. split; [lra |]. assert (q2 : rltb v 0 = false) by (apply rltb_false; lra). rewrite q2. cbn.
      assert (q3 : rltb (ln 10) 0 = false) by (apply rltb_false; left; rewrite <- ln_1; apply ln_increasing; lra). now rewrite q3.
Qed.
Print Assumptions C70_consistency.
Lemma sum_affine a b z : sum_list (map (fun x => a * x + b) z) = a * sum_list z + INR (length z) * b.
Proof. induction z as [| x z IH]; [cbn; unfold sum_list; cbn; ring |]. cbn [map length]. rewrite !sum_cons, IH, S_INR. ring. Qed.
Lemma sum_sq_scal a v : sum_sq (map (fun x => a * x) v) = a * a * sum_sq v.
Proof. unfold sum_sq. induction v as [| x v IH]; [cbn; unfold sum_list; cbn; ring |]. cbn [map]. rewrite !sum_cons, IH. ring. Qed.
Lemma tss_affine a b z : z <> [] -> tss_of (map (fun x => a * x + b) z) = a * a * tss_of z.
Proof.
  intro h. assert (hl := len_pos _ z h). unfold tss_of. rewrite <- sum_sq_scal, !map_map, map_length. f_equal. apply map_ext. intro x. rewrite sum_affine. field. lra.
Qed.
(** units: rescaling and shifting the data (and rescaling the errors) changes none of the dimensionless indices *)
Theorem C70_units z e a b : z <> [] -> tss_of z <> 0 -> a <> 0 ->
  let r := performance z e in let r' := performance (map (fun x => a * x + b) z) (map (fun x => a * x) e) in
  ix_ratio r' = ix_ratio r /\ ix_log10 r' = ix_log10 r /\ ix_rmse_over_std r' = ix_rmse_over_std r /\ ix_q2 r' = ix_q2 r.
Proof.
  intros hz ht ha r r'. assert (hz' : map (fun x => a * x + b) z <> []) by (destruct z; [contradiction | discriminate]).
  assert (ta := tss_affine a b z hz). assert (ht' : tss_of (map (fun x => a * x + b) z) <> 0) by (rewrite ta; apply Rmult_integral_contrapositive; split; [nra | exact ht]).
  destruct (C70_consistency z e hz ht) as [q [rho [e1 [e2 [e3 [e4 [e5 [h1 _]]]]]]]].
  destruct (C70_consistency _ (map (fun x => a * x) e) hz' ht') as [q' [rho' [f1 [f2 [f3 [f4 [f5 [h2 _]]]]]]]].
  assert (hq : q' = q). { rewrite e4, f4, ta, sum_sq_scal. field. split; [exact ht | exact ha]. }
  assert (hr : rho' = rho) by (apply Rsqr_inj; [exact h2 | exact h1 | unfold Rsqr; lra]).
  assert (er : ix_ratio r' = ix_ratio r) by (unfold r, r'; rewrite e3, f3, hq; reflexivity).
  split; [exact er |]. split; [| split].
  - change (ix_log10 r') with (fl_log10 (ix_ratio r')). rewrite er. reflexivity.
  - unfold r, r'. now rewrite e2, f2, hr.
  - unfold r, r'. now rewrite e1, f1, hq.
Qed.
Print Assumptions C70_units.
(** constant targets: the indices degenerate *)
Theorem C70_constant_targets z e : z <> [] -> tss_of z = 0 ->
  (exists c, forall x, In x z -> x = c) /\
  ((exists x, In x e /\ x <> 0) -> ix_q2 (performance z e) = NInf) /\ ((forall x, In x e -> x = 0) -> ix_q2 (performance z e) = NaN).
Proof.
  intros hz ht. destruct (C70_values z e hz) as [_ [e1 [e2 _]]]. destruct (sum_sq_pos e) as [p1 p2].
  change (ix_q2 (performance z e)) with (fl_sub (Fin 1) (fl_div (Fin (ix_sse (performance z e))) (Fin (ix_tss (performance z e))))). rewrite e1, e2, ht.
  assert (rz : reqb 0 0 = true) by (unfold reqb; destruct (Req_EM_T 0 0); [reflexivity | contradiction]). cbn [fl_div]. rewrite rz. split; [| split].
  - exists (sum_list z / INR (length z)). intros x hx. destruct (sum_sq_pos (map (fun x => x - sum_list z / INR (length z)) z)) as [_ p4]. apply proj1 in p4.
    specialize (p4 ht (x - sum_list z / INR (length z))). assert (x - sum_list z / INR (length z) = 0); [| lra]. apply p4. apply in_map_iff. now exists x.
  - intros [x [hx nx]]. assert (sum_sq e <> 0) by (intro q; apply nx; now apply p2). assert (q : rltb 0 (sum_sq e) = true) by (apply rltb_iff; lra). now rewrite q.
  - intro h. apply p2 in h. rewrite h. assert (q : rltb 0 0 = false) by (apply rltb_false; lra). now rewrite q.
Qed.
Print Assumptions C70_constant_targets.
(** reference predictors: the mean of the test targets scores R2 = 0, the leave-one-out mean scores 1 - (n/(n-1))^2 < 0 *)
Lemma sum_sub_const z c : sum_list (map (fun x => x - c) z) = sum_list z - INR (length z) * c.
Proof. induction z as [| x z IH]; [cbn; unfold sum_list; cbn; ring |]. cbn [map length]. rewrite !sum_cons, IH, S_INR. ring. Qed.
Theorem C70_reference_predictors z : z <> [] -> tss_of z <> 0 ->
  ix_q2 (performance z (residuals z (map (fun _ => sum_list z / INR (length z)) z))) = Fin 0 /\
  let n := INR (length z) in
  ix_q2 (performance z (map (fun x => x - (sum_list z - x) / (n - 1)) z)) = Fin (1 - sq (n / (n - 1))).
Proof.
  intros hz ht. assert (hl := len_pos _ z hz).
  assert (n1 : INR (length z) <> 1).
  { intro q. apply ht. destruct z as [| x [| y z]]; [contradiction | | cbn [length] in q; rewrite !S_INR in q; pose proof (pos_INR (length z)); lra].
    unfold tss_of, sum_sq, sum_list. cbn. field. }
  split.
  - destruct (C70_consistency z (residuals z (map (fun _ => sum_list z / INR (length z)) z)) hz ht) as [q [rho [e1 [_ [_ [e4 _]]]]]]. rewrite e1, e4. f_equal.
    assert (er : residuals z (map (fun _ => sum_list z / INR (length z)) z) = map (fun x => x - sum_list z / INR (length z)) z).
    { unfold residuals. generalize (sum_list z / INR (length z)). intro c. clear. induction z as [| x z IH]; cbn; [reflexivity |]. now rewrite IH. }
    rewrite er. fold (tss_of z). field. exact ht.
  - intro n. fold n in hl, n1. destruct (C70_consistency z (map (fun x => x - (sum_list z - x) / (n - 1)) z) hz ht) as [q [rho [e1 [_ [_ [e4 _]]]]]]. rewrite e1, e4. f_equal.
    replace (map (fun x => x - (sum_list z - x) / (n - 1)) z) with (map (fun x => n / (n - 1) * x) (map (fun x => x - sum_list z / n) z)).
    + rewrite sum_sq_scal. fold n. change (sum_sq (map (fun x => x - sum_list z / n) z)) with (tss_of z). unfold sq. field. split; [lra | exact ht].
    + rewrite map_map. apply map_ext. intro x. field. split; lra.
Qed.
Print Assumptions C70_reference_predictors.
Example C70_example : [1; 3] <> [] /\ tss_of [1; 3] = 2 /\ ix_q2 (performance [1; 3] [1; 0]) = Fin (1 / 2).
Proof.
  assert (t : tss_of [1; 3] = 2) by (unfold tss_of, sum_sq, sum_list; cbn; field). split; [discriminate |]. split; [exact t |].
  destruct (C70_consistency [1; 3] [1; 0]) as [q [rho [e1 [_ [_ [e4 _]]]]]]; [discriminate | rewrite t; lra |]. rewrite e1, e4, t. f_equal. unfold sum_sq, sum_list. cbn. field.
Qed.

(** * C71: grid statistics of a one-dimensional profile *)
(** the returned numbers are the trapezoidal mean, variance, quantiles and mode of the pseudo density exp(-criterion) *)
Lemma mass_range p xs : Sorted Rle xs -> (forall x, In x xs -> 0 <= p x) -> 0 < trap p xs -> Sorted Rle (map (mass_below p xs) (seq 0 (length xs))).
Proof.
  intros hs hp hz. generalize 0%nat. generalize (length xs). induction n as [| n IH]; intro s; cbn [seq map]; constructor; [apply IH |].
  destruct n; cbn [seq map]; constructor. unfold mass_below, Rdiv. apply Rmult_le_compat_r; [left; now apply Rinv_0_lt_compat | now apply trap_firstn_mono].
Qed.
Lemma mass_0 p xs : mass_below p xs 0 = 0.
Proof. unfold mass_below. destruct xs as [| x xs]; cbn; unfold Rdiv; ring. Qed.
Lemma mass_last p xs n : length xs = S n -> trap p xs <> 0 -> mass_below p xs n = 1.
Proof. intros h hz. unfold mass_below. rewrite <- h, firstn_all. field. exact hz. Qed.
Lemma last_seq (g : nat -> R) n d : last (map g (seq 1 (S n))) d = g (S n).
Proof.
  assert (G : forall m s, last (map g (seq s (S m))) d = g (s + m)%nat); [| rewrite G; f_equal; lia].
  induction m as [| m IH]; intro s; [cbn; f_equal; lia |]. change (seq s (S (S m))) with (s :: seq (S s) (S m)). cbn [map].
  change (last (g s :: map g (seq (S s) (S m))) d) with (last (map g (seq (S s) (S m))) d). rewrite IH. f_equal. lia.
Qed.
Lemma interp_quantile (M : nat -> R) ys m q : length ys = S (S m) -> M 0%nat = 0 -> M (S m) = 1 -> 0 < q < 1 ->
  exists i, (S i < length ys)%nat /\ M i <= q < M (S i) /\
    interp q (map M (seq 0 (S (S m)))) ys = nth i ys 0 + (q - M i) / (M (S i) - M i) * (nth (S i) ys 0 - nth i ys 0).
Proof.
  intros hl m0 m1 hq. destruct ys as [| x0 xs]; [discriminate |]. assert (hx : length xs = S m) by (cbn in hl; lia).
  assert (en : forall j, (j <= S m)%nat -> nth j (0 :: map M (seq 1 (S m))) 0 = M j).
  { intros [| j] hj; [cbn [nth]; now rewrite m0 |]. cbn [nth]. rewrite (nth_indep _ 0 (M 0%nat)) by (rewrite map_length, seq_length; lia). rewrite map_nth, seq_nth by lia. reflexivity. }
  change (map M (seq 0 (S (S m)))) with (M 0%nat :: map M (seq 1 (S m))). rewrite m0. cbn [interp]. assert (er : rltb q 0 = false) by (apply rltb_false; lra). rewrite er.
  destruct (interp_from_segment q (map M (seq 1 (S m))) xs 0 x0) as [i [h1 [h2 h3]]].
  - lra.
  - now rewrite map_length, seq_length.
  - rewrite last_seq, m1. lra.
  - discriminate.
  - rewrite map_length, seq_length in h1. rewrite !en in h2, h3 by lia. exists i. split; [cbn; lia |]. split; [exact h2 | exact h3].
Qed.
Theorem C71_grid_values f lo hi n : (2 <= n)%nat -> lo < hi ->
  let xs := linspace lo hi n in let p := fun x => pden (f x) in
  Forall admissible (map f xs) -> (exists v, In (Fin v) (map f xs)) ->
  0 < trap p xs /\ exists st, fast_univariate_stats f lo hi n = Some st /\
    st_mean st = trap (fun x => x * p x) xs / trap p xs /\
    st_var st = trap (fun x => sq (x - st_mean st) * p x) xs / trap p xs /\
    Forall2 (quantile_at p xs) levels (st_quantiles st) /\
    first_max p xs (st_mode st).
Proof.
  intros hn hlh xs p hadm hfin. destruct (fast_value f lo hi n hn hlh hadm hfin) as [Zpos [st [e [e1 [e2 [e3 e4]]]]]]. fold xs p in Zpos, e1, e2, e3, e4.
  assert (hlen : length xs = n) by apply linspace_length. assert (hs : Sorted Rlt xs) by now apply linspace_sorted.
  split; [exact Zpos |]. exists st. split; [exact e |]. split; [exact e1 |]. split; [| split].
  - rewrite e2. set (m := st_mean st) in *. rewrite (trap_ext (fun x => sq (x - m) * p x) (fun x => 1 * (sq x * p x) + 1 * ((- 2 * m) * (x * p x) + (m * m) * p x))) by (intros; unfold sq; ring).
    rewrite trap_lin, trap_lin. change (fun x => x * pden (f x)) with (fun x => x * p x) in e1. change (fun x => sq x * pden (f x)) with (fun x => sq x * p x).
    assert (em : trap (fun x => x * p x) xs = m * trap p xs) by (rewrite e1; field; lra). rewrite em. unfold sq. field. lra.
  - rewrite e3. assert (hlev : forall q, In q levels -> 0 < q < 1) by (intros q [<- | [<- | [<- | [<- | [<- | []]]]]]; lra).
    clear e3. induction levels as [| q l IH]; cbn [map]; constructor; [| apply IH; intros; apply hlev; now right]. specialize (hlev q (or_introl eq_refl)).
    destruct n as [| [| m]]; [lia | lia |]. apply (interp_quantile (mass_below p xs) xs m q hlen); [apply mass_0 | apply mass_last; [exact hlen | lra] | exact hlev].
  - rewrite e4. assert (ne : map p xs <> []) by (intro q; apply map_eq_nil in q; rewrite q in hlen; cbn in hlen; lia).
    destruct (argmax_spec _ ne) as [h1 [h2 h3]]. rewrite map_length in h1. exists (argmax (map p xs)). split; [exact h1 |]. split; [reflexivity |]. rewrite nth_map_R in h2, h3 by exact h1. split.
    + intros y hy. apply h2. now apply in_map.
    + intros j hj. specialize (h3 j hj). rewrite nth_map_R in h3 by lia. exact h3.
Qed.
Print Assumptions C71_grid_values.
(** every statistic returned by the grid method is coherent, and the function raises in no other case *)
Lemma adm_dec (l : list fl) : (Forall admissible l /\ exists v, In (Fin v) l) \/ ~ (Forall admissible l /\ exists v, In (Fin v) l).
Proof.
  assert (E : forall l : list fl, (Forall admissible l \/ ~ Forall admissible l) /\ ((exists v, In (Fin v) l) \/ ~ exists v, In (Fin v) l)).
  { induction l0 as [| a k [i1 i2]]; [split; [left; constructor | right; intros [v []]] |]. split.
    - destruct i1 as [i1 | i1]; [| right; intro q; inversion q; contradiction]. destruct a as [v | | |];
        [left; constructor; [exact I | exact i1] | left; constructor; [exact I | exact i1] | right; intro q; inversion q; contradiction | right; intro q; inversion q; contradiction].
    - destruct i2 as [[v hv] | i2]; [left; exists v; now right |]. destruct a as [v | | |]; [left; exists v; now left | | |]; right; intros [v [q | q]]; try discriminate; apply i2; now exists v. }
  destruct (E l) as [[e1 | e1] [e2 | e2]]; tauto.
Qed.
Theorem C71_grid_raises f lo hi n : fast_univariate_stats f lo hi n = None <->
  (n < 2)%nat \/ hi <= lo \/ ~ (Forall admissible (map f (linspace lo hi n)) /\ exists v, In (Fin v) (map f (linspace lo hi n))).
Proof.
  split; [| apply fast_none]. intro h. destruct (lt_dec n 2) as [q | q]; [now left |]. right. destruct (Rle_lt_dec hi lo) as [r | r]; [now left |]. right.
  intros [h1 h2]. destruct (C71_grid_values f lo hi n ltac:(lia) r h1 h2) as [_ [st [e _]]]. congruence.
Qed.
Print Assumptions C71_grid_raises.
Theorem C71_grid_coherent f lo hi n st : fast_univariate_stats f lo hi n = Some st ->
  lo <= st_mean st <= hi /\ 0 <= st_var st <= (hi - st_mean st) * (st_mean st - lo) /\
  length (st_quantiles st) = 5%nat /\ Sorted Rle (st_quantiles st) /\ (forall q, In q (st_quantiles st) -> lo <= q <= hi) /\
  In (st_mode st) (linspace lo hi n).
Proof.
  intro h. assert (R : ~ ((n < 2)%nat \/ hi <= lo \/ ~ (Forall admissible (map f (linspace lo hi n)) /\ exists v, In (Fin v) (map f (linspace lo hi n))))) by (intro q; apply C71_grid_raises in q; congruence).
  assert (hn : (2 <= n)%nat) by (destruct (lt_dec n 2); [exfalso; tauto | lia]). assert (hlh : lo < hi) by (destruct (Rle_lt_dec hi lo); [exfalso; tauto | assumption]).
  destruct (adm_dec (map f (linspace lo hi n))) as [[a1 a2] | a]; [| exfalso; tauto]. clear R.
  destruct (C71_grid_values f lo hi n hn hlh a1 a2) as [Zp [st' [e [e1 [e2 [e3 e4]]]]]]. assert (st' = st) by congruence. subst st'.
  destruct (fast_value f lo hi n hn hlh a1 a2) as [_ [st' [e' [_ [_ [e5 _]]]]]]. assert (st' = st) by congruence. subst st'.
  set (xs := linspace lo hi n) in *. set (p := fun x => pden (f x)) in *.
  assert (hlen : length xs = n) by apply linspace_length. assert (hs := sorted_lt_le _ (linspace_sorted lo hi n hlh)). fold xs in hs.
  assert (hb : forall x, In x xs -> lo <= x <= hi) by (intros x hx; apply (linspace_in lo hi n); [lra | exact hx]).
  assert (hp : forall x, 0 <= p x) by (intro x; apply pden_nonneg).
  set (m := st_mean st) in *. change (fun x => x * pden (f x)) with (fun x => x * p x) in e1. change (fun x => sq (x - m) * pden (f x)) with (fun x => sq (x - m) * p x) in e2.
  assert (em : trap (fun x => x * p x) xs = m * trap p xs) by (rewrite e1; field; lra).
  assert (hm : lo <= m <= hi).
  { assert (0 <= trap (fun x => 1 * (x * p x) + (- lo) * p x) xs). { apply trap_nonneg; [exact hs |]. intros x hx. destruct (hb x hx). specialize (hp x). nra. }
    assert (0 <= trap (fun x => (-1) * (x * p x) + hi * p x) xs). { apply trap_nonneg; [exact hs |]. intros x hx. destruct (hb x hx). specialize (hp x). nra. }
    rewrite trap_lin, em in H, H0. split; nra. }
  split; [exact hm |]. split; [| split; [| split; [| split]]].
  - assert (h1 : 0 <= trap (fun x => sq (x - m) * p x) xs) by (apply trap_nonneg; [exact hs | intros x _; apply Rmult_le_pos; [apply Rle_0_sqr | apply hp]]).
    assert (h2 : 0 <= trap (fun x => 1 * ((hi + lo - 2 * m) * (x * p x) + (m * m - hi * lo) * p x) + (-1) * (sq (x - m) * p x)) xs).
    { apply trap_nonneg; [exact hs |]. intros x hx. destruct (hb x hx). replace (1 * ((hi + lo - 2 * m) * (x * p x) + (m * m - hi * lo) * p x) + -1 * (sq (x - m) * p x)) with ((hi - x) * (x - lo) * p x) by (unfold sq; ring).
      apply Rmult_le_pos; [apply Rmult_le_pos; lra | apply hp]. }
    rewrite trap_lin, trap_lin, em in h2. rewrite e2. split; [apply Rmult_le_pos; [exact h1 | left; now apply Rinv_0_lt_compat] |].
    apply (Rmult_le_reg_r (trap p xs)); [exact Zp |]. unfold Rdiv. rewrite Rmult_assoc, Rinv_l by lra. nra.
  - now rewrite e5, map_length.
  - rewrite e5. destruct n as [| [| k]]; [lia | lia |]. destruct xs as [| x0 xs'] eqn:exs; [cbn in hlen; lia |]. rewrite <- exs in *. assert (ew : map (mass_below p xs) (seq 0 (S (S k))) = 0 :: map (mass_below p xs) (seq 1 (S k))) by (change (seq 0 (S (S k))) with (0%nat :: seq 1 (S k)); cbn [map]; now rewrite mass_0). rewrite ew.
    assert (G : forall q q', 0 <= q -> q <= q' -> interp q (0 :: map (mass_below p xs) (seq 1 (S k))) xs <= interp q' (0 :: map (mass_below p xs) (seq 1 (S k))) xs).
    { intros q q' h0 hq. generalize (map (mass_below p xs) (seq 1 (S k))), (map_length (mass_below p xs) (seq 1 (S k))). intros l hl. rewrite seq_length in hl. rewrite exs. cbn [interp].
      assert (r1 : rltb q 0 = false) by (apply rltb_false; lra). assert (r2 : rltb q' 0 = false) by (apply rltb_false; lra). rewrite r1, r2.
      apply interp_from_mono; [exact hq | exact h0 | now rewrite <- exs | rewrite exs in hlen; cbn in hlen; lia]. }
    unfold levels. cbn [map]. repeat first [apply Sorted_nil | apply Sorted_cons | apply HdRel_nil | apply HdRel_cons]; apply G; lra.
  - rewrite e5. destruct n as [| [| k]]; [lia | lia |]. intros y hy. apply in_map_iff in hy as [q [<- hq]].
    assert (hlev : 0 < q < 1) by (destruct hq as [<- | [<- | [<- | [<- | [<- | []]]]]]; lra).
    assert (ew : map (mass_below p xs) (seq 0 (S (S k))) = 0 :: map (mass_below p xs) (seq 1 (S k))) by (change (seq 0 (S (S k))) with (0%nat :: seq 1 (S k)); cbn [map]; now rewrite mass_0). rewrite ew.
    generalize (map (mass_below p xs) (seq 1 (S k))), (map_length (mass_below p xs) (seq 1 (S k))). intros l hl. rewrite seq_length in hl. destruct xs as [| x0 xs']; [cbn in hlen; lia |]. cbn [interp].
    assert (r1 : rltb q 0 = false) by (apply rltb_false; lra). rewrite r1.
    destruct (interp_from_range q l xs' 0 x0) as [g1 g2]; [lra | exact hs | cbn in hlen; lia |]. split; [destruct (hb x0 (or_introl eq_refl)); lra |]. apply g2. intros v hv. apply hb. exact hv.
  - destruct e4 as [i [h1 [-> _]]]. now apply nth_In.
Qed.
Print Assumptions C71_grid_coherent.
(** adding a constant to the criterion changes nothing *)
Definition shift_fl (c : R) (v : fl) : fl := match v with Fin a => Fin (a + c) | _ => v end.
Lemma pden_shift c v : pden (shift_fl c v) = exp (- c) * pden v.
Proof. destruct v; cbn; [| ring | ring | ring]. rewrite <- exp_plus. f_equal. ring. Qed.
Theorem C71_grid_shift f lo hi n c : fast_univariate_stats (fun x => shift_fl c (f x)) lo hi n = fast_univariate_stats f lo hi n.
Proof.
  set (g := fun x => shift_fl c (f x)). set (xs := linspace lo hi n).
  assert (iff : (Forall admissible (map g xs) /\ exists v, In (Fin v) (map g xs)) <-> (Forall admissible (map f xs) /\ exists v, In (Fin v) (map f xs))).
  { rewrite !Forall_map, !Forall_forall. split; intros [h1 [v h2]]; (split; [intros x hx; specialize (h1 x hx); unfold g in *; destruct (f x); exact h1 |]); apply in_map_iff in h2 as [x [ex hx]].
    - unfold g in ex. destruct (f x) as [w | | |] eqn:q; try discriminate. exists w. apply in_map_iff. now exists x.
    - exists (v + c). apply in_map_iff. exists x. split; [unfold g; now rewrite ex | exact hx]. }
  destruct (fast_univariate_stats f lo hi n) as [st |] eqn:e.
  - assert (R : ~ ((n < 2)%nat \/ hi <= lo \/ ~ (Forall admissible (map f (linspace lo hi n)) /\ exists v, In (Fin v) (map f (linspace lo hi n))))) by (intro q; apply C71_grid_raises in q; congruence).
    assert (hn : (2 <= n)%nat) by (destruct (lt_dec n 2); [exfalso; tauto | lia]). assert (hlh : lo < hi) by (destruct (Rle_lt_dec hi lo); [exfalso; tauto | assumption]).
    destruct (adm_dec (map f (linspace lo hi n))) as [[a1 a2] | a]; [| exfalso; tauto]. clear R. destruct (proj2 iff (conj a1 a2)) as [b1 b2].
    destruct (fast_value f lo hi n hn hlh a1 a2) as [Zp [st1 [E [E1 [E2 [E3 E4]]]]]]. assert (st1 = st) by congruence. subst st1.
    destruct (fast_value g lo hi n hn hlh b1 b2) as [Zp' [st' [F [F1 [F2 [F3 F4]]]]]]. fold xs in Zp, Zp', E1, E2, E3, E4, F1, F2, F3, F4.
    set (k := exp (- c)) in *. assert (hk : 0 < k) by apply exp_pos. set (p := fun x => pden (f x)) in *.
    assert (ep : forall x, pden (g x) = k * p x) by (intro x; apply pden_shift).
    assert (et : trap (fun x => pden (g x)) xs = k * trap p xs) by (rewrite <- trap_scal; apply trap_ext; intros; apply ep).
    assert (m1 : st_mean st' = st_mean st).
    { rewrite F1, E1, et. rewrite (trap_ext (fun x => x * pden (g x)) (fun x => k * (x * p x))) by (intros; rewrite ep; ring). rewrite trap_scal. change (fun x => x * pden (f x)) with (fun x => x * p x). field. lra. }
    assert (m2 : st_var st' = st_var st).
    { rewrite F2, E2, m1, et. rewrite (trap_ext (fun x => sq x * pden (g x)) (fun x => k * (sq x * p x))) by (intros; rewrite ep; ring). rewrite trap_scal. change (fun x => sq x * pden (f x)) with (fun x => sq x * p x). field. lra. }
    assert (m3 : st_quantiles st' = st_quantiles st).
    { rewrite F3, E3. apply map_ext. intro q. f_equal. apply map_ext. intro j. unfold mass_below. rewrite et. rewrite (trap_ext (fun x => pden (g x)) (fun x => k * p x)) by (intros; apply ep). rewrite trap_scal. fold p. field. lra. }
    assert (m4 : st_mode st' = st_mode st).
    { rewrite F4, E4. f_equal. rewrite (map_ext (fun x => pden (g x)) (fun x => k * p x)) by exact ep. fold p.
      assert (G : forall l i b m, argmax_from i b (k * m) (map (fun x => k * p x) l) = argmax_from i b m (map p l)).
      { induction l as [| x l IH]; intros i b m; cbn [map argmax_from]; [reflexivity |].
        assert (q : rltb (k * m) (k * p x) = rltb m (p x)).
        { destruct (rltb m (p x)) eqn:q; [apply rltb_iff in q; apply rltb_iff; nra | apply rltb_false in q; apply rltb_false; nra]. }
        rewrite q. destruct (rltb m (p x)); apply IH. }
      destruct xs as [| x l]; [reflexivity |]. cbn [map argmax]. apply G. }
    rewrite F. f_equal. destruct st, st'. cbn in *. congruence.
  - apply C71_grid_raises in e. apply C71_grid_raises. destruct e as [e | [e | e]]; [now left | right; now left | right; right]. intro q. apply e. now apply iff.
Qed.
Print Assumptions C71_grid_shift.
Example C71_grid_example : exists st, fast_univariate_stats (fun x => Fin (x * x)) (-1) 1 3 = Some st /\ st_mean st = 0 /\ st_mode st = 0.
Proof.
  destruct (C71_grid_values (fun x => Fin (x * x)) (-1) 1 3) as [Zp [st [e [e1 [_ [_ e4]]]]]].
  - lia.
  - lra.
  - repeat constructor.
  - exists (-1 * -1). left. cbn. do 2 f_equal; lra.
  - exists st. split; [exact e |]. assert (xs3 : linspace (-1) 1 3 = [-1; 0; 1]) by (unfold linspace; cbn; repeat (f_equal; try lra)). rewrite xs3 in *. cbn [trap] in *. split.
    + rewrite e1. unfold trap, pden in *. replace (1 * 1) with (-1 * -1) by ring. field. cbn in Zp. replace (1 * 1) with (-1 * -1) in Zp by ring. lra.
    + destruct e4 as [i [h1 [h2 [h3 h4]]]]. cbn in h1. assert (ex : exp (- (0 * 0)) = 1) by (replace (- (0 * 0)) with 0 by ring; apply exp_0). assert (ey : exp (- (-1 * -1)) < 1) by (rewrite <- exp_0; apply exp_increasing; lra).
      assert (h5 := h3 0 (or_intror (or_introl eq_refl))). cbn [pden] in h5. rewrite ex in h5. destruct i as [| [| [| i]]]; cbn in h2; try lia; rewrite h2 in *; [lra | reflexivity |].
      replace (- (1 * 1)) with (- (-1 * -1)) in h5 by ring. lra.
Qed.
