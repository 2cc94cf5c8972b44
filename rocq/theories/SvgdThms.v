(** Theorems about Stein variational gradient descent (C72, C88). *)
From Coq Require Import Reals Lra Lia List Bool Arith.
From Coquelicot Require Import Coquelicot.
From Verif Require Import ConfigModel FlModel PriorModel ParamModel SvgdModel SelectProofs NutsProofs SvgdProofs.
Import List ListNotations.
Notation length := List.length.
Local Open Scope R_scope.

(** * C72: temperatures *)
Lemma temp_ok k n t0 t1 s : 0 < t0 -> 0 < t1 -> (2 <= n)%nat ->
  annealed_temperature k n t0 t1 s = match s with Linear => Some (t0 + INR k / INR (n - 1) * (t1 - t0)) | Geometric => Some (t0 * Rpower (t1 / t0) (INR k / INR (n - 1))) | OtherSchedule => None end.
Proof.
  intros h0 h1 hn. unfold annealed_temperature. assert (e0 : rleb t0 0 = false) by (apply rleb_false; lra). assert (e1 : rleb t1 0 = false) by (apply rleb_false; lra). rewrite e0, e1. cbn [orb].
  assert (e2 : Nat.leb n 1 = false) by (apply Nat.leb_gt; lia). rewrite e2. now destruct s.
Qed.
Theorem C72_temperature_raises k n t0 t1 s : annealed_temperature k n t0 t1 s = None <-> t0 <= 0 \/ t1 <= 0 \/ ((2 <= n)%nat /\ s = OtherSchedule).
Proof.
  unfold annealed_temperature. destruct (rleb t0 0) eqn:e0; cbn [orb]; [apply rleb_iff in e0; tauto |]. destruct (rleb t1 0) eqn:e1; [apply rleb_iff in e1; tauto |].
  apply rleb_false in e0, e1. destruct (Nat.leb n 1) eqn:e2.
  - apply Nat.leb_le in e2. split; [discriminate | intros [h | [h | [h _]]]; [lra | lra | lia]].
  - apply Nat.leb_gt in e2. destruct s; cbv zeta; split; try discriminate; try (intros [h | [h | [_ h]]]; [lra | lra | discriminate]); [intros _; right; right; split; [lia | reflexivity] | reflexivity].
Qed.
Print Assumptions C72_temperature_raises.
(** the schedule starts at the initial temperature, ends at the final one, has constant increments (linear) or constant
    ratios (geometric), and is monotone *)
Theorem C72_temperature_schedule n t0 t1 s : 0 < t0 -> 0 < t1 -> (2 <= n)%nat -> s <> OtherSchedule ->
  exists T : nat -> R, (forall k, annealed_temperature k n t0 t1 s = Some (T k)) /\ T 0%nat = t0 /\ T (n - 1)%nat = t1 /\
    (forall k, match s with Linear => T (S k) - T k = T 1%nat - T 0%nat | _ => T (S k) * T 0%nat = T k * T 1%nat end) /\
    (forall k, (k <= n - 1)%nat -> 0 < T k) /\
    (t1 <= t0 -> forall k, (S k <= n - 1)%nat -> T (S k) <= T k) /\ (t0 <= t1 -> forall k, (S k <= n - 1)%nat -> T k <= T (S k)).
Proof.
  intros h0 h1 hn hs. assert (hN : 0 < INR (n - 1)) by (apply lt_0_INR; lia). set (N := INR (n - 1)) in *. assert (iN : 0 < / N) by now apply Rinv_0_lt_compat.
  exists (fun k => match s with Linear => t0 + INR k / N * (t1 - t0) | _ => t0 * Rpower (t1 / t0) (INR k / N) end).
  split; [intro k; rewrite temp_ok by assumption; destruct s; [reflexivity | reflexivity | contradiction] |].
  destruct s; [| | contradiction].
  - split; [change (INR 0) with 0; unfold Rdiv; ring |]. split; [fold N; field; lra |]. split; [intro k; rewrite S_INR; change (INR 1) with 1; change (INR 0) with 0; unfold Rdiv; ring |].
    split; [| split].
    + intros k hk. assert (hu : 0 <= INR k / N <= 1).
      { split; [apply Rmult_le_pos; [apply pos_INR | lra] |]. apply (Rmult_le_reg_r N); [exact hN |]. unfold Rdiv. rewrite Rmult_assoc, Rinv_l by lra. assert (q := le_INR _ _ hk). fold N in q. lra. }
      set (u := INR k / N) in *. assert (0 <= u * t1) by (apply Rmult_le_pos; lra). assert (0 <= (1 - u) * t0) by (apply Rmult_le_pos; lra).
      destruct (Req_dec u 1) as [-> | ne]; [lra |]. assert (0 < (1 - u) * t0) by (apply Rmult_lt_0_compat; lra). lra.
    + intros hle k hk. rewrite S_INR. unfold Rdiv. nra.
    + intros hle k hk. rewrite S_INR. unfold Rdiv. nra.
  - assert (hr : 0 < t1 / t0) by (apply Rdiv_lt_0_compat; assumption).
    split; [change (INR 0) with 0; unfold Rdiv at 2; rewrite Rmult_0_l, Rpower_O by exact hr; ring |]. split; [fold N; replace (N / N) with 1 by (field; lra); rewrite Rpower_1 by exact hr; field; lra |].
    split; [| split; [| split]].
    + intro k. rewrite S_INR. change (INR 1) with 1. change (INR 0) with 0. replace ((INR k + 1) / N) with (INR k / N + 1 / N) by (unfold Rdiv; ring). rewrite Rpower_plus. unfold Rdiv at 6. rewrite Rmult_0_l, Rpower_O by exact hr. ring.
    + intros k _. apply Rmult_lt_0_compat; [exact h0 | apply exp_pos].
    + intros hle k _. apply Rmult_le_compat_l; [lra |]. rewrite S_INR. unfold Rpower. assert (l : ln (t1 / t0) <= 0).
      { rewrite <- ln_1. destruct (Req_dec t1 t0) as [-> | ne]; [replace (t0 / t0) with 1 by (field; lra); lra |]. left. apply ln_increasing; [exact hr |]. apply (Rmult_lt_reg_r t0); [exact h0 |]. unfold Rdiv. rewrite Rmult_assoc, Rinv_l by lra. lra. }
      assert (q : (INR k + 1) / N * ln (t1 / t0) <= INR k / N * ln (t1 / t0)) by (unfold Rdiv; nra). destruct q as [q | ->]; [left; now apply exp_increasing | lra].
    + intros hle k _. apply Rmult_le_compat_l; [lra |]. rewrite S_INR. unfold Rpower. assert (l : 0 <= ln (t1 / t0)).
      { rewrite <- ln_1. destruct (Req_dec t1 t0) as [-> | ne]; [replace (t0 / t0) with 1 by (field; lra); lra |]. left. apply ln_increasing; [lra |]. apply (Rmult_lt_reg_r t0); [exact h0 |]. unfold Rdiv. rewrite Rmult_assoc, Rinv_l by lra. lra. }
      assert (q : INR k / N * ln (t1 / t0) <= (INR k + 1) / N * ln (t1 / t0)) by (unfold Rdiv; nra). destruct q as [q | ->]; [left; now apply exp_increasing | lra].
Qed.
Print Assumptions C72_temperature_schedule.
(** a single step uses the final temperature only *)
Theorem C72_single_temperature k n t0 t1 s : 0 < t0 -> 0 < t1 -> (n <= 1)%nat -> annealed_temperature k n t0 t1 s = Some t1.
Proof.
  intros h0 h1 hn. unfold annealed_temperature. assert (e0 : rleb t0 0 = false) by (apply rleb_false; lra). assert (e1 : rleb t1 0 = false) by (apply rleb_false; lra). rewrite e0, e1. cbn [orb].
  assert (e2 : Nat.leb n 1 = true) by (apply Nat.leb_le; lia). now rewrite e2.
Qed.
Print Assumptions C72_single_temperature.
Example C72_temperature_example : annealed_temperature 1 3 4 1 Geometric = Some 2 /\ annealed_temperature 1 3 4 1 Linear = Some (5 / 2).
Proof.
  rewrite !temp_ok by (lra || lia). split; f_equal.
  - change (INR 1) with 1. change (INR (3 - 1)) with 2. replace (1 / 2) with (/ 2) by lra. rewrite Rpower_sqrt by lra. replace (1 / 4) with ((1 / 2) * (1 / 2)) by lra. rewrite sqrt_square by lra. lra.
  - change (INR 1) with 1. change (INR (3 - 1)) with 2. lra.
Qed.

(** * C72: kernel *)
Theorem C72_kernel xs bw scale bmin jitter h : 0 <= jitter -> effective_bandwidth xs bw scale bmin jitter = Some h ->
  0 < h /\ (forall b, bmin = Some b -> b <= h) /\
  forall u v, kernel h u v = kernel h v u /\ 0 < kernel h u v <= 1 /\ (length u = length v -> (kernel h u v = 1 <-> u = v)).
Proof.
  intros hj. unfold effective_bandwidth. destruct (rleb scale 0) eqn:e0; [discriminate |]. apply rleb_false in e0. destruct (match bmin with Some b => rleb b 0 | None => false end) eqn:e1; [discriminate |]. intro h0.
  assert (hh : 0 < h /\ forall b, bmin = Some b -> b <= h).
  { set (g := match raw_bandwidth xs bw scale with Fin h => if rleb h jitter then Rmax scale jitter else h | _ => Rmax scale jitter end) in h0.
    assert (gp : 0 < g). { unfold g. assert (0 < Rmax scale jitter) by (pose proof (Rmax_l scale jitter); lra). destruct (raw_bandwidth xs bw scale) as [a | | |]; try assumption. destruct (rleb a jitter) eqn:e2; [assumption |]. apply rleb_false in e2. lra. }
    assert (eh : h = match bmin with Some b => Rmax g b | None => g end) by congruence. subst h. destruct bmin as [b |].
    - split; [pose proof (Rmax_l g b); lra |]. intros b' q. assert (b' = b) by congruence. subst. apply Rmax_r.
    - split; [exact gp | discriminate]. }
  destruct hh as [hp hb]. split; [exact hp |]. split; [exact hb |]. intros u v. assert (ip : 0 < / h) by now apply Rinv_0_lt_compat. assert (d := sq_dist_pos u v). split; [unfold kernel; now rewrite sq_dist_sym |]. split.
  - split; [apply exp_pos |]. unfold kernel. rewrite <- exp_0. assert (q : - sq_dist u v / h <= 0) by (unfold Rdiv; nra). destruct q as [q | ->]; [left; now apply exp_increasing | lra].
  - intro hl. rewrite <- (sq_dist_0 u v hl). unfold kernel. split; intro q.
    + rewrite <- exp_0 in q. apply exp_inv in q. assert (sq_dist u v = - (- sq_dist u v / h) * h) by (field; lra). rewrite q in H. lra.
    + rewrite q. replace (- 0 / h) with 0 by (field; lra). apply exp_0.
Qed.
Print Assumptions C72_kernel.
(** the default bandwidth is the median of the positive squared distances divided by log(n+1) *)
Theorem C72_median_bandwidth xs scale jitter : 0 < scale -> (exists u v, In u xs /\ In v xs /\ 0 < sq_dist u v) ->
  exists m, is_median (filter (fun a => rltb 0 a) (sq_dists xs)) m /\ 0 < m /\
    (forall d, In d (filter (fun a => rltb 0 a) (sq_dists xs)) <-> 0 < d /\ exists u v, In u xs /\ In v xs /\ d = sq_dist u v) /\
    effective_bandwidth xs None scale None jitter = Some (let h := scale * m / ln (INR (length xs) + 1) in if rleb h jitter then Rmax scale jitter else h).
Proof.
  intros hs [u [v [hu [hv hd]]]]. set (pos := filter (fun a => rltb 0 a) (sq_dists xs)).
  assert (hin : forall d, In d pos <-> 0 < d /\ exists u v, In u xs /\ In v xs /\ d = sq_dist u v).
  { intro d. unfold pos. rewrite filter_In, rltb_iff. unfold sq_dists. rewrite in_concat. split.
    - intros [[l [hl hdl]] h2]. apply in_map_iff in hl as [a [<- ha]]. apply in_map_iff in hdl as [b [<- hb]]. split; [exact h2 |]. now exists a, b.
    - intros [h2 [a [b [ha [hb ->]]]]]. split; [| exact h2]. exists (map (fun v => sq_dist a v) xs). split; [apply in_map_iff; now exists a | apply in_map_iff; now exists b]. }
  assert (ne : pos <> []). { intro q. assert (k : In (sq_dist u v) pos) by (apply hin; split; [exact hd | now exists u, v]). rewrite q in k. destruct k. }
  destruct (median_spec pos ne) as [hm [a [b [ha [hb [h1 h2]]]]]]. exists (median pos). split; [exact hm |]. split; [apply hin in ha; lra |]. split; [exact hin |].
  unfold effective_bandwidth. assert (e0 : rleb scale 0 = false) by (apply rleb_false; lra). rewrite e0. unfold raw_bandwidth. fold pos. cbv zeta.
  assert (lp : 0 < ln (INR (length xs) + 1)). { rewrite <- ln_1. apply ln_increasing; [lra |]. assert (0 < INR (length xs)) by (apply lt_0_INR; destruct xs; [destruct hu | cbn; lia]). lra. }
  assert (e1 : rleb (ln (INR (length xs) + 1)) 0 = false) by (apply rleb_false; exact lp). rewrite e1. destruct pos as [| p0 pl] eqn:ep; [contradiction |]. reflexivity.
Qed.
Print Assumptions C72_median_bandwidth.

(** * C72: one step *)
(** the velocity of a live particle is the preconditioned average over the live particles of
    k(x_q, x_p) score_q + grad_{x_q} k(x_q, x_p), the Stein variational direction *)
Theorem C72_stein_direction h precond ps p c : h <> 0 -> alive p = true -> (forall q, In q ps -> length (px q) = length (px p)) -> (c < length (px p))%nat ->
  exists g : particle -> R, (forall q, In q ps -> is_derive (fun t : R => kernel h (upd (px q) c t) (px p)) (nth c (px q) 0) (g q)) /\
    velocity h precond ps p c = nth c precond 0 * (sum_list (map (fun q => kernel h (px q) (px p) * nth c (pscore q) 0 + g q) (filter alive ps)) / INR (Nat.max (length (filter alive ps)) 1)).
Proof.
  intros hh hp hl hc. exists (fun q => 2 / h * kernel h (px q) (px p) * (nth c (px p) 0 - nth c (px q) 0)). split.
  - intros q hq. apply kernel_derive; [exact hh | rewrite hl by exact hq; exact hc | now apply hl].
  - unfold velocity. rewrite hp. unfold denom. set (m := INR (Nat.max (length (filter alive ps)) 1)). assert (mp : 0 < m) by (apply lt_0_INR; lia).
    rewrite sum_plus. rewrite <- !sum_filter.
    rewrite (sum_ext _ (fun q => masked h p q * nth c (pscore q) 0) (fun q => if alive q then kernel h (px q) (px p) * nth c (pscore q) 0 else 0)).
    2: { intros q _. unfold masked. rewrite hp. cbn [andb]. destruct (alive q); [| ring]. unfold kernel. now rewrite sq_dist_sym. }
    rewrite (sum_ext _ (fun q => if alive q then 2 / h * kernel h (px q) (px p) * (nth c (px p) 0 - nth c (px q) 0) else 0) (fun q => 2 / h * (masked h p q * (nth c (px p) 0 - nth c (px q) 0)))).
    2: { intros q _. unfold masked. rewrite hp. cbn [andb]. destruct (alive q); [| ring]. unfold kernel. rewrite sq_dist_sym. ring. }
    rewrite sum_scal. field. split; [exact hh | lra].
Qed.
Print Assumptions C72_stein_direction.
(** repulsion forces cancel: the velocities sum to the kernel-weighted scores alone *)
Theorem C72_repulsion_cancels h precond ps c :
  sum_list (map (fun p => velocity h precond ps p c) ps) =
  nth c precond 0 * (sum_list (map (fun p => sum_list (map (fun q => masked h p q * nth c (pscore q) 0) ps)) ps) / denom ps).
Proof.
  set (m := denom ps). assert (mp : 0 < m) by (apply lt_0_INR; lia).
  assert (e : forall p, In p ps -> velocity h precond ps p c = nth c precond 0 / m * sum_list (map (fun q => masked h p q * nth c (pscore q) 0) ps) + nth c precond 0 * (2 / h) / m * sum_list (map (fun q => masked h p q * (nth c (px p) 0 - nth c (px q) 0)) ps)).
  { intros p _. unfold velocity. fold m. destruct (alive p) eqn:q.
    - unfold Rdiv. ring.
    - assert (z : forall f : particle -> R, sum_list (map (fun q => masked h p q * f q) ps) = 0).
      { intro f. rewrite (sum_ext _ _ (fun _ => 0)); [apply sum_0 |]. intros r _. unfold masked. rewrite q. cbn [andb]. ring. }
      rewrite (z (fun q => nth c (pscore q) 0)), (z (fun q => nth c (px p) 0 - nth c (px q) 0)). ring. }
  rewrite (sum_ext _ _ _ _ e), sum_plus, !sum_scal.
  assert (a : sum_list (map (fun p => sum_list (map (fun q => masked h p q * (nth c (px p) 0 - nth c (px q) 0)) ps)) ps) = 0).
  { apply (sum_antisym _ (fun p q => masked h p q * (nth c (px p) 0 - nth c (px q) 0))). intros p q. unfold masked, kernel. rewrite (sq_dist_sym (px p) (px q)). destruct (alive p), (alive q); cbn [andb]; ring. }
  rewrite a. unfold Rdiv. ring.
Qed.
Print Assumptions C72_repulsion_cancels.
