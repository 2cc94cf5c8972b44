(** Spec vocabulary and lemmas for NutsModel, part 4: warm-up windows, running variance, dual averaging, step sizes. *)
From Coq Require Import List Arith ZArith Reals Bool Lra Lia FunctionalExtensionality.
From Verif Require Import ConfigModel FlModel PriorModel SelectProofs SmcModel SmcProofs NutsModel NutsProofs.
Import ListNotations.
Local Open Scope R_scope.

(** * windows *)
(** consecutive non-empty intervals from lo to hi *)
Fixpoint tiles (lo hi : Z) (ws : list (Z * Z)) : Prop :=
  match ws with [] => lo = hi | (a, b) :: ws => a = lo /\ (a < b)%Z /\ tiles b hi ws end.
(** sizes win, 2 win, 4 win, ... and a last one not larger than the next in that list *)
Fixpoint doubling (win : Z) (ws : list (Z * Z)) : Prop :=
  match ws with
  | [] => True
  | [(a, b)] => (b - a <= win)%Z
  | (a, b) :: ws => (b - a = win)%Z /\ doubling (2 * win) ws
  end.
Lemma window_loop_spec fuel : forall start win e base, (1 <= win)%Z -> win = Z.min base (e - start) -> (start < e)%Z ->
  (Z.to_nat (e - start) < fuel)%nat ->
  exists ws, window_loop fuel start win e = Some ws /\ ws <> [] /\ tiles start e ws /\ doubling base ws.
Proof.
  induction fuel as [| fuel ih]; intros start win e base h1 hw hs hf; [lia |]. cbn [window_loop].
  destruct (Z.ltb_spec (start + win) e) as [h | h].
  - destruct (Z.leb_spec (Z.min (2 * win) (e - (start + win))) 0); [lia |].
    destruct (ih (start + win)%Z (Z.min (2 * win) (e - (start + win))) e (2 * win)%Z) as [ws [e1 [hne [ht hd]]]]; try lia.
    rewrite e1. exists ((start, (start + win)%Z) :: ws). split; [reflexivity |]. split; [discriminate |].
    split; [cbn [tiles]; repeat split; [lia | exact ht] |]. destruct ws as [| w ws]; [now elim hne |].
    assert (hb : win = base) by lia. subst base. destruct w as [a b]. change (doubling win ((start, (start + win)%Z) :: (a, b) :: ws)) with
      ((start + win - start = win)%Z /\ doubling (2 * win) ((a, b) :: ws)). split; [lia | exact hd].
  - destruct (Z.ltb_spec start e); [| lia]. exists [(start, e)]. split; [reflexivity |]. split; [discriminate |].
    split; [cbn [tiles]; lia |]. cbn [doubling]. lia.
Qed.
Lemma windows_of_total ib tb bw n : exists ws, windows_of ib tb bw n = Some ws.
Proof.
  unfold windows_of. cbv zeta. destruct (Z.leb_spec (n - tb) ib); [now eexists |].
  destruct (Z_le_gt_dec 1 bw) as [hb | hb].
  - destruct (window_loop_spec (S (Z.to_nat (n - tb - ib))) ib (Z.min bw (n - tb - ib)) (n - tb) bw) as [ws [h _]]; try lia. now exists ws.
  - cbn [window_loop]. destruct (Z.ltb_spec (ib + Z.min bw (n - tb - ib)) (n - tb)); [| now eexists].
    destruct (Z.leb_spec (Z.min (2 * Z.min bw (n - tb - ib)) (n - tb - (ib + Z.min bw (n - tb - ib)))) 0); [now eexists | lia].
Qed.
Lemma windows_of_spec ib tb bw n : (1 <= bw)%Z -> (ib < n - tb)%Z ->
  exists ws, windows_of ib tb bw n = Some ws /\ ws <> [] /\ tiles ib (n - tb) ws /\ doubling bw ws.
Proof.
  intros h1 h2. unfold windows_of. cbv zeta. destruct (Z.leb_spec (n - tb) ib); [lia |].
  apply window_loop_spec; lia.
Qed.
Lemma tiles_in lo hi ws : tiles lo hi ws -> forall a b, In (a, b) ws -> (lo <= a < b)%Z /\ (b <= hi)%Z.
Proof.
  revert lo. induction ws as [| [x y] ws ih]; intros lo; cbn [tiles]; [intros _ a b [] |].
  intros [-> [h1 h2]] a b [e | hin].
  - injection e as <- <-. split; [lia |]. clear -h2. revert y h2. induction ws as [| [x' y'] ws ih]; intros y; cbn [tiles]; [lia |].
    intros [-> [h3 h4]]. specialize (ih _ h4). lia.
  - specialize (ih y h2 a b hin). lia.
Qed.
Lemma tiles_disjoint lo hi ws : tiles lo hi ws -> forall a b a' b', In (a, b) ws -> In (a', b') ws ->
  (a, b) = (a', b') \/ (b <= a')%Z \/ (b' <= a)%Z.
Proof.
  revert lo. induction ws as [| [x y] ws ih]; intros lo; cbn [tiles]; [intros _ a b a' b' [] |].
  intros [-> [h1 h2]] a b a' b' [e | hin] [e' | hin'].
  - left. congruence.
  - injection e as <- <-. right; left. exact (proj1 (proj1 (tiles_in _ _ _ h2 _ _ hin'))).
  - injection e' as <- <-. right; right. exact (proj1 (proj1 (tiles_in _ _ _ h2 _ _ hin))).
  - exact (ih _ h2 _ _ _ _ hin hin').
Qed.
Lemma tiles_cover lo hi ws : tiles lo hi ws -> forall t, (lo <= t < hi)%Z -> exists a b, In (a, b) ws /\ (a <= t < b)%Z.
Proof.
  revert lo. induction ws as [| [x y] ws ih]; intros lo; cbn [tiles]; [lia |].
  intros [-> [h1 h2]] t ht. destruct (Z_lt_le_dec t y) as [h | h].
  - exists lo, y. split; [now left | lia].
  - destruct (ih y h2 t) as [a [b [hin hab]]]; [lia |]. exists a, b. split; [now right | exact hab].
Qed.

(** * running variance *)
Definition col (i : nat) (xs : list vec) : list R := map (fun x => x i) xs.
Lemma rdv_batch_app s xs ys : rdv_batch s (xs ++ ys) = rdv_batch (rdv_batch s xs) ys.
Proof. apply fold_left_app. Qed.
Lemma rdv_batch_spec xs i : let s := rdv_batch rdv_new xs in
  r_n s = length xs /\ r_mean s i * INR (length xs) = sum_list (col i xs) /\
  r_m2 s i = sum_list (map (fun v => (v - r_mean s i) * (v - r_mean s i)) (col i xs)).
Proof.
  induction xs as [| x xs [h1 [h2 h3]]] using rev_ind; [cbn; repeat split; unfold sum_list; cbn; ring |].
  cbv zeta in *. rewrite rdv_batch_app. set (s := rdv_batch rdv_new xs) in *. cbn [rdv_batch fold_left].
  unfold rdv_one. cbn [r_n r_mean r_m2]. rewrite h1, app_length, Nat.add_1_r. split; [reflexivity |].
  rewrite dev_sum in *. unfold sq_sum in *. unfold col in *. rewrite !map_app, !map_length, !sum_app in *. cbn [map length] in *. rewrite app_length in *.
  rewrite map_length in *. cbn [length] in *. rewrite Nat.add_1_r.
  rewrite !(sum_cons (x i)), !(sum_cons (x i * x i)). change (sum_list []) with 0.
  unfold vec in *. set (m := r_mean s i) in *. rewrite h3, <- h2. rewrite !S_INR.
  pose proof (pos_INR (length xs)). split; field; lra.
Qed.
Lemma rdv_var_spec xs i : (2 <= length xs)%nat -> exists m, m * INR (length xs) = sum_list (col i xs) /\
  rdv_var (rdv_batch rdv_new xs) i = sum_list (map (fun v => (v - m) * (v - m)) (col i xs)) / (INR (length xs) - 1).
Proof.
  intro h. destruct (rdv_batch_spec xs i) as [h1 [h2 h3]]. cbv zeta in *. exists (r_mean (rdv_batch rdv_new xs) i).
  split; [exact h2 |]. unfold rdv_var. rewrite h1. destruct (Nat.ltb_spec (length xs) 2); [lia |]. now rewrite h3.
Qed.
Lemma rdv_var_small xs i : (length xs < 2)%nat -> rdv_var (rdv_batch rdv_new xs) i = 1.
Proof. intro h. unfold rdv_var. destruct (rdv_batch_spec xs i) as [h1 _]. cbv zeta in h1. rewrite h1. destruct (Nat.ltb_spec (length xs) 2); [reflexivity | lia]. Qed.

(** * dual averaging *)
Definition da_run (s : da) (accs : list R) (target gamma t0 kappa : R) : da :=
  fold_left (fun s a => da_update s a target gamma t0 kappa) accs s.
Lemma da_run_app s l a target gamma t0 kappa : da_run s (l ++ [a]) target gamma t0 kappa = da_update (da_run s l target gamma t0 kappa) a target gamma t0 kappa.
Proof. unfold da_run. now rewrite fold_left_app. Qed.
Lemma da_run_closed s accs target gamma t0 kappa : da_t s = 0%nat -> da_h s = 0 -> 0 <= t0 ->
  let r := da_run s accs target gamma t0 kappa in
  da_t r = length accs /\ da_mu r = da_mu s /\
  (INR (length accs) + t0) * da_h r = sum_list (map (fun a => target - a) accs) /\
  (accs <> [] -> da_log_eps r = da_mu s - sqrt (INR (length accs)) / gamma * da_h r).
Proof.
  intros ht hh h0. induction accs as [| a accs [h1 [h2 [h3 _]]]] using rev_ind.
  - cbn. rewrite ht, hh. repeat split; [unfold sum_list; cbn; ring | now intros []].
  - cbv zeta in *. rewrite da_run_app. set (r := da_run s accs target gamma t0 kappa) in *. unfold da_update.
    cbn [da_t da_mu da_h da_log_eps]. rewrite h1, h2, app_length. cbn [length]. rewrite Nat.add_1_r.
    split; [reflexivity |]. split; [reflexivity |]. split; [| reflexivity].
    rewrite map_app, sum_app. cbn [map]. rewrite sum_cons. change (sum_list []) with 0. rewrite <- h3, !S_INR.
    pose proof (pos_INR (length accs)). field. lra.
Qed.
Lemma sum_bounds l lo hi : (forall v, In v l -> lo <= v <= hi) -> INR (length l) * lo <= sum_list l <= INR (length l) * hi.
Proof.
  induction l as [| a l ih]; intro h; [cbn; lra |]. rewrite sum_cons. change (length (a :: l)) with (S (length l)). rewrite S_INR.
  assert (ha := h a (or_introl eq_refl)). assert (hl := ih (fun v hv => h v (or_intror hv))). lra.
Qed.
Lemma da_h_bounds s accs target gamma t0 kappa : da_t s = 0%nat -> da_h s = 0 -> 0 <= t0 -> 0 <= target <= 1 ->
  (forall a, In a accs -> 0 <= a <= 1) -> target - 1 <= da_h (da_run s accs target gamma t0 kappa) <= target.
Proof.
  intros ht hh h0 htg ha. destruct accs as [| a0 accs']; [cbn; rewrite hh; lra |]. set (accs := a0 :: accs') in *.
  destruct (da_run_closed s accs target gamma t0 kappa ht hh h0) as [_ [_ [h3 _]]]. cbv zeta in h3.
  set (h := da_h _) in *. assert (hb := sum_bounds (map (fun a => target - a) accs) (target - 1) target).
  rewrite map_length in hb. rewrite <- h3 in hb.
  assert (hn : 1 <= INR (length accs)) by (unfold accs; change (length (a0 :: accs')) with (S (length accs')); rewrite S_INR; pose proof (pos_INR (length accs')); lra).
  destruct hb as [b1 b2].
  { intros v hv. apply in_map_iff in hv. destruct hv as [a [<- hin]]. specialize (ha a hin). lra. }
  split; apply Rmult_le_reg_l with (INR (length accs) + t0); try lra; nra.
Qed.
Lemma weight_range t kappa : (1 <= t)%nat -> 0 <= kappa -> 0 < Rpower (INR t) (- kappa) <= 1.
Proof.
  intros ht hk. split; [apply exp_pos |]. unfold Rpower. rewrite <- exp_0.
  assert (h1 : 1 <= INR t) by (replace 1 with (INR 1) by reflexivity; apply le_INR; lia).
  assert (h2 : 0 <= ln (INR t)).
  { destruct (Req_dec (INR t) 1) as [-> | hne]; [rewrite ln_1; lra |]. left. rewrite <- ln_1. apply ln_increasing; lra. }
  destruct (Rle_lt_or_eq_dec (- kappa * ln (INR t)) 0) as [h | h]; [nra | |].
  - left. now apply exp_increasing.
  - rewrite h. lra.
Qed.
Lemma da_bar_range s accs target gamma t0 kappa A B : da_t s = 0%nat -> 0 <= kappa -> accs <> [] ->
  (forall k, (0 < k <= length accs)%nat -> A <= da_log_eps (da_run s (firstn k accs) target gamma t0 kappa) <= B) ->
  A <= da_log_bar (da_run s accs target gamma t0 kappa) <= B.
Proof.
  intros ht hk hne h.
  assert (T : forall l, da_t (da_run s l target gamma t0 kappa) = length l).
  { intro l. induction l as [| a l ih] using rev_ind; [exact ht |]. rewrite da_run_app. unfold da_update. cbn [da_t]. rewrite ih, app_length. cbn. lia. }
  assert (G : forall k, (0 < k <= length accs)%nat -> A <= da_log_bar (da_run s (firstn k accs) target gamma t0 kappa) <= B).
  { induction k as [| k ih]; [lia |]. intro hle. specialize (h (S k) hle).
    assert (e : exists a, firstn (S k) accs = firstn k accs ++ [a]).
    { destruct (nth_error accs k) as [a |] eqn:hn; [| apply nth_error_None in hn; lia].
      exists a. clear -hn. revert accs hn. induction k as [| k ih]; intros [| x l] hn; try discriminate; cbn in *; [congruence |]. f_equal. now apply ih. }
    destruct e as [a e]. rewrite e in *. rewrite da_run_app in *. set (r := da_run s (firstn k accs) target gamma t0 kappa) in *.
    assert (hr : da_t r = k) by (unfold r; rewrite T, firstn_length; lia).
    assert (w := weight_range (S k) kappa ltac:(lia) hk).
    assert (el : da_log_bar (da_update r a target gamma t0 kappa) =
       Rpower (INR (S k)) (- kappa) * da_log_eps (da_update r a target gamma t0 kappa) + (1 - Rpower (INR (S k)) (- kappa)) * da_log_bar r).
    { unfold da_update. cbn [da_log_bar da_log_eps]. rewrite hr. reflexivity. }
    rewrite el. set (L := da_log_eps _) in *. set (q := Rpower _ _) in *. destruct k as [| k].
    - assert (e1 : q = 1) by (unfold q; cbn [INR]; unfold Rpower; rewrite ln_1, Rmult_0_r; apply exp_0). rewrite e1. lra.
    - specialize (ih ltac:(lia)). nra. }
  rewrite <- (firstn_all accs). apply G. destruct accs; [now elim hne | cbn; lia].
Qed.

(** * clamping *)
Lemma eps_min_pos m : 0 < eps_min_of m.
Proof.
  assert (h : 0 < / 10 ^ 12) by (apply Rinv_0_lt_compat, pow_lt; lra).
  destruct m as [v | | |]; cbn [eps_min_of]; try exact h. destruct (rleb v 0) eqn:e; [exact h |]. now apply rleb_false in e.
Qed.
Lemma eps_max_gt emin m : 0 < emin -> emin < eps_max_of emin m.
Proof.
  intro h. assert (h1 : emin < Rmax 1 (10 * emin)) by (apply Rlt_le_trans with (10 * emin); [lra | apply Rmax_r]).
  destruct m as [v | | |]; cbn [eps_max_of]; try exact h1. destruct (rleb v emin) eqn:e; [exact h1 |]. now apply rleb_false in e.
Qed.
Lemma clamp_range emin emax e : emin <= emax -> emin <= clamp emin emax e <= emax.
Proof.
  intro h. destruct e as [v | | |]; cbn [clamp]; try lra. destruct (rleb v 0); [lra |].
  destruct (rltb v emin) eqn:e1; [lra |]. apply rltb_false in e1. destruct (rltb emax v) eqn:e2; [lra |]. apply rltb_false in e2. lra.
Qed.
Lemma clamp_id emin emax v : 0 < emin -> emin <= v <= emax -> clamp emin emax (Fin v) = v.
Proof.
  intros h0 h. cbn [clamp]. assert (e1 : rleb v 0 = false) by (apply rleb_false; lra). assert (e2 : rltb v emin = false) by (apply rltb_false; lra).
  assert (e3 : rltb emax v = false) by (apply rltb_false; lra). now rewrite e1, e2, e3.
Qed.

(** * search for the initial step *)
Lemma search_up fuel a target base mn mx e : 1 < base -> mn <= e -> e <= mx -> 0 < e -> mx < e * base ^ fuel ->
  exists r, search_loop fuel a target base mn mx true e = Some r /\ e < r <= mx * base /\
    (alpha_lt (a r) target = true \/ mx < r).
Proof.
  intros hb hmn. revert e hmn. induction fuel as [| fuel ih]; intros e hmn he h0 hf; [cbn [pow] in hf; lra |]. cbn [search_loop].
  rewrite andb_false_r, andb_true_r. cbn [orb].
  destruct (alpha_lt (a (e * base)) target) eqn:ea; [exists (e * base); split; [reflexivity |]; split; [nra | now left] |].
  assert (e1 : rltb (e * base) mn = false) by (apply rltb_false; nra). rewrite e1. cbn [orb].
  destruct (rltb mx (e * base)) eqn:em.
  - apply rltb_iff in em. exists (e * base). split; [reflexivity |]. split; [nra | now right].
  - apply rltb_false in em. destruct (ih (e * base)) as [r [h1 [h2 h3]]]; try nra.
    { cbn [pow] in hf. nra. } exists r. split; [exact h1 |]. split; [nra | exact h3].
Qed.
Lemma search_down fuel a target base mn mx e : 1 < base -> mn <= e -> e <= mx -> 0 < e -> e < mn * base ^ fuel ->
  exists r, search_loop fuel a target base mn mx false e = Some r /\ mn / base <= r < e /\
    (alpha_gt (a r) target = true \/ r < mn).
Proof.
  intros hb hmn. revert e hmn. induction fuel as [| fuel ih]; intros e hmn he h0 hf; [cbn [pow] in hf; lra |]. cbn [search_loop].
  rewrite andb_false_r, andb_true_r, orb_false_r.
  assert (hi : 0 < / base < 1) by (split; [apply Rinv_0_lt_compat; lra | rewrite <- Rinv_1; apply Rinv_lt_contravar; lra]).
  destruct (alpha_gt (a (e * / base)) target) eqn:ea; [exists (e * / base); split; [reflexivity |]; split; [unfold Rdiv; nra | now left] |].
  destruct (rltb (e * / base) mn) eqn:em; cbn [orb].
  - apply rltb_iff in em. exists (e * / base). split; [reflexivity |]. split; [unfold Rdiv; nra | now right].
  - apply rltb_false in em. assert (e1 : rltb mx (e * / base) = false) by (apply rltb_false; nra). rewrite e1.
    destruct (ih (e * / base)) as [r [h1 [h2 h3]]]; try nra.
    { apply Rmult_lt_reg_r with base; [lra |]. rewrite Rmult_assoc, Rinv_l by lra. cbn [pow] in hf. nra. }
    exists r. split; [exact h1 |]. split; [nra | exact h3].
Qed.
Lemma pow_unbounded base v : 1 < base -> exists n, v < base ^ n.
Proof.
  intro h. destruct (Pow_x_infinity base) with (b := v + 1) as [N hN].
  - rewrite Rabs_right; lra.
  - exists N. specialize (hN N (le_n N)). rewrite Rabs_right in hN; [lra |]. apply Rle_ge, pow_le. lra.
Qed.

(** * the warm-up loop *)
Local Opaque clamp.
Section Warm.
Variable o : adapt_opts.
Variable ws : list (Z * Z).

Definition params_ok (e : R) (m : vec) : Prop := a_min o <= e <= a_max o /\ forall i, Rmin 1 (a_jitter o) <= m i.
Lemma clip_ge j v i : Rmin 1 j <= clip_min j v i.
Proof. unfold clip_min. apply Rle_trans with j; [apply Rmin_r | apply Rmax_r]. Qed.
Lemma warm_iter_ok t s outs s' : 0 < a_min o <= a_max o -> warm_iter o ws t s outs = Some s' -> params_ok (m_step s) (m_mass s) ->
  params_ok (m_step s') (m_mass s') /\ m_used s' = m_used s ++ [(m_step s, m_mass s)].
Proof.
  intros hclamp h [h1 h2]. unfold warm_iter in h. cbv zeta in h. destruct (math_exp _) as [e |]; [| discriminate].
  destruct (at_end ws (t + 1)); injection h as <-; cbn [m_step m_mass m_used]; (split; [split | reflexivity]);
    try (apply clamp_range; lra); try exact h2. intro i. apply clip_ge.
Qed.
Lemma warm_loop_ok outs : 0 < a_min o <= a_max o -> forall t s s', warm_loop o ws t s outs = Some s' -> params_ok (m_step s) (m_mass s) ->
  (forall em, In em (m_used s) -> params_ok (fst em) (snd em)) ->
  params_ok (m_step s') (m_mass s') /\ (forall em, In em (m_used s') -> params_ok (fst em) (snd em)) /\
  length (m_used s') = (length (m_used s) + length outs)%nat.
Proof.
  intro hclamp. induction outs as [| out outs ih]; intros t s s' h h1 h2; cbn [warm_loop] in h.
  - injection h as <-. split; [exact h1 |]. split; [exact h2 | cbn; lia].
  - destruct (warm_iter o ws t s out) as [s1 |] eqn:e; [| discriminate]. destruct (warm_iter_ok _ _ _ _ hclamp e h1) as [h3 h4].
    destruct (ih _ _ _ h h3) as [h5 [h6 h7]].
    + intros em hin. rewrite h4 in hin. apply in_app_or in hin. destruct hin as [hin | [<- | []]]; [now apply h2 | exact h1].
    + split; [exact h5 |]. split; [exact h6 |]. rewrite h7, h4, app_length. cbn. lia.
Qed.
Lemma warm_loop_snoc outs : forall out t s, warm_loop o ws t s (outs ++ [out]) =
  match warm_loop o ws t s outs with Some s1 => warm_iter o ws (t + Z.of_nat (length outs)) s1 out | None => None end.
Proof.
  induction outs as [| x outs ih]; intros out t s; cbn [app warm_loop].
  - change (Z.of_nat (length (@nil (list (vec * R))))) with 0%Z. rewrite Z.add_0_r. destruct (warm_iter o ws t s out); reflexivity.
  - destruct (warm_iter o ws t s x) as [s1 |]; [| reflexivity]. rewrite ih. change (length (x :: outs)) with (S (length outs)).
    rewrite Nat2Z.inj_succ. now replace (t + 1 + Z.of_nat (length outs))%Z with (t + Z.succ (Z.of_nat (length outs)))%Z by lia.
Qed.

(** positions visited by all chains in iterations a .. b-1 *)
Definition visited (outs : list (list (vec * R))) (a b : Z) : list vec :=
  concat (map (map fst) (firstn (Z.to_nat (b - a)) (skipn (Z.to_nat a) outs))).
Lemma visited_snoc outs out a b : (0 <= a <= b)%Z -> (b = Z.of_nat (length outs)) ->
  visited (outs ++ [out]) a (b + 1) = visited outs a b ++ map fst out.
Proof.
  intros h ->. unfold visited.
  replace (Z.to_nat (Z.of_nat (length outs) + 1 - a)) with (S (length outs - Z.to_nat a)) by lia.
  replace (Z.to_nat (Z.of_nat (length outs) - a)) with (length outs - Z.to_nat a)%nat by lia.
  rewrite skipn_app. replace (Z.to_nat a - length outs)%nat with 0%nat by lia. cbn [skipn].
  rewrite !firstn_all2 by (rewrite ?app_length, skipn_length; cbn; lia).
  rewrite map_app, concat_app. cbn. now rewrite app_nil_r.
Qed.
Lemma visited_firstn outs n a b : (0 <= a)%Z -> (b <= Z.of_nat n)%Z -> visited (firstn n outs) a b = visited outs a b.
Proof.
  intros h1 h2. unfold visited. f_equal. f_equal. rewrite skipn_firstn_comm, firstn_firstn. f_equal. lia.
Qed.

Hypothesis ws_tiles : exists lo hi, (0 <= lo)%Z /\ tiles lo hi ws.
Lemma in_window_iff t : in_window ws t = true <-> exists a b, In (a, b) ws /\ (a <= t < b)%Z.
Proof.
  unfold in_window. rewrite existsb_exists. split.
  - intros [[a b] [hin h]]. cbn in h. apply andb_true_iff in h. rewrite Z.leb_le, Z.ltb_lt in h. now exists a, b.
  - intros [a [b [hin h]]]. exists (a, b). split; [exact hin |]. cbn. apply andb_true_iff. rewrite Z.leb_le, Z.ltb_lt. lia.
Qed.
Lemma at_end_iff t : at_end ws t = true <-> exists a, In (a, t) ws.
Proof.
  unfold at_end. rewrite existsb_exists. split.
  - intros [[a b] [hin h]]. cbn in h. apply Z.eqb_eq in h. subst. now exists a.
  - intros [a hin]. exists (a, t). split; [exact hin |]. cbn. apply Z.eqb_refl.
Qed.
Lemma warm_mass s0 outs s : m_rv s0 = rdv_new -> warm_loop o ws 0 s0 outs = Some s ->
  let t := Z.of_nat (length outs) in
  (forall a b, In (a, b) ws -> (a <= t < b)%Z -> m_rv s = rdv_batch rdv_new (visited outs a t)) /\
  (~ (exists a b, In (a, b) ws /\ (a <= t < b)%Z) -> m_rv s = rdv_new) /\
  (forall a b, In (a, b) ws -> (b <= t)%Z -> (forall a' b', In (a', b') ws -> (b' <= t)%Z -> (b' <= b)%Z) ->
     m_mass s = clip_min (a_jitter o) (rdv_var (rdv_batch rdv_new (visited outs a b)))) /\
  ((forall a b, In (a, b) ws -> (t < b)%Z) -> m_mass s = m_mass s0).
Proof.
  intro h0. destruct ws_tiles as [lo [hi [hlo htl]]]. revert s. induction outs as [| out outs ih] using rev_ind; intros s h t.
  - cbn in h. injection h as <-. unfold t. cbn [length]. change (Z.of_nat 0) with 0%Z. repeat split.
    + intros a b hin hab. destruct (tiles_in _ _ _ htl _ _ hin) as [h1 h2]. assert (a = 0)%Z by lia. subst a.
      unfold visited. cbn. exact h0.
    + intros _. exact h0.
    + intros a b hin hb. destruct (tiles_in _ _ _ htl _ _ hin) as [h1 h2]. lia.
  - rewrite warm_loop_snoc in h. destruct (warm_loop o ws 0 s0 outs) as [s1 |] eqn:hs1; [| discriminate].
    destruct (ih s1 eq_refl) as [i1 [i2 [i3 i4]]]. rewrite Z.add_0_l in h. set (t1 := Z.of_nat (length outs)) in *.
    assert (et : t = (t1 + 1)%Z) by (unfold t, t1; rewrite app_length; cbn; lia). assert (ht1 : (0 <= t1)%Z) by (unfold t1; lia).
    unfold warm_iter in h. cbv zeta in h. destruct (math_exp _) as [e |]; [| discriminate].
    assert (ep : forall a b, (b <= t1)%Z -> (0 <= a)%Z -> visited (outs ++ [out]) a b = visited outs a b).
    { intros a b hb ha. rewrite <- (visited_firstn (outs ++ [out]) (length outs) a b ha) by exact hb.
      rewrite firstn_app, firstn_all, Nat.sub_diag. cbn [firstn]. now rewrite app_nil_r. }
    destruct (in_window ws t1) eqn:hw.
    + apply in_window_iff in hw. destruct hw as [a [b [hin hab]]]. destruct (tiles_in _ _ _ htl _ _ hin) as [q1 q2].
      assert (erv : rdv_batch (m_rv s1) (map fst out) = rdv_batch rdv_new (visited (outs ++ [out]) a (t1 + 1))).
      { rewrite (i1 a b hin hab), visited_snoc by (unfold t1 in *; lia). symmetry. apply rdv_batch_app. }
      destruct (at_end ws (t1 + 1)) eqn:he; injection h as <-; cbn [m_rv m_mass].
      * apply at_end_iff in he. destruct he as [a1 he]. destruct (tiles_in _ _ _ htl _ _ he) as [q3 q4].
        assert (ew : (a1 = a /\ b = t1 + 1)%Z). { destruct (tiles_disjoint _ _ _ htl _ _ _ _ hin he) as [e1 | [e1 | e1]]; [injection e1 as <- <-; lia | lia | lia]. }
        destruct ew as [-> ->]. rewrite et. repeat split.
        -- intros a2 b2 hin2 hab2. destruct (tiles_disjoint _ _ _ htl _ _ _ _ hin hin2) as [e1 | [e1 | e1]]; [injection e1 as <- <-; lia | | lia].
           replace a2 with (t1 + 1)%Z by lia. unfold visited. rewrite Z.sub_diag. reflexivity.
        -- intros a2 b2 hin2 hb2 hlast. specialize (hlast _ _ hin ltac:(lia)).
           destruct (tiles_in _ _ _ htl _ _ hin2) as [q5 q6].
           destruct (tiles_disjoint _ _ _ htl _ _ _ _ hin hin2) as [e1 | [e1 | e1]]; [injection e1 as <- <- | lia | lia].
           now rewrite erv.
        -- intros hno. specialize (hno _ _ hin). lia.
      * assert (hb : (t1 + 1 < b)%Z). { destruct (Z.eq_dec (t1 + 1) b) as [<- |]; [| lia]. assert (at_end ws (t1 + 1) = true) by (apply at_end_iff; now exists a). congruence. }
        rewrite et. repeat split.
        -- intros a2 b2 hin2 hab2. destruct (tiles_disjoint _ _ _ htl _ _ _ _ hin hin2) as [e1 | [e1 | e1]]; [injection e1 as <- <-; exact erv | lia | lia].
        -- intro hno. exfalso. apply hno. exists a, b. split; [exact hin | lia].
        -- intros a2 b2 hin2 hb2 hlast. destruct (tiles_in _ _ _ htl _ _ hin2) as [q5 q6].
           assert (hb2' : (b2 <= t1)%Z). { destruct (tiles_disjoint _ _ _ htl _ _ _ _ hin hin2) as [e1 | [e1 | e1]]; [injection e1 as <- <-; lia | lia | lia]. }
           rewrite (ep a2 b2) by lia. apply i3; [exact hin2 | exact hb2' |]. intros a' b' hin' hb'. apply (hlast a' b'); [exact hin' | lia].
        -- intro hno. apply i4. intros a2 b2 hin2. specialize (hno a2 b2 hin2). lia.
    + assert (hnw : ~ exists a b, In (a, b) ws /\ (a <= t1 < b)%Z) by (rewrite <- in_window_iff; congruence).
      assert (he : at_end ws (t1 + 1) = false).
      { destruct (at_end ws (t1 + 1)) eqn:he; [| reflexivity]. apply at_end_iff in he. destruct he as [a1 he].
        destruct (tiles_in _ _ _ htl _ _ he) as [q3 q4]. exfalso. apply hnw. exists a1, (t1 + 1)%Z. split; [exact he | lia]. }
      rewrite he in h. injection h as <-. cbn [m_rv m_mass]. rewrite et, (i2 hnw). repeat split.
      * intros a2 b2 hin2 hab2. assert (a2 = t1 + 1)%Z.
        { destruct (Z_le_gt_dec a2 t1); [| lia]. exfalso. apply hnw. exists a2, b2. split; [exact hin2 | lia]. }
        subst a2. unfold visited. rewrite Z.sub_diag. reflexivity.
      * intros a2 b2 hin2 hb2 hlast. destruct (tiles_in _ _ _ htl _ _ hin2) as [q5 q6].
        assert (hb2' : (b2 <= t1)%Z). { destruct (Z_le_gt_dec b2 t1); [assumption |]. exfalso. apply hnw. exists a2, b2. split; [exact hin2 | lia]. }
        rewrite (ep a2 b2) by lia. apply i3; [exact hin2 | exact hb2' |]. intros a' b' hin' hb'. apply (hlast a' b'); [exact hin' | lia].
      * intro hno. apply i4. intros a2 b2 hin2. specialize (hno a2 b2 hin2). lia.
Qed.
End Warm.
