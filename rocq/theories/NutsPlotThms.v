(** Property C142: the figures of the NUTS diagnostics and of the leave-one-out predictions. *)
From Coq Require Import List Arith Reals Bool String Lia Lra.
From Verif Require Import PriorModel PriorProofs MhModel NutsPlotModel.
Import ListNotations.
Local Open Scope R_scope.

(** one of the two acceptance curves is at least as long as the window *)
Definition long_enough (i : info) (window : nat) : Prop :=
  (1 < window)%nat /\ (window <= List.length (averaged (warm_acc i)) \/ window <= List.length (averaged (samp_acc i)))%nat.
Definition plain (i : info) : list figure :=
  map (fun y => Fig y None) [warm_eps i; averaged (warm_acc i); averaged (warm_div i); averaged (samp_acc i); averaged (samp_div i)].

Lemma nth_repeat_in (c : R) n j : (j < n)%nat -> nth j (repeat c n) 0 = c.
Proof. revert j. induction n as [| n ih]; intros [| j] h; simpl; try lia; [reflexivity |]. apply ih. lia. Qed.
Lemma nth_firstn_in (l : list R) : forall n j, (j < n)%nat -> nth j (firstn n l) 0 = nth j l 0.
Proof. induction l as [| a l ih]; intros [| n] [| j] h; simpl; try lia; auto. apply ih. lia. Qed.
Lemma nth_skipn_add (l : list R) : forall k j, nth j (skipn k l) 0 = nth (k + j) l 0.
Proof. induction l as [| a l ih]; intros [| k] j; simpl; auto. destruct j; reflexivity. Qed.
Lemma draw_failed cv window save p it : failed p = true -> draw cv window save p it = p.
Proof. unfold draw. destruct it as [[n y] acc]. now intros ->. Qed.
Lemma draw_plain cv window save p n y acc : failed p = false -> (acc && (1 <? window)%nat && (window <=? List.length y)%nat = false) ->
  draw cv window save p (n, y, acc) = Prog (figs p ++ [Fig y None]) (if save then files p ++ [n] else files p) false.
Proof. unfold draw. intros -> ->. reflexivity. Qed.
Lemma draw_trip window save p n y : failed p = false -> (1 < window)%nat -> (window <= List.length y)%nat ->
  draw gnp_convolve window save p (n, y, true) = Prog (figs p) (files p) true.
Proof.
  unfold draw, moving_average, gnp_convolve. intros -> h1 h2. replace (1 <? window)%nat with true by (symmetry; now apply Nat.ltb_lt).
  replace (window <=? List.length y)%nat with true by (symmetry; now apply Nat.leb_le). replace (window <=? 1)%nat with false by (symmetry; now apply Nat.leb_gt). reflexivity.
Qed.
Lemma plot_cases i window save :
  plot_nuts_diagnostics gnp_convolve i window save =
  if (window <=? 1)%nat || ((List.length (averaged (warm_acc i)) <? window)%nat && (List.length (averaged (samp_acc i)) <? window)%nat)
  then (Some (plain i), if save then ["warmup_step_size.png"; "warmup_accept.png"; "warmup_divergence.png"; "sample_accept.png"; "sample_divergence.png"]%string else [])
  else (None, if save then if (window <=? List.length (averaged (warm_acc i)))%nat then ["warmup_step_size.png"]%string
                           else ["warmup_step_size.png"; "warmup_accept.png"; "warmup_divergence.png"]%string else []).
Proof.
  unfold plot_nuts_diagnostics, plain. cbn [fold_left map].
  generalize (averaged (warm_acc i)) (averaged (warm_div i)) (averaged (samp_acc i)) (averaged (samp_div i)). intros wa wd sa sd.
  rewrite (draw_plain gnp_convolve window save (Prog [] [] false)) by reflexivity. cbn [figs files app].
  destruct (Nat.leb_spec window 1) as [h1 | h1].
  - assert (w1 : (1 <? window)%nat = false) by now apply Nat.ltb_ge.
    rewrite (draw_plain _ _ _ _ _ wa) by (cbn [failed]; rewrite ?w1; reflexivity). rewrite (draw_plain _ _ _ _ _ wd) by reflexivity.
    rewrite (draw_plain _ _ _ _ _ sa) by (cbn [failed]; rewrite ?w1; reflexivity). rewrite (draw_plain _ _ _ _ _ sd) by reflexivity.
    cbn [figs files failed app orb]. destruct save; reflexivity.
  - destruct (Nat.leb_spec window (List.length wa)) as [h2 | h2].
    + rewrite (draw_trip _ _ _ _ wa) by (cbn [failed]; auto). rewrite !draw_failed by reflexivity. cbn [figs files failed orb].
      replace (List.length wa <? window)%nat with false by (symmetry; now apply Nat.ltb_ge). cbn [andb]. destruct save; reflexivity.
    + replace (List.length wa <? window)%nat with true by (symmetry; now apply Nat.ltb_lt). cbn [andb orb].
      rewrite (draw_plain _ _ _ (Prog _ _ false) _ wa) by (cbn [failed]; try reflexivity; replace (window <=? List.length wa)%nat with false by (symmetry; now apply Nat.leb_gt); apply andb_false_r).
      rewrite (draw_plain _ _ _ _ _ wd) by reflexivity.
      destruct (Nat.ltb_spec (List.length sa) window) as [h3 | h3].
      * rewrite (draw_plain _ _ _ _ _ sa) by (cbn [failed]; try reflexivity; replace (window <=? List.length sa)%nat with false by (symmetry; now apply Nat.leb_gt); apply andb_false_r).
        rewrite (draw_plain _ _ _ _ _ sd) by reflexivity. cbn [figs files failed app]. destruct save; reflexivity.
      * rewrite (draw_trip _ _ _ _ sa) by (cbn [failed]; auto). rewrite !draw_failed by reflexivity. cbn [figs files failed app]. destruct save; reflexivity.
Qed.

Theorem C142_nuts : forall i window save,
  let res := plot_nuts_diagnostics gnp_convolve i window save in
  (fst res = None <-> long_enough i window) /\
  (~ long_enough i window -> fst res = Some (plain i)) /\
  (save = false -> snd res = []) /\
  (save = true -> snd res =
     if (window <=? 1)%nat then ["warmup_step_size.png"; "warmup_accept.png"; "warmup_divergence.png"; "sample_accept.png"; "sample_divergence.png"]%string
     else if (window <=? List.length (averaged (warm_acc i)))%nat then ["warmup_step_size.png"]%string
     else if (window <=? List.length (averaged (samp_acc i)))%nat then ["warmup_step_size.png"; "warmup_accept.png"; "warmup_divergence.png"]%string
     else ["warmup_step_size.png"; "warmup_accept.png"; "warmup_divergence.png"; "sample_accept.png"; "sample_divergence.png"]%string) /\
  forall A (samples : A), finish gnp_convolve samples i false window save = Some (samples, i) /\
    (finish gnp_convolve samples i true window save = None <-> long_enough i window) /\
    (~ long_enough i window -> finish gnp_convolve samples i true window save = Some (samples, i)).
Proof.
  intros i window save res. unfold finish, long_enough. subst res. rewrite plot_cases.
  destruct (Nat.leb_spec window 1) as [h1 | h1]; cbn [orb fst snd].
  - repeat split; try (intros; discriminate); try (intros [h2 _]; lia); intros ->; reflexivity.
  - destruct (Nat.leb_spec window (List.length (averaged (warm_acc i)))) as [h2 | h2].
    + replace (List.length (averaged (warm_acc i)) <? window)%nat with false by (symmetry; now apply Nat.ltb_ge). cbn [andb fst snd].
      assert (Y : (1 < window)%nat /\ (window <= List.length (averaged (warm_acc i)) \/ window <= List.length (averaged (samp_acc i)))%nat) by (split; auto).
      split; [tauto |]. split; [tauto |]. split; [intros ->; reflexivity |]. split; [intros ->; reflexivity |].
      intros A s. split; [reflexivity |]. split; [tauto | tauto].
    + replace (List.length (averaged (warm_acc i)) <? window)%nat with true by (symmetry; now apply Nat.ltb_lt). cbn [andb].
      destruct (Nat.ltb_spec (List.length (averaged (samp_acc i))) window) as [h3 | h3]; cbn [fst snd].
      * replace (window <=? List.length (averaged (samp_acc i)))%nat with false by (symmetry; now apply Nat.leb_gt).
        split; [split; [discriminate | intros [_ [|]]; lia] |]. split; [reflexivity |]. split; [intros ->; reflexivity |]. split; [intros ->; reflexivity |].
        intros A s. split; [reflexivity |]. split; [split; [discriminate | intros [_ [|]]; lia] | reflexivity].
      * replace (window <=? List.length (averaged (samp_acc i)))%nat with true by (symmetry; now apply Nat.leb_le).
        assert (Y : (1 < window)%nat /\ (window <= List.length (averaged (warm_acc i)) \/ window <= List.length (averaged (samp_acc i)))%nat) by (split; auto).
        split; [tauto |]. split; [tauto |]. split; [intros ->; reflexivity |]. split; [intros ->; reflexivity |].
        intros A s. split; [reflexivity |]. split; [tauto | tauto].
Qed.

(** the curves, without the helpers of the model: one value per iteration, the mean over the chains *)
Definition iterations (s : series) : nat := match s with PerIter l => List.length l | PerChain rows => List.length rows end.
Definition shows (f : figure) (s : series) : Prop :=
  smooth f = None /\ List.length (main f) = iterations s /\
  match s with
  | PerIter l => main f = l
  | PerChain rows => forall t row, nth_error rows t = Some row -> row <> [] ->
      exists v, nth_error (main f) t = Some v /\ v * INR (List.length row) = fold_right Rplus 0 row
  end.
Lemma sum_list_right l : sum_list l = fold_right Rplus 0 l.
Proof. induction l as [| a l ih]; [reflexivity |]. rewrite sum_list_cons. simpl. now rewrite ih. Qed.
Theorem C142_curves : forall i window save,
  (fst (plot_nuts_diagnostics gnp_convolve i window save) = None <->
     (1 < window)%nat /\ (window <= iterations (warm_acc i) \/ window <= iterations (samp_acc i))%nat) /\
  forall fs, fst (plot_nuts_diagnostics gnp_convolve i window save) = Some fs ->
    Forall2 shows fs [PerIter (warm_eps i); warm_acc i; warm_div i; samp_acc i; samp_div i].
Proof.
  assert (L : forall s, List.length (averaged s) = iterations s) by (intros [l | rows]; simpl; [reflexivity | apply map_length]).
  assert (S : forall s, shows (Fig (averaged s) None) s).
  { intro s. split; [reflexivity |]. split; [apply L |]. destruct s as [l | rows]; [reflexivity |]. intros t row h n. exists (mean_l row).
    cbn [main averaged]. split; [now rewrite nth_error_map, h |]. unfold mean_l. rewrite sum_list_right. field.
    destruct row as [| a row]; [contradiction |]. apply not_0_INR. discriminate. }
  intros i window save. destruct (C142_nuts i window save) as (A & B & _). split.
  - rewrite A. unfold long_enough. now rewrite !L.
  - intros fs E. assert (N : ~ long_enough i window) by (intro h; apply A in h; congruence). rewrite (B N) in E. injection E as <-.
    unfold plain. cbn [map]. repeat constructor; apply S || apply (S (PerIter _)).
Qed.

(** what moving_average would give if gpmp.num had numpy.convolve: means over the last window iterations *)
Lemma sum_scale (l : list nat) (g : nat -> R) c : sum_list (map (fun j => g j * c) l) = sum_list (map g l) * c.
Proof. induction l as [| a l ih]; [unfold sum_list; simpl; lra |]. simpl map. rewrite !sum_list_cons, ih. lra. Qed.
Theorem C142_average : forall y window k, (1 < window)%nat -> (k + window <= List.length y)%nat ->
  moving_average gnp_convolve y window = None /\
  exists ma, moving_average (Some valid_convolve) y window = Some ma /\ List.length ma = (List.length y - (window - 1))%nat /\
    nth k ma 0 = mean_l (firstn window (skipn k y)).
Proof.
  intros y window k hw hk. unfold moving_average, gnp_convolve. replace (window <=? 1)%nat with false by (symmetry; now apply Nat.leb_gt).
  split; [reflexivity |]. eexists. split; [reflexivity |]. unfold valid_convolve. rewrite repeat_length. split; [rewrite map_length, seq_length; lia |].
  set (g := fun k0 : nat => _). rewrite (nth_indep _ 0 (g 0%nat)) by (rewrite map_length, seq_length; lia). rewrite map_nth, seq_nth by lia. unfold g. simpl.
  assert (E : map (fun j => nth (k + j) y 0 * nth (window - 1 - j) (repeat (1 / INR window) window) 0) (seq 0 window) = map (fun j => nth (k + j) y 0 * (1 / INR window)) (seq 0 window)).
  { apply map_ext_in. intros j hj. apply in_seq in hj. f_equal. apply nth_repeat_in. lia. }
  rewrite E, sum_scale. unfold mean_l. rewrite firstn_length, skipn_length, Nat.min_l by lia.
  replace (map (fun j => nth (k + j) y 0) (seq 0 window)) with (firstn window (skipn k y)); [unfold Rdiv; now rewrite Rmult_1_l |].
  apply nth_ext with (d := 0) (d' := 0); [rewrite firstn_length, skipn_length, map_length, seq_length; lia |].
  intros n hn. rewrite firstn_length, skipn_length in hn. set (h := fun j : nat => _). rewrite (nth_indep (map h _) 0 (h 0%nat)) by (rewrite map_length, seq_length; lia).
  rewrite map_nth, seq_nth by lia. unfold h. simpl. rewrite nth_firstn_in by lia. apply nth_skipn_add.
Qed.

(** plot_loo: the diagonal meets the bar of a point exactly when the prediction is within 1.96 standard deviations *)
Definition covers (auto : list R -> R * R) : Prop := forall l v, In v l -> fst (auto l) <= v <= snd (auto l).
Theorem C142_loo : forall auto data, covers auto ->
  let fig := plot_loo auto data in
  List.length (points fig) = List.length data /\
  forall i z m v, nth_error data i = Some (z, m, v) ->
    from fig <= z <= upto fig /\ from fig <= m <= upto fig /\
    exists b, nth_error (points fig) i = Some (z, m, b) /\ (b = None <-> v < 0) /\
    forall lo hi, b = Some (lo, hi) -> from fig <= lo /\ hi <= upto fig /\ (lo + hi) / 2 = m /\ (lo <= z <= hi <-> Rabs (z - m) <= 196 / 100 * sqrt v).
Proof.
  intros auto data hc. unfold plot_loo.
  set (zs := map _ data). set (ms := map (fun d : R * R * R => snd (fst d)) data). set (ends := flat_map _ data).
  destruct (auto zs) as [xmin xmax] eqn:Ex. destruct (auto (ms ++ ends)) as [ymin ymax] eqn:Ey. cbn [points from upto].
  assert (hz : forall v, In v zs -> xmin <= v <= xmax) by (intros v h; specialize (hc zs v h); now rewrite Ex in hc).
  assert (hm : forall v, In v (ms ++ ends) -> ymin <= v <= ymax) by (intros v h; specialize (hc _ v h); now rewrite Ey in hc).
  assert (L1 := Rmin_l xmin ymin). assert (L2 := Rmin_r xmin ymin). assert (U1 := Rmax_l xmax ymax). assert (U2 := Rmax_r xmax ymax).
  split; [apply map_length |]. intros i z m v e. assert (hin := nth_error_In _ _ e).
  assert (iz : In z zs) by (apply in_map_iff; exists (z, m, v); auto). assert (im : In m (ms ++ ends)) by (apply in_or_app; left; apply in_map_iff; exists (z, m, v); auto).
  specialize (hz z iz). assert (hm' := hm m im). split; [lra |]. split; [lra |]. exists (bar m v).
  split; [rewrite nth_error_map, e; reflexivity |]. split.
  - unfold bar. destruct (Rle_dec 0 v); split; try discriminate; try lra; reflexivity.
  - intros lo hi eb. assert (il : In lo (ms ++ ends) /\ In hi (ms ++ ends)).
    { split; apply in_or_app; right; apply in_flat_map; exists (z, m, v); (split; [exact hin |]); cbn [fst snd]; rewrite eb; simpl; auto. }
    destruct il as [il ih]. apply hm in il, ih. split; [lra |]. split; [lra |].
    unfold bar in eb. destruct (Rle_dec 0 v); [| discriminate]. injection eb as <- <-. split; [lra |]. unfold Rabs. destruct (Rcase_abs (z - m)); split; intros; lra.
Qed.
Print Assumptions C142_nuts.
Print Assumptions C142_curves.
Print Assumptions C142_average.
Print Assumptions C142_loo.

(** the default window with 50 warm-up iterations: no figures and no samples *)
Example C142_case : let i := Info (repeat 1 50) (PerChain (repeat [1; 0] 50)) (PerIter (repeat 0 50)) (PerIter [1]) (PerIter [0]) in
  long_enough i 50 /\ plot_nuts_diagnostics gnp_convolve i 50 true = (None, ["warmup_step_size.png"]%string) /\
  finish gnp_convolve [3] i true 50 false = None /\ ~ long_enough i 51 /\ finish gnp_convolve [3] i true 51 false = Some ([3], i) /\
  covers (fun l => (fold_right Rmin 0 l, fold_right Rmax 0 l)).
Proof.
  intro i. assert (L : long_enough i 50) by (split; [lia | left; simpl; lia]). assert (N : ~ long_enough i 51) by (intros [_ [h | h]]; simpl in h; lia).
  split; [exact L |]. split; [rewrite plot_cases; reflexivity |]. destruct (C142_nuts i 50 false) as (_ & _ & _ & _ & F). split; [now apply F |].
  split; [exact N |]. destruct (C142_nuts i 51 false) as (_ & _ & _ & _ & G). split; [now apply G |].
  intros l v h. induction l as [| a l ih]; [destruct h |]. simpl in *. assert (p := Rmin_l a (fold_right Rmin 0 l)). assert (q := Rmin_r a (fold_right Rmin 0 l)).
  assert (r := Rmax_l a (fold_right Rmax 0 l)). assert (t := Rmax_r a (fold_right Rmax 0 l)). destruct h as [<- | h]; [split; assumption |]. apply ih in h. lra.
Qed.
Example C142_case_curves : exists fs, fst (plot_nuts_diagnostics gnp_convolve (Info [1; 2] (PerChain [[1; 0]; [1; 1]]) (PerIter [0; 0]) (PerIter [1]) (PerIter [0])) 3 true) = Some fs /\
  map main fs = [[1; 2]; [1 / 2; 1]; [0; 0]; [1]; [0]].
Proof. eexists. split; [reflexivity |]. simpl. unfold mean_l, sum_list. simpl. repeat f_equal; lra. Qed.
