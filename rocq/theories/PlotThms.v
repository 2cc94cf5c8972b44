(** C117: the figures of gpmp.plot show what their labels and axes say, and where they do not. *)
From Coq Require Import Reals List Bool Arith ZArith String Lra Lia Permutation Sorted.
From Verif Require Import ConfigModel FlModel DesignModel DesignProofs QuantModel QuantProofs DiagProofs PlotModel PlotProofs.
Import ListNotations.
Local Open Scope R_scope.

(** the ordinates of the polygon of the pointwise interval mean -+ delta sqrt(variance) *)
Definition interval_polygon (delta : R) (mean variance : list R) : list R :=
  map (fun mv => fst mv + delta * sqrt (snd mv)) (combine mean variance) ++
  rev (map (fun mv => fst mv - delta * sqrt (snd mv)) (combine mean variance)).

(** The default scheme: one polygon per level, the widest (last) level first; the band of level j carries label
    j + (number of labels - number of levels). *)
Theorem C117_default_bands : forall ppf x mean variance rgb mean_label show_mean ci labels,
  (List.length ci <= 3)%nat -> (List.length ci <= List.length labels)%nat ->
  let r := plotgp ppf x mean variance "default" rgb mean_label show_mean ci labels true in
  snd r = None /\ List.length (fst r) = S (List.length ci) /\
  (exists color, nth_error (fst r) 0 = Some (Line x mean color (if show_mean then mean_label else ""))) /\
  forall j, (j < List.length ci)%nat -> exists color,
    nth_error (fst r) (List.length ci - j) =
    Some (Fill (x ++ rev x) (interval_polygon (ppf ((1 + nth j ci 0) / 2)) mean variance) color
            (nth (j + (List.length labels - List.length ci)) labels ""%string)).
Proof.
  intros ppf x mean variance rgb ml sm ci labels h1 h2 r.
  set (deltas := map (fun level => ppf ((1 + level) / 2)) ci). assert (hl : List.length deltas = List.length ci) by apply map_length.
  set (fill := ["#F2F2F2"; "#D8D8D8"; "#BFBFBF"]%string).
  set (b := bands x mean variance None fill (rev labels) (rev deltas)).
  assert (er : r = (Line x mean "#F2404C" (if sm then ml else ""%string) :: fst b, snd b)) by reflexivity. clearbody r. subst r. cbn [fst snd].
  assert (g1 : (List.length (rev deltas) <= List.length fill)%nat) by (rewrite rev_length, hl; exact h1).
  assert (g2 : (List.length (rev deltas) <= List.length (rev labels))%nat) by (rewrite !rev_length, hl; exact h2).
  split; [apply bands_ok; assumption |]. split; [| split].
  - cbn [List.length]. f_equal. unfold b. rewrite bands_length, !rev_length, hl. cbn [fill List.length]. lia.
  - eexists. reflexivity.
  - intros j hj. exists (nth (List.length ci - S j) fill ""%string). replace (List.length ci - j)%nat with (S (List.length ci - S j)) by lia. cbn [nth_error].
    unfold b. rewrite bands_nth; [| assumption | assumption | rewrite rev_length, hl; lia].
    rewrite (rev_nth_str labels) by lia. rewrite (rev_nth deltas) by (rewrite hl; lia). rewrite hl.
    replace (List.length ci - S (List.length ci - S j))%nat with j by lia.
    replace (List.length labels - S (List.length ci - S j))%nat with (j + (List.length labels - List.length ci))%nat by lia.
    assert (ed : nth j deltas 0 = ppf ((1 + nth j ci 0) / 2)).
    { unfold deltas. rewrite (nth_indep _ 0 (ppf ((1 + 0) / 2))) by (rewrite map_length; exact hj). now rewrite (map_nth (fun level => ppf ((1 + level) / 2))). }
    rewrite ed. reflexivity.
Qed.

(** so, with distinct labels, every band has its own label exactly when there are as many labels as levels *)
Theorem C117_own_labels : forall ppf x mean variance rgb mean_label show_mean ci labels,
  (0 < List.length ci <= 3)%nat -> (List.length ci <= List.length labels)%nat -> NoDup labels ->
  let r := plotgp ppf x mean variance "default" rgb mean_label show_mean ci labels true in
  (forall j, (j < List.length ci)%nat -> exists xs ys color, nth_error (fst r) (List.length ci - j) = Some (Fill xs ys color (nth j labels ""%string)))
  <-> List.length labels = List.length ci.
Proof.
  intros ppf x mean variance rgb ml sm ci labels h1 h2 hn r.
  destruct (C117_default_bands ppf x mean variance rgb ml sm ci labels (proj2 h1) h2) as [_ [_ [_ H]]]. fold r in H. split.
  - intro hall. destruct (hall 0%nat ltac:(lia)) as [xs [ys [c e]]]. destruct (H 0%nat ltac:(lia)) as [c' e'].
    assert (e2 : nth 0 labels ""%string = nth (0 + (List.length labels - List.length ci)) labels ""%string) by congruence.
    assert (i0 := proj1 (NoDup_nth labels ""%string) hn 0%nat (0 + (List.length labels - List.length ci))%nat ltac:(lia) ltac:(lia) e2). lia.
  - intros e j hj. destruct (H j hj) as [c e']. rewrite e, Nat.sub_diag, Nat.add_0_r in e'. eauto.
Qed.

(** the wrong label: one level of 95 percent with the default labels *)
Theorem C117_label_refuted : forall ppf x mean variance,
  exists color, nth_error (fst (plotgp ppf x mean variance "default" None "m" true [95 / 100] default_labels true)) 1 =
    Some (Fill (x ++ rev x) (interval_polygon (ppf ((1 + 95 / 100) / 2)) mean variance) color "CI 99.9%").
Proof.
  intros. destruct (C117_default_bands ppf x mean variance None "m"%string true [95 / 100] default_labels) as [_ [_ [_ H]]]; [cbn; lia | cbn; lia |].
  exact (H 0%nat ltac:(cbn; lia)).
Qed.

(** more than three levels, or fewer labels than levels: IndexError, after the bands that have a colour and a label *)
Theorem C117_too_many_levels : forall ppf x mean variance rgb mean_label show_mean ci labels,
  (3 < List.length ci)%nat \/ (List.length labels < List.length ci)%nat ->
  let r := plotgp ppf x mean variance "default" rgb mean_label show_mean ci labels true in
  snd r = Some IndexErr /\ List.length (fst r) = S (Nat.min 3 (List.length labels)).
Proof.
  intros ppf x mean variance rgb ml sm ci labels h r.
  set (deltas := map (fun level => ppf ((1 + level) / 2)) ci). assert (hl : List.length deltas = List.length ci) by apply map_length.
  set (fill := ["#F2F2F2"; "#D8D8D8"; "#BFBFBF"]%string).
  set (b := bands x mean variance None fill (rev labels) (rev deltas)).
  assert (er : r = (Line x mean "#F2404C" (if sm then ml else ""%string) :: fst b, snd b)) by reflexivity. clearbody r. subst r. cbn [fst snd List.length]. split.
  - apply bands_err. rewrite !rev_length, hl. exact h.
  - f_equal. unfold b. rewrite bands_length, !rev_length, hl. cbn [fill List.length]. lia.
Qed.

(** the other schemes draw one band, of the first level, with the first label *)
Theorem C117_single_band : forall ppf x mean variance scheme rgb mean_label show_mean level levels label labels,
  (scheme = "hue" /\ rgb <> None \/ scheme = "bw" \/ scheme = "simple")%string ->
  let r := plotgp ppf x mean variance scheme rgb mean_label show_mean (level :: levels) (label :: labels) true in
  snd r = None /\ (exists color, nth_error (fst r) 0 = Some (Line x mean color (if show_mean then mean_label else ""))) /\
  (exists color, nth_error (fst r) 1 = Some (Fill (x ++ rev x) (interval_polygon (ppf ((1 + level) / 2)) mean variance) color label)) /\
  forall i xs ys color l, nth_error (fst r) i = Some (Fill xs ys color l) -> i = 1%nat.
Proof.
  intros ppf x mean variance scheme rgb ml sm level levels label labels h.
  destruct h as [[-> h] | [-> | ->]]; [destruct rgb as [c |]; [| congruence] | |]; cbv zeta;
    (split; [reflexivity |]; split; [eexists; reflexivity |]; split; [eexists; reflexivity |]);
    intros [| [| [| [| i]]]] xs ys color l e; try reflexivity; cbn in e; try discriminate; destruct i; discriminate.
Qed.

(** no labels on request; an unknown scheme, or "hue" without a colour, raises before anything is drawn *)
Theorem C117_no_labels : forall ppf x mean variance scheme rgb mean_label ci labels i,
  let r := plotgp ppf x mean variance scheme rgb mean_label false ci labels false in
  (forall xs ys color l, nth_error (fst r) i = Some (Line xs ys color l) -> l = ""%string) /\
  (forall xs ys color l, nth_error (fst r) i = Some (Fill xs ys color l) -> l = ""%string).
Proof.
  intros ppf x mean variance scheme rgb ml ci labels i r.
  assert (B : forall edges deltas fill lab, Forall (eq ""%string) lab -> forall a, In a (fst (bands x mean variance edges fill lab deltas)) ->
    match a with Line _ _ _ l | Fill _ _ _ l => l = ""%string | _ => True end).
  { intro edges. induction deltas as [| d ds IH]; intros [| c fs] [| l ls] hF a ha; cbn in ha; try tauto. inversion hF; subst.
    destruct ha as [<- | ha]; [reflexivity |]. apply in_app_or in ha as [ha | ha]; [| eapply IH; eassumption].
    destruct edges; cbn in ha; [destruct ha as [<- | [<- | []]]; exact I | tauto]. }
  assert (R : forall a, In a (fst r) -> match a with Line _ _ _ l | Fill _ _ _ l => l = ""%string | _ => True end).
  { intros a ha. unfold r, plotgp in ha. cbv zeta in ha. destruct (style_of _ _ _ _) as [s |] eqn:E; [| destruct ha].
    destruct ha as [<- | ha]; [reflexivity |]. refine (B _ _ _ _ _ a ha).
    unfold style_of in E. unfold first_only in E. cbn [repeat] in E.
    repeat match type of E with context [if ?c then _ else _] => destruct c end; try destruct rgb; try discriminate;
      try (destruct ci; cbn in E; [discriminate |]); injection E as <-; repeat constructor. }
  split; intros xs ys color l e; exact (R _ (nth_error_In _ _ e)).
Qed.
Theorem C117_scheme_errors : forall ppf x mean variance scheme rgb mean_label show_mean ci labels show_ci,
  (~ In scheme ["hue"; "bw"; "simple"; "default"]%string ->
   plotgp ppf x mean variance scheme rgb mean_label show_mean ci labels show_ci = ([], Some UnboundErr)) /\
  plotgp ppf x mean variance "hue" None mean_label show_mean ci labels show_ci = ([], Some TypeErr) /\
  (In scheme ["bw"; "simple"]%string -> plotgp ppf x mean variance scheme rgb mean_label show_mean [] labels show_ci = ([], Some IndexErr)).
Proof.
  intros ppf x mean variance scheme rgb ml sm ci labels sc. split; [| split].
  - intro h. unfold plotgp, style_of. cbv zeta.
    repeat match goal with |- context [String.eqb scheme ?s] => destruct (String.eqb_spec scheme s); [exfalso; apply h; subst; cbn; tauto |] end. reflexivity.
  - reflexivity.
  - intros [<- | [<- | []]]; reflexivity.
Qed.

(** the polygon: the abscissae go forth and back, the ordinates are the upper and lower ends of the interval *)
Theorem C117_polygon : forall delta x mean variance p,
  List.length mean = List.length x -> List.length variance = List.length x -> (p < List.length x)%nat ->
  let n := List.length x in
  nth p (x ++ rev x) 0 = nth p x 0 /\ nth (2 * n - 1 - p) (x ++ rev x) 0 = nth p x 0 /\
  nth p (interval_polygon delta mean variance) 0 = nth p mean 0 + delta * sqrt (nth p variance 0) /\
  nth (2 * n - 1 - p) (interval_polygon delta mean variance) 0 = nth p mean 0 - delta * sqrt (nth p variance 0).
Proof.
  intros delta x mean variance p h1 h2 h3 n.
  assert (U := upper_length mean variance delta). assert (L := lower_length mean variance delta). rewrite h1, h2, Nat.min_id in U, L.
  change (interval_polygon delta mean variance) with (upper mean variance delta ++ rev (lower mean variance delta)).
  unfold n. split; [| split; [| split]].
  - now rewrite app_nth1.
  - rewrite app_nth2 by lia. rewrite rev_nth by lia. f_equal. lia.
  - rewrite app_nth1 by lia. unfold upper. rewrite zip_with_nth by lia. reflexivity.
  - rewrite app_nth2 by lia. rewrite rev_nth by lia. rewrite L, U.
    replace (List.length x - S (2 * List.length x - 1 - p - List.length x))%nat with p by lia. unfold lower. rewrite zip_with_nth by lia. reflexivity.
Qed.

(** a normal variable of the given mean and variance falls in the interval of its level with that probability: [cdf] is the
    standard normal distribution function, [ppf] its inverse *)
Theorem C117_coverage : forall (cdf ppf : R -> R) level m v,
  (forall a, cdf (- a) = 1 - cdf a) -> (forall p, 0 < p < 1 -> cdf (ppf p) = p) -> 0 <= level < 1 -> 0 < v ->
  let delta := ppf ((1 + level) / 2) in
  cdf (((m + delta * sqrt v) - m) / sqrt v) - cdf (((m - delta * sqrt v) - m) / sqrt v) = level.
Proof.
  intros cdf ppf level m v hs hi hl hv delta. assert (0 < sqrt v) by now apply sqrt_lt_R0.
  replace ((m + delta * sqrt v - m) / sqrt v) with delta by (field; lra).
  replace ((m - delta * sqrt v - m) / sqrt v) with (- delta) by (field; lra).
  rewrite hs. unfold delta. rewrite hi by lra. lra.
Qed.

(** levels in increasing order: each band is drawn after, and inside, the wider one *)
Theorem C117_nested : forall ppf x mean variance rgb mean_label show_mean ci labels i i' p xs ys c l xs' ys' c' l',
  (forall a b, 0 < a <= b -> b < 1 -> ppf a <= ppf b) ->
  (List.length ci <= 3)%nat -> (List.length ci <= List.length labels)%nat ->
  (forall a, In a ci -> 0 <= a < 1) -> StronglySorted Rle ci ->
  List.length mean = List.length x -> List.length variance = List.length x -> (p < List.length x)%nat ->
  let n := List.length x in
  let r := plotgp ppf x mean variance "default" rgb mean_label show_mean ci labels true in
  (i < i')%nat -> nth_error (fst r) i = Some (Fill xs ys c l) -> nth_error (fst r) i' = Some (Fill xs' ys' c' l') ->
  nth p ys' 0 <= nth p ys 0 /\ nth (2 * n - 1 - p) ys 0 <= nth (2 * n - 1 - p) ys' 0.
Proof.
  intros ppf x mean variance rgb ml sm ci labels i i' p xs ys c l xs' ys' c' l' hm h1 h2 h01 hs hlm hlv hp n r hii e e'.
  destruct (C117_default_bands ppf x mean variance rgb ml sm ci labels h1 h2) as [_ [hlen [[c0 h0] H]]]. fold r in hlen, h0, H.
  assert (li : (i < List.length (fst r))%nat) by (apply nth_error_Some; congruence).
  assert (li' : (i' < List.length (fst r))%nat) by (apply nth_error_Some; congruence).
  destruct i as [| i]; [congruence |].
  destruct (H (List.length ci - S i)%nat ltac:(lia)) as [k1 e1]. destruct (H (List.length ci - i')%nat ltac:(lia)) as [k2 e2].
  replace (List.length ci - (List.length ci - S i))%nat with (S i) in e1 by lia.
  replace (List.length ci - (List.length ci - i'))%nat with i' in e2 by lia.
  rewrite e in e1. rewrite e' in e2. injection e1 as -> -> _ _. injection e2 as -> -> _ _.
  set (j := (List.length ci - S i)%nat) in *. set (j' := (List.length ci - i')%nat) in *.
  assert (hj : (j' <= j < List.length ci)%nat) by lia.
  assert (hle : nth j' ci 0 <= nth j ci 0) by (apply sorted_nth; [exact hs | exact hj]).
  assert (a1 := h01 _ (nth_In ci 0 (proj2 hj))). assert (a2 := h01 _ (nth_In ci 0 (Nat.le_lt_trans _ _ _ (proj1 hj) (proj2 hj)))).
  assert (hd : ppf ((1 + nth j' ci 0) / 2) <= ppf ((1 + nth j ci 0) / 2)) by (apply hm; lra).
  destruct (C117_polygon (ppf ((1 + nth j ci 0) / 2)) x mean variance p hlm hlv hp) as [_ [_ [u1 l1]]].
  destruct (C117_polygon (ppf ((1 + nth j' ci 0) / 2)) x mean variance p hlm hlv hp) as [_ [_ [u2 l2]]].
  fold n in u1, l1, u2, l2. rewrite u1, l1, u2, l2. assert (0 <= sqrt (nth p variance 0)) by apply sqrt_pos. split; nra.
Qed.

(** the colour of "hue": for components up to 255 a code of seven characters, different for different colours *)
Lemma hex2_small n : (n < 256)%nat -> hex2 n = String.append (hex_digit (n / 16)) (hex_digit (n mod 16)).
Proof.
  intro h. assert (H : forall k, (k < 256)%nat -> String.eqb (hex2 k) (String.append (hex_digit (k / 16)) (hex_digit (k mod 16))) = true).
  { assert (T : forallb (fun k => String.eqb (hex2 k) (String.append (hex_digit (k / 16)) (hex_digit (k mod 16)))) (seq 0 256) = true) by (vm_compute; reflexivity).
    rewrite forallb_forall in T. intros k hk. apply T. apply in_seq. lia. }
  now apply String.eqb_eq, H.
Qed.
Lemma hex_digit_char k : (k < 16)%nat -> exists c, hex_digit k = String c EmptyString /\ forall k', (k' < 16)%nat -> hex_digit k' = String c EmptyString -> k' = k.
Proof.
  intro h. do 16 (destruct k as [| k]; [eexists; split; [reflexivity |]; intros k' hk'; do 16 (destruct k' as [| k']; [try reflexivity; discriminate |]); lia |]). lia.
Qed.
Theorem C117_hue_colour : forall r g b r' g' b',
  (r < 256)%nat -> (g < 256)%nat -> (b < 256)%nat -> (r' < 256)%nat -> (g' < 256)%nat -> (b' < 256)%nat ->
  String.length (hex_code [r; g; b]) = 7%nat /\ (hex_code [r; g; b] = hex_code [r'; g'; b'] -> (r, g, b) = (r', g', b')).
Proof.
  assert (K : forall n, (n < 256)%nat -> exists a c, hex2 n = String a (String c EmptyString) /\ forall n', (n' < 256)%nat -> hex2 n' = String a (String c EmptyString) -> n' = n).
  { intros n h. assert (h1 : (n / 16 < 16)%nat) by (apply Nat.div_lt_upper_bound; lia). assert (h2 : (n mod 16 < 16)%nat) by (apply Nat.mod_upper_bound; lia).
    destruct (hex_digit_char _ h1) as [a [ea ua]]. destruct (hex_digit_char _ h2) as [c [ec uc]]. exists a, c. split.
    - rewrite hex2_small by exact h. rewrite ea, ec. reflexivity.
    - intros n' h'. rewrite hex2_small by exact h'. assert (h1' : (n' / 16 < 16)%nat) by (apply Nat.div_lt_upper_bound; lia). assert (h2' : (n' mod 16 < 16)%nat) by (apply Nat.mod_upper_bound; lia).
      destruct (hex_digit_char _ h1') as [a' [ea' _]]. destruct (hex_digit_char _ h2') as [c' [ec' _]]. rewrite ea', ec'. cbn. intro e. injection e as -> ->.
      assert (q1 := ua _ h1' ea'). assert (q2 := uc _ h2' ec').
      rewrite (Nat.div_mod n' 16), (Nat.div_mod n 16) by lia. now rewrite q1, q2. }
  intros r g b r' g' b' h1 h2 h3 h4 h5 h6. unfold hex_code. cbn [map String.concat].
  destruct (K r h1) as [a1 [c1 [e1 u1]]]. destruct (K g h2) as [a2 [c2 [e2 u2]]]. destruct (K b h3) as [a3 [c3 [e3 u3]]].
  destruct (K r' h4) as [a4 [c4 [e4 _]]]. destruct (K g' h5) as [a5 [c5 [e5 _]]]. destruct (K b' h6) as [a6 [c6 [e6 _]]].
  rewrite e1, e2, e3, e4, e5, e6. split; [reflexivity |]. cbn. intro e. injection e as -> -> -> -> -> ->.
  rewrite <- (u1 r' h4 e4), <- (u2 g' h5 e5), <- (u3 b' h6 e6). reflexivity.
Qed.

(** ** cross sections *)
(** [m] equally spaced values from a to b; the value a alone if m = 1 *)
Definition equispaced (a b : R) (m : nat) : list R := map (fun q => a + INR q * ((b - a) / INR (m - 1))) (seq 0 m).
Lemma linspace_equi a b m : linspace a b m = equispaced a b m.
Proof. destruct m as [| [| m]]; [reflexivity | cbn; f_equal; lra | reflexivity]. Qed.

Section Sections.
Variable ppf : R -> R.
Variable predict : list (list R) -> list R * list R.
Variable is_int : bool.
Variable xi : list (list R).
Variable zi : list fl.
Variables lo hi : list R.
Variable nt : nat.
Variable show_data : bool.
Variable d : nat.
Hypothesis hlo : List.length lo = d.
Hypothesis hhi : List.length hi = d.
Hypothesis hz : List.length zi = List.length xi.
Hypothesis hx : forall r, In r xi -> List.length r = d.
Local Notation sections := (crosssections ppf predict is_int xi zi lo hi nt show_data d).

(** the panel of anchor observation [row], value [z], and dimension j *)
Definition panel_shows (row : list R) (z : fl) (j : nat) (D : list draw) : Prop :=
  exists t xt,
    StronglySorted Rle t /\ Permutation t (nth j row 0 :: equispaced (nth j lo 0) (nth j hi 0) (nt - 1)) /\
    List.length xt = List.length t /\
    (forall q, (q < List.length t)%nat ->
       List.length (nth q xt []) = d /\
       nth j (nth q xt []) 0 = (if is_int then trunc (nth q t 0) else nth q t 0) /\
       forall j', j' <> j -> nth j' (nth q xt []) 0 = nth j' row 0) /\
    (exists c l, nth_error D 0 = Some (Line t (fst (predict xt)) c l)) /\
    (forall level, In level [95 / 100; 99 / 100; 999 / 1000] -> exists c l,
       In (Fill (t ++ rev t) (interval_polygon (ppf ((1 + level) / 2)) (fst (predict xt)) (map (fun v => Rmax v 0) (snd (predict xt)))) c l) D) /\
    In (VLine (nth j row 0)) D /\
    (show_data = true -> (exists l, In (Dots [nth j row 0] [z] l) D) /\ exists l, In (Dots (map (fun r => nth j r 0) xi) zi l) D).

Lemma panel_spec first k j : (2 <= nt)%nat -> (k < List.length xi)%nat -> (j < d)%nat ->
  panel_shows (nth k xi []) (nth k zi NaN) j (fst (panel ppf predict is_int xi zi lo hi nt show_data first k j)).
Proof.
  intros h2 hk hj. set (row := nth k xi []). assert (hr : List.length row = d) by (apply hx, nth_In, hk).
  set (t := sweep (nth j lo 0) (nth j hi 0) (nth j row 0) nt). exists t, (section_points is_int row j t).
  split; [apply sort_sorted |]. split; [| split; [| split; [| split; [| split; [| split]]]]].
  - unfold t, sweep. rewrite <- sort_perm, linspace_equi. symmetry. apply Permutation_cons_append.
  - apply map_length.
  - intros q hq. unfold section_points. rewrite (nth_indep _ [] (set_nth j (if is_int then trunc 0 else 0) row)) by (rewrite map_length; exact hq).
    rewrite (map_nth (fun a => set_nth j (if is_int then trunc a else a) row)). split; [now rewrite set_nth_length |]. split.
    + apply set_nth_same. lia.
    + intros j' hj'. now apply set_nth_other.
  - destruct first; eexists; eexists; reflexivity.
  - intros level hl. set (f := fun lab => nth 0 (filter (fun s => String.eqb s lab) default_labels) ""%string).
    assert (P : exists c l, In (Fill (t ++ rev t) (interval_polygon (ppf ((1 + level) / 2)) (fst (predict (section_points is_int row j t))) (map (fun v => Rmax v 0) (snd (predict (section_points is_int row j t))))) c l)
      (fst (plotgp ppf t (fst (predict (section_points is_int row j t))) (map (fun v => Rmax v 0) (snd (predict (section_points is_int row j t)))) "default" None "posterior mean" first default_ci default_labels first))).
    { destruct first; (destruct hl as [<- | [<- | [<- | []]]]; eexists; eexists; [do 3 right; left; reflexivity | do 2 right; left; reflexivity | right; left; reflexivity]). }
    destruct P as [c [l P]]. exists c, l. unfold panel. cbv zeta. fold row. fold t. destruct first; cbn [snd plotgp style_of]; (apply in_or_app; left; exact P).
  - unfold panel. cbv zeta. destruct first; (apply in_or_app; right; apply in_or_app; right; left; reflexivity).
  - intro hs. unfold panel. cbv zeta. rewrite hs. split; destruct first; eexists; (apply in_or_app; right; apply in_or_app; left; first [left; reflexivity | right; left; reflexivity]).
Qed.

(** Valid calls succeed; every panel of the grid is drawn exactly once and the panel of anchor i and dimension d' shows the
    prediction with dimension d' swept over the box (and the anchor) and every other coordinate that of the anchor. *)
Theorem C117_sections : forall ks dims, (2 <= nt)%nat -> ks <> [] -> dims <> [] ->
  (forall k, In k ks -> (0 <= k < Z.of_nat (List.length xi))%Z) -> (forall j, In j dims -> (0 <= j < Z.of_nat d)%Z) ->
  let r := sections (AInts ks) (Some dims) in
  snd r = None /\ Permutation (map fst (fst r)) (seq 1 (List.length dims * List.length ks)) /\
  forall i e k j, nth_error ks i = Some (Z.of_nat k) -> nth_error dims e = Some (Z.of_nat j) ->
    exists D, In ((List.length ks * e + i + 1)%nat, D) (fst r) /\ panel_shows (nth k xi []) (nth k zi NaN) j D.
Proof.
  intros ks dims h2 hk0 hd0 hk hd r.
  assert (Fk : Forall (fun k => in_bounds k (List.length xi) = true) ks) by (apply Forall_forall; intros; now apply in_bounds_iff, hk).
  assert (Fd : Forall (fun j => in_bounds j d = true) dims) by (apply Forall_forall; intros; now apply in_bounds_iff, hd).
  assert (er : r = anchor_loop ppf predict is_int xi zi lo hi nt show_data d (List.length ks) 0 dims ks).
  { unfold r, crosssections. rewrite hlo, hhi, hz, !Nat.eqb_refl. cbn [negb andb anchor_indices].
    destruct (Nat.ltb_spec nt 2) as [h |]; [lia |]. destruct ks; [congruence |]. destruct dims; [congruence | reflexivity]. }
  rewrite er, (anchor_loop_ok ppf predict is_int xi zi lo hi nt show_data d _ dims Fd ks 0 Fk). cbn [fst snd]. split; [reflexivity |]. split; [now apply numbers_perm |].
  intros i e k j ei ee. eexists. split.
  - exact (column_in ppf predict is_int xi zi lo hi nt show_data (List.length ks) dims ks i e _ _ ei ee).
  - cbn [snd]. rewrite !Nat2Z.id. apply panel_spec; [exact h2 | |].
    + assert (h := hk _ (nth_error_In _ _ ei)). lia.
    + assert (h := hd _ (nth_error_In _ _ ee)). lia.
Qed.

(** An anchor or a dimension out of bounds (a negative index is): IndexError, with the panels before it already drawn. *)
Theorem C117_bad_index : forall ks dims, (2 <= nt)%nat -> ks <> [] -> dims <> [] ->
  snd (sections (AInts ks) (Some dims)) = None \/
  snd (sections (AInts ks) (Some dims)) = Some IndexErr /\
    ((exists k, In k ks /\ ~ (0 <= k < Z.of_nat (List.length xi))%Z) \/ exists j, In j dims /\ ~ (0 <= j < Z.of_nat d)%Z).
Proof.
  intros ks dims h2 hk0 hd0.
  assert (er : sections (AInts ks) (Some dims) = anchor_loop ppf predict is_int xi zi lo hi nt show_data d (List.length ks) 0 dims ks).
  { unfold crosssections. rewrite hlo, hhi, hz, !Nat.eqb_refl. cbn [negb andb anchor_indices].
    destruct (Nat.ltb_spec nt 2) as [h |]; [lia |]. destruct ks; [congruence |]. destruct dims; [congruence | reflexivity]. }
  rewrite er. clear er hk0 hd0. generalize (List.length ks). intro na. generalize 0%nat.
  assert (DL : forall i k ds e, snd (dim_loop ppf predict is_int xi zi lo hi nt show_data d na i k e ds) = None \/
    snd (dim_loop ppf predict is_int xi zi lo hi nt show_data d na i k e ds) = Some IndexErr /\ exists j, In j ds /\ ~ (0 <= j < Z.of_nat d)%Z).
  { intros i k. induction ds as [| j ds IH]; intro e; cbn [dim_loop]; [left; reflexivity |]. destruct (in_bounds j d) eqn:E.
    - rewrite panel_ok. cbn [snd]. destruct (IH (S e)) as [h | [h [j' [h1 h2']]]]; [left; exact h | right; split; [exact h | exists j'; split; [now right | exact h2']]].
    - right. split; [reflexivity |]. exists j. split; [now left |]. rewrite <- in_bounds_iff. congruence. }
  induction ks as [| k ks IH]; intro i; cbn [anchor_loop]; [left; reflexivity |]. destruct (in_bounds k (List.length xi)) eqn:E.
  - destruct (DL i (Z.to_nat k) dims 0%nat) as [h | [h hj]]; rewrite h.
    + cbn [snd]. destruct (IH (S i)) as [h' | [h' [[k' [h1 h3]] | hj]]]; [left; exact h' | right; split; [exact h' | left; exists k'; split; [now right | exact h3]] | right; split; [exact h' | right; exact hj]].
    + right. split; [exact h | right; exact hj].
  - right. split; [reflexivity |]. left. exists k. split; [now left |]. rewrite <- in_bounds_iff. congruence.
Qed.
Theorem C117_bad_index_raises : forall ks dims k, (2 <= nt)%nat -> dims <> [] -> In k ks -> ~ (0 <= k < Z.of_nat (List.length xi))%Z ->
  snd (sections (AInts ks) (Some dims)) = Some IndexErr.
Proof.
  intros ks dims k h2 hd hk hb. destruct (C117_bad_index ks dims h2) as [h | [h _]]; [intros ->; destruct hk | exact hd | | exact h]. exfalso.
  assert (er : sections (AInts ks) (Some dims) = anchor_loop ppf predict is_int xi zi lo hi nt show_data d (List.length ks) 0 dims ks).
  { unfold crosssections. rewrite hlo, hhi, hz, !Nat.eqb_refl. cbn [negb andb anchor_indices].
    destruct (Nat.ltb_spec nt 2) as [h' |]; [lia |]. destruct ks; [destruct hk |]. destruct dims; [congruence | reflexivity]. }
  rewrite er in h. clear er hd. revert h hk. generalize (List.length ks). intro na. generalize 0%nat.
  induction ks as [| a ks IH]; intros i h hk; [destruct hk |]. cbn [anchor_loop] in h. destruct (in_bounds a (List.length xi)) eqn:E; [| discriminate].
  destruct (snd (dim_loop _ _ _ _ _ _ _ _ _ _ _ _ _ _ _)) eqn:E2; [congruence |]. cbn [snd] in h. destruct hk as [-> | hk].
  - apply hb. now apply in_bounds_iff.
  - exact (IH (S i) h hk).
Qed.

(** what the sweep covers *)
Theorem C117_sweep_range : forall row z j D, (2 <= nt)%nat -> panel_shows row z j D -> exists t m c l,
  nth_error D 0 = Some (Line t m c l) /\ List.length t = nt /\ In (nth j row 0) t /\ In (nth j lo 0) t /\
  ((3 <= nt)%nat -> In (nth j hi 0) t) /\
  (nt = 2%nat -> nth j hi 0 <> nth j lo 0 -> nth j hi 0 <> nth j row 0 -> ~ In (nth j hi 0) t) /\
  (nth j lo 0 <= nth j row 0 <= nth j hi 0 -> forall a, In a t -> nth j lo 0 <= a <= nth j hi 0).
Proof.
  intros row z j D h2 [t [xt [hs [hP [_ [_ [[c [l e0]] _]]]]]]]. exists t, (fst (predict xt)), c, l. split; [exact e0 |].
  assert (I : forall a, In a t <-> a = nth j row 0 \/ In a (linspace (nth j lo 0) (nth j hi 0) (nt - 1))).
  { intro a. rewrite linspace_equi. split; intro h; [apply (Permutation_in _ hP) in h; destruct h as [<- | h]; auto | apply (Permutation_in _ (Permutation_sym hP)); destruct h as [-> | h]; [now left | now right]]. }
  split; [apply Permutation_length in hP; cbn in hP; unfold equispaced in hP; rewrite map_length, seq_length in hP; lia |].
  split; [apply I; now left |]. split; [| split; [| split]].
  - apply I. right. destruct (nt - 1)%nat as [| [| n]] eqn:E; [lia | now left |]. apply linspace_ends. lia.
  - intro h3. apply I. right. apply linspace_ends. lia.
  - intros -> n1 n2 hI. apply I in hI as [hI | hI]; [auto |]. cbn in hI. destruct hI as [hI | []]. auto.
  - intros hin a ha. apply I in ha as [-> | ha]; [exact hin |]. eapply linspace_in; [| exact ha]. lra.
Qed.

(** With floating point inputs every drawn point (t, m) is the prediction at the anchor with coordinate j replaced by t.  With
    integer inputs the prediction is made at the truncated coordinate, so the curve is right at t only if t is an integer. *)
Theorem C117_integer_inputs : forall a : R,
  (trunc a = a <-> exists z, a = IZR z) /\ (exists z, trunc a = IZR z) /\ Rabs (trunc a) <= Rabs a /\ Rabs (a - trunc a) < 1.
Proof.
  intro a. split; [split |].
  - intro e. destruct (trunc_is_int a) as [z ez]. exists z. congruence.
  - intros [z ->]. apply trunc_int.
  - split; [apply trunc_is_int | apply trunc_between].
Qed.

(** If the prediction at the anchor observation is its value, with a variance that is zero (or negative by rounding), then the
    mean and all the bands pass through the anchor point. *)
Theorem C117_through_anchor : forall row z j D m v,
  (2 <= nt)%nat -> List.length row = d -> (j < d)%nat -> (is_int = true -> exists k, nth j row 0 = IZR k) ->
  (forall xt, predict xt = (map m xt, map v xt)) -> m row = z -> v row <= 0 ->
  panel_shows row (Fin z) j D ->
  exists q t ys c l, (q < nt)%nat /\ nth_error D 0 = Some (Line t ys c l) /\ nth q t 0 = nth j row 0 /\ nth q ys 0 = z /\
    forall level, In level [95 / 100; 99 / 100; 999 / 1000] -> exists yb c' l',
      In (Fill (t ++ rev t) yb c' l') D /\ nth q yb 0 = z /\ nth (2 * nt - 1 - q) yb 0 = z.
Proof.
  intros row z j D m v h2 hr hj hint hp hm hv [t [xt [hs [hP [hlx [hrow [[c [l e0]] [hF _]]]]]]]].
  assert (hlt : List.length t = nt) by (apply Permutation_length in hP; cbn in hP; unfold equispaced in hP; rewrite map_length, seq_length in hP; lia).
  assert (hI : In (nth j row 0) t) by (apply (Permutation_in _ (Permutation_sym hP)); now left).
  destruct (In_nth _ _ 0 hI) as [q [hq eq]]. destruct (hrow q hq) as [r1 [r2 r3]]. rewrite eq in r2.
  assert (exq : nth q xt [] = row).
  { apply (nth_ext _ _ 0 0); [congruence |]. intros j' _. destruct (Nat.eq_dec j' j) as [-> | hne]; [| now apply r3].
    rewrite r2. destruct is_int; [| reflexivity]. destruct (hint eq_refl) as [k ek]. rewrite ek. apply trunc_int. }
  assert (mq : nth q (map m xt) 0 = z).
  { rewrite (nth_indep _ 0 (m [])) by (rewrite map_length; lia). rewrite map_nth, exq. exact hm. }
  rewrite hp in e0, hF. cbn [fst snd] in e0, hF.
  exists q, t, (map m xt), c, l. split; [lia |]. split; [exact e0 |]. split; [exact eq |]. split; [exact mq |].
  intros level hl. destruct (hF level hl) as [c' [l' hD]]. eexists; exists c', l'. split; [exact hD |].
  assert (vq : nth q (map (fun a => Rmax a 0) (map v xt)) 0 = 0).
  { rewrite map_map. rewrite (nth_indep _ 0 (Rmax (v []) 0)) by (rewrite map_length; lia). rewrite (map_nth (fun a => Rmax (v a) 0)), exq. apply Rmax_right. exact hv. }
  destruct (C117_polygon (ppf ((1 + level) / 2)) t (map m xt) (map (fun a => Rmax a 0) (map v xt)) q) as [_ [_ [p1 p2]]]; [rewrite map_length; lia | rewrite !map_length; lia | lia |].
  rewrite hlt in p2. rewrite p1, p2, mq, vq, sqrt_0. split; lra.
Qed.

(** The default anchor is the first observation with the smallest value; observations that are NaN are passed over. *)
Theorem C117_min_anchor : forall z, (forall a, In a z -> a <> PInf) ->
  (nanargmin z = None <-> forall a, In a z -> a = NaN) /\
  forall k, nanargmin z = Some k -> exists v, nth_error z k = Some v /\ v <> NaN /\
    forall k' a, nth_error z k' = Some a -> a <> NaN -> fl_ltb a v = false /\ ((k' < k)%nat -> fl_ltb v a = true).
Proof.
  intros z hpi. unfold nanargmin. set (g := fun a => match a with NaN => PInf | a => a end).
  destruct (forallb is_nan z) eqn:E.
  - split; [| discriminate]. split; [| reflexivity]. intros _ a ha. rewrite forallb_forall in E. specialize (E a ha). destruct a; try discriminate. reflexivity.
  - assert (hz0 : z <> []) by (intros ->; discriminate).
    assert (hne : exists a, In a z /\ a <> NaN).
    { clear hpi hz0. induction z as [| a l IH]; [discriminate |]. cbn in E. destruct (is_nan a) eqn:Ea.
      - destruct (IH E) as [b [hb nb]]. exists b. split; [now right | exact nb].
      - exists a. split; [now left |]. destruct a; cbn in Ea; congruence. }
    split.
    + split; [discriminate |]. intro h. exfalso. destruct hne as [a [ha na]]. exact (na (h a ha)).
    + intros k ek. injection ek as ek. destruct (argmin_spec (map g z)) as [w [hw hall]].
      * destruct z; [congruence | discriminate].
      * intros y hy. apply in_map_iff in hy as [a [<- _]]. destruct a; discriminate.
      * rewrite ek in hw, hall. rewrite nth_error_map in hw. destruct (nth_error z k) as [v |] eqn:Ev; [| discriminate]. cbn in hw. injection hw as hw.
        assert (hall' : forall k' a, nth_error z k' = Some a -> fl_ltb (g a) w = false /\ ((k' < k)%nat -> fl_ltb w (g a) = true)).
        { intros k' a ha. apply hall. rewrite nth_error_map, ha. reflexivity. }
        assert (hv : v <> NaN).
        { intro e. subst v. cbn in hw. subst w. destruct hne as [a [ha na]]. destruct (In_nth_error _ _ ha) as [k' hk']. destruct (hall' k' a hk') as [h _].
          specialize (hpi a ha). destruct a; cbn in h; congruence. }
        exists v. split; [reflexivity |]. split; [exact hv |]. intros k' a ha na.
        assert (ea : g a = a) by (destruct a; congruence || reflexivity). assert (ew : w = v) by (rewrite <- hw; destruct v; congruence || reflexivity).
        destruct (hall' k' a ha) as [h1 h2]. rewrite ea, ew in h1, h2. auto.
Qed.
(** with an infinite value the anchor can be an observation that is NaN *)
Theorem C117_min_anchor_nan_refuted : nanargmin [NaN; PInf] = Some 0%nat /\ nth_error [NaN; PInf] 0 = Some NaN.
Proof. split; reflexivity. Qed.

(** "max": the first observation with the largest value *)
Theorem C117_max_anchor : forall z, (forall a, In a z -> a <> NInf) ->
  (nanargmax z = None <-> forall a, In a z -> a = NaN) /\
  forall k, nanargmax z = Some k -> exists v, nth_error z k = Some v /\ v <> NaN /\
    forall k' a, nth_error z k' = Some a -> a <> NaN -> fl_ltb v a = false /\ ((k' < k)%nat -> fl_ltb a v = true).
Proof.
  intros z hni.
  assert (e : nanargmax z = nanargmin (map fl_opp z)).
  { unfold nanargmax, nanargmin. rewrite map_map. replace (forallb is_nan (map fl_opp z)) with (forallb is_nan z).
    - destruct (forallb is_nan z); [reflexivity |]. do 2 f_equal. apply map_ext. intros []; reflexivity.
    - clear. induction z as [| [] z IH]; cbn; auto. }
  assert (O : forall a b, fl_ltb (fl_opp a) (fl_opp b) = fl_ltb b a).
  { intros [x | | |] [y | | |]; cbn; auto. unfold rltb. destruct (Rlt_dec (- x) (- y)), (Rlt_dec y x); auto; lra. }
  destruct (C117_min_anchor (map fl_opp z)) as [h1 h2].
  { intros a ha. apply in_map_iff in ha as [b [<- hb]]. specialize (hni b hb). destruct b; cbn; congruence. }
  rewrite e. split.
  - rewrite h1. split; intros h a ha.
    + specialize (h (fl_opp a) (in_map _ _ _ ha)). destruct a; cbn in h; congruence.
    + apply in_map_iff in ha as [b [<- hb]]. now rewrite (h b hb).
  - intros k hk. destruct (h2 k hk) as [v [hv [nv hall]]]. rewrite nth_error_map in hv. destruct (nth_error z k) as [w |] eqn:Ew; [| discriminate]. cbn in hv. injection hv as <-.
    exists w. split; [reflexivity |]. split; [destruct w; cbn in nv; congruence |]. intros k' a ha na.
    destruct (hall k' (fl_opp a)) as [q1 q2]; [rewrite nth_error_map, ha; reflexivity | destruct a; cbn; congruence |]. rewrite O in q1, q2. auto.
Qed.
(** the default arguments: all dimensions, anchored at the minimum *)
Theorem C117_defaults : forall ind dims,
  sections ind None = sections ind (Some (map Z.of_nat (seq 0 d))) /\ sections ANone dims = sections AMin dims /\
  (forall k, nanargmin zi = Some k -> sections ANone dims = sections (AInts [Z.of_nat k]) dims) /\
  (forall k, nanargmax zi = Some k -> sections AMax dims = sections (AInts [Z.of_nat k]) dims).
Proof.
  intros ind dims. split; [reflexivity |]. split; [reflexivity |]. unfold crosssections, anchor_indices. split; intros k ->; reflexivity.
Qed.
(** the remaining rejections, before any figure exists *)
Theorem C117_rejected : forall lo' hi' z' n' ind dims,
  let s := crosssections ppf predict is_int xi z' lo' hi' n' show_data d in
  (List.length lo' <> d \/ List.length hi' <> d \/ List.length z' <> List.length xi \/ (n' < 2)%nat \/ ind = AStr -> s ind dims = ([], Some ValueErr)) /\
  (List.length lo' = d -> List.length hi' = d -> List.length z' = List.length xi -> (2 <= n')%nat ->
   (s (AInts []) dims = ([], Some FigErr)) /\ ((forall a, In a z' -> a = NaN) -> s ANone dims = ([], Some ValueErr))).
Proof.
  intros lo' hi' z' n' ind dims s. unfold s, crosssections. split.
  - intro h. destruct (Nat.eqb_spec (List.length lo') d); [| reflexivity]. destruct (Nat.eqb_spec (List.length hi') d); [| reflexivity].
    destruct (Nat.eqb_spec (List.length z') (List.length xi)); [| reflexivity]. destruct (Nat.ltb_spec n' 2); [reflexivity |].
    destruct h as [h | [h | [h | [h | ->]]]]; try lia; try congruence. reflexivity.
  - intros -> -> -> h. rewrite !Nat.eqb_refl. cbn [negb andb]. destruct (Nat.ltb_spec n' 2); [lia |]. split; [reflexivity |].
    intro hn. cbn [anchor_indices]. unfold nanargmin. replace (forallb is_nan z') with true; [reflexivity |].
    symmetry. apply forallb_forall. intros a ha. now rewrite (hn a ha).
Qed.
End Sections.

(** two observations in dimension 2, anchored at the smallest, three points per section *)
Example C117_case :
  let xi := [[1; 2]; [3; 5]] in let zi := [Fin 4; Fin (-1)] in
  let predict := fun xt : list (list R) => (map (fun r => nth 0 r 0 + nth 1 r 0) xt, map (fun _ => 1) xt) in
  let r := crosssections (fun p => p) predict false xi zi [0; 0] [10; 10] 3 true 2 AMin None in
  snd r = None /\ map fst (fst r) = [1; 2]%nat /\
  exists D, nth_error (fst r) 1 = Some (2%nat, D) /\ exists c l, nth_error D 0 = Some (Line [0; 5; 10] [3; 8; 13] c l).
Proof.
  assert (em : anchor_indices [Fin 4; Fin (-1)] AMin = inl [1%Z]).
  { unfold anchor_indices, nanargmin. cbn [forallb is_nan andb map argmin argmin_from fl_ltb]. unfold rltb. destruct (Rlt_dec (-1) 4); [reflexivity | lra]. }
  unfold crosssections. cbn [List.length Nat.eqb andb negb Nat.ltb Nat.leb]. rewrite em. cbn [seq map].
  rewrite (anchor_loop_ok _ _ _ _ _ _ _ _ _ 2 1 [Z.of_nat 0; Z.of_nat 1]); [| repeat constructor | repeat constructor].
  cbn [fst snd]. split; [reflexivity |]. split; [reflexivity |]. eexists. split; [reflexivity |].
  assert (es : sweep 0 10 5 3 = [0; 5; 10]).
  { unfold sweep. apply sort_unique; [unfold sorted; repeat constructor; lra |]. cbn. replace (0 + 0 * ((10 - 0) / 1)) with 0 by lra. replace (0 + 1 * ((10 - 0) / 1)) with 10 by lra.
    apply perm_skip. apply perm_swap. }
  cbn [snd fst]. change (Z.to_nat (Z.of_nat 1)) with 1%nat. change (Z.to_nat 1) with 1%nat. unfold panel. cbv zeta. cbn [nth]. rewrite es. eexists; eexists. cbn.
  repeat f_equal; lra.
Qed.
Print Assumptions C117_default_bands.
Print Assumptions C117_own_labels.
Print Assumptions C117_label_refuted.
Print Assumptions C117_too_many_levels.
Print Assumptions C117_single_band.
Print Assumptions C117_no_labels.
Print Assumptions C117_scheme_errors.
Print Assumptions C117_polygon.
Print Assumptions C117_coverage.
Print Assumptions C117_nested.
Print Assumptions C117_hue_colour.
Print Assumptions C117_sections.
Print Assumptions C117_bad_index.
Print Assumptions C117_bad_index_raises.
Print Assumptions C117_sweep_range.
Print Assumptions C117_integer_inputs.
Print Assumptions C117_through_anchor.
Print Assumptions C117_min_anchor.
Print Assumptions C117_min_anchor_nan_refuted.
Print Assumptions C117_max_anchor.
Print Assumptions C117_defaults.
Print Assumptions C117_rejected.
