(** Spec vocabulary and lemmas for DiagModel. *)
From Coq Require Import Reals Lra Lia List Bool Arith Sorted.
From Verif Require Import ConfigModel FlModel PriorModel ParamModel GaussProofs DesignModel DiagModel PriorProofs SelectProofs SmcProofs NutsProofs DesignProofs.
Import ListNotations.
Notation length := List.length.
Local Open Scope R_scope.

(** * trapezoidal rule *)
Fixpoint trap (g : R -> R) (xs : list R) : R :=
  match xs with
  | x :: ((y :: _) as xs') => (y - x) * (g x + g y) / 2 + trap g xs'
  | _ => 0
  end.
Lemma trap_cons g x y xs : trap g (x :: y :: xs) = (y - x) * (g x + g y) / 2 + trap g (y :: xs).
Proof. reflexivity. Qed.
Lemma trapz_map g xs : trapz (map g xs) xs = trap g xs.
Proof. induction xs as [| x [| y xs] IH]; [reflexivity | reflexivity |]. cbn in *. rewrite IH. field. Qed.
Lemma trap_ext g h xs : (forall x, In x xs -> g x = h x) -> trap g xs = trap h xs.
Proof.
  induction xs as [| x [| y xs] IH]; intro e; [reflexivity | reflexivity |].
  rewrite !trap_cons, (e x), (e y), IH; [reflexivity | intros; apply e; now right | right; now left | now left].
Qed.
Lemma trap_lin a b g h xs : trap (fun x => a * g x + b * h x) xs = a * trap g xs + b * trap h xs.
Proof. induction xs as [| x [| y xs] IH]; [cbn; ring | cbn; ring |]. rewrite !trap_cons, IH. field. Qed.
Lemma trap_scal a g xs : trap (fun x => a * g x) xs = a * trap g xs.
Proof. induction xs as [| x [| y xs] IH]; [cbn; ring | cbn; ring |]. rewrite !trap_cons, IH. field. Qed.
Lemma sorted_tail (P : R -> R -> Prop) x y xs : Sorted P (x :: y :: xs) -> P x y /\ Sorted P (y :: xs).
Proof. intro h. inversion h as [| ? ? h1 h2]; subst. inversion h2; subst. now split. Qed.
Lemma trap_nonneg g xs : Sorted Rle xs -> (forall x, In x xs -> 0 <= g x) -> 0 <= trap g xs.
Proof.
  induction xs as [| x [| y xs] IH]; intros hs hg; [cbn; lra | cbn; lra |]. destruct (sorted_tail _ _ _ _ hs) as [h1 h2].
  specialize (IH h2 (fun z hz => hg z (or_intror hz))). rewrite trap_cons. assert (g1 := hg x (or_introl eq_refl)). assert (g2 := hg y (or_intror (or_introl eq_refl))).
  assert (0 <= (y - x) * (g x + g y)) by (apply Rmult_le_pos; lra). lra.
Qed.
Lemma sorted_lt_le xs : Sorted Rlt xs -> Sorted Rle xs.
Proof. intro h. induction h as [| x xs h1 IH h2]; constructor; [assumption |]. destruct h2; constructor. lra. Qed.
Lemma trap_pos g xs : Sorted Rlt xs -> (2 <= length xs)%nat -> (forall x, In x xs -> 0 <= g x) -> (exists x, In x xs /\ 0 < g x) -> 0 < trap g xs.
Proof.
  induction xs as [| x [| y xs] IH]; intros hs hl hg [z [hz gz]]; [cbn in hl; lia | cbn in hl; lia |]. destruct (sorted_tail _ _ _ _ hs) as [h1 h2].
  assert (n := trap_nonneg g (y :: xs) (sorted_lt_le _ h2) (fun z hz => hg z (or_intror hz))).
  assert (g1 := hg x (or_introl eq_refl)). assert (g2 := hg y (or_intror (or_introl eq_refl))). rewrite trap_cons.
  destruct hz as [-> | [-> | hz]].
  - assert (0 < (y - z) * (g z + g y)) by (apply Rmult_lt_0_compat; lra). lra.
  - assert (0 < (z - x) * (g x + g z)) by (apply Rmult_lt_0_compat; lra). lra.
  - assert (0 <= (y - x) * (g x + g y)) by (apply Rmult_le_pos; lra).
    assert (0 < trap g (y :: xs)); [| lra].
    apply IH; [exact h2 | destruct xs; [destruct hz | cbn; lia] | intros; apply hg; now right | exists z; split; [now right | exact gz]].
Qed.
Lemma linspace_length a b n : length (linspace a b n) = n.
Proof. destruct n as [| [| n]]; [reflexivity | reflexivity |]. unfold linspace. now rewrite map_length, seq_length. Qed.
Lemma linspace_sorted a b n : a < b -> Sorted Rlt (linspace a b n).
Proof.
  intro h. destruct n as [| [| n]]; [constructor | repeat constructor |]. unfold linspace.
  set (st := (b - a) / INR (S (S n) - 1)). assert (hst : 0 < st) by (unfold st; apply Rdiv_lt_0_compat; [lra | apply lt_0_INR; lia]).
  clearbody st. generalize 0%nat at 1. generalize (S (S n)). intros k. induction k as [| k IH]; intro s; cbn [seq map]; [constructor |].
  constructor; [apply IH |]. destruct k; cbn [seq map]; constructor. rewrite S_INR. nra.
Qed.
Lemma linspace_decreasing a b n : b <= a -> Sorted (fun x y => y <= x) (linspace a b n).
Proof.
  intro h. destruct n as [| [| n]]; [constructor | repeat constructor |]. unfold linspace.
  set (st := (b - a) / INR (S (S n) - 1)). assert (hst : st <= 0).
  { unfold st. assert (0 < / INR (S (S n) - 1)) by (apply Rinv_0_lt_compat, lt_0_INR; lia). unfold Rdiv. nra. }
  clearbody st. generalize 0%nat at 1. generalize (S (S n)). intros k. induction k as [| k IH]; intro s; cbn [seq map]; [constructor |].
  constructor; [apply IH |]. destruct k; cbn [seq map]; constructor. rewrite S_INR. nra.
Qed.
Lemma linspace_in a b n x : a <= b -> In x (linspace a b n) -> a <= x <= b.
Proof.
  intros h hx. apply (In_nth _ _ 0) in hx as [k [hk <-]]. rewrite linspace_length in hk. rewrite linspace_nth by exact hk. now apply lev_box.
Qed.

(** * the weights *)
(** pseudo density of a criterion value *)
Definition pden (v : fl) : R := match v with Fin v => exp (- v) | _ => 0 end.
Definition admissible (v : fl) : Prop := match v with Fin _ | PInf => True | _ => False end.
Lemma fl_max_nan l : fold_left fl_max l NaN = NaN.
Proof. induction l as [| [x | | |] l IH]; cbn; auto. Qed.
Lemma fl_le_fin x y : fl_le (Fin x) (Fin y) = true <-> x <= y.
Proof. cbn. destruct (Rle_dec x y); split; intros; try assumption; try reflexivity; [discriminate | contradiction]. Qed.
(** maximum of the negated values *)
Lemma fold_max_adm vals : Forall admissible vals -> forall a, a = NInf \/ (exists x, a = Fin x) ->
  let r := fold_left fl_max (map fl_opp vals) a in
  (r = NInf /\ a = NInf /\ Forall (fun v => v = PInf) vals) \/
  (exists M, r = Fin M /\ (a = Fin M \/ In (Fin (- M)) vals) /\ (forall x, a = Fin x -> x <= M) /\ forall v, In (Fin v) vals -> - v <= M).
Proof.
  induction vals as [| v vals IH]; intros hv a ha; cbn [map fold_left]; cbv zeta.
  - destruct ha as [-> | [x ->]]; [left; now repeat split |]. right. exists x. split; [reflexivity |]. split; [now left |]. split; [intros y e; injection e as ->; lra | intros ? []].
  - inversion hv as [| ? ? h1 h2]; subst. destruct v as [v | | |]; try contradiction.
    + assert (hm : exists m, fl_max a (fl_opp (Fin v)) = Fin m /\ (a = Fin m \/ m = - v) /\ - v <= m /\ (forall x, a = Fin x -> x <= m)).
      { destruct ha as [-> | [x ->]]; cbn [fl_opp].
        - exists (- v). split; [reflexivity |]. split; [now right |]. split; [lra | discriminate].
        - unfold fl_max. destruct (fl_le (Fin x) (Fin (- v))) eqn:e.
          + apply fl_le_fin in e. exists (- v). split; [reflexivity |]. split; [now right |]. split; [lra |]. intros y ey. injection ey as <-. exact e.
          + exists x. split; [reflexivity |]. split; [now left |]. assert (~ x <= - v) by (intro q; apply fl_le_fin in q; congruence). split; [lra |]. intros y ey. injection ey as <-. lra. }
      destruct hm as [m [em [h3 [h4 h5]]]]. rewrite em. destruct (IH h2 (Fin m) (or_intror (ex_intro _ m eq_refl))) as [[_ [bad _]] | [M [e [h6 [h7 h8]]]]]; [discriminate |].
      right. exists M. split; [exact e |]. specialize (h7 m eq_refl). split; [| split].
      * destruct h6 as [h6 | h6]; [| right; now right]. injection h6 as <-. destruct h3 as [h3 | ->]; [now left |]. right. left. now rewrite Ropp_involutive.
      * intros x ex. specialize (h5 x ex). lra.
      * intros w [ew | hw]; [injection ew as <-; lra | now apply h8].
    + assert (em : fl_max a (fl_opp PInf) = a) by (destruct ha as [-> | [x ->]]; reflexivity). rewrite em.
      destruct (IH h2 a ha) as [[e [ea hall]] | [M [e [h6 [h7 h8]]]]].
      * left. split; [exact e |]. split; [exact ea |]. now constructor.
      * right. exists M. split; [exact e |]. split; [destruct h6; [now left | right; now right] |]. split; [exact h7 |]. intros w [bad | hw]; [discriminate | now apply h8].
Qed.
Lemma npmax_adm vals : Forall admissible vals -> (exists v, In (Fin v) vals) ->
  exists M, fl_npmax (map fl_opp vals) = Fin M /\ In (Fin (- M)) vals /\ forall v, In (Fin v) vals -> - v <= M.
Proof.
  intros hv [v0 hin]. destruct vals as [| v vals]; [destruct hin |]. inversion hv as [| ? ? h1 h2]; subst. cbn [map fl_npmax].
  assert (ha : fl_opp v = NInf \/ exists x, fl_opp v = Fin x) by (destruct v; try contradiction; [right; eexists; reflexivity | now left]).
  destruct (fold_max_adm vals h2 (fl_opp v) ha) as [[e [ea hall]] | [M [e [h6 [h7 h8]]]]].
  - exfalso. destruct hin as [-> | hin]; [discriminate |]. rewrite Forall_forall in hall. specialize (hall _ hin). discriminate.
  - exists M. split; [exact e |]. split.
    + destruct h6 as [h6 | h6]; [| now right]. left. destruct v as [v | | |]; try discriminate. cbn in h6. injection h6 as <-. now rewrite Ropp_involutive.
    + intros w [ew | hw]; [subst v; now apply h7 | now apply h8].
Qed.
Lemma weights_adm vals M : Forall admissible vals ->
  map fl_exp (map (fun a => fl_sub a (Fin M)) (map fl_opp vals)) = map Fin (map (fun v => exp (- M) * pden v) vals).
Proof.
  intro hv. induction hv as [| v vals h1 h2 IH]; [reflexivity |]. cbn [map]. rewrite IH. f_equal.
  destruct v as [v | | |]; try contradiction; cbn.
  - rewrite <- exp_plus. do 2 f_equal. ring.
  - now rewrite Rmult_0_r.
Qed.
Lemma reals_fin l : reals (map Fin l) = Some l.
Proof. induction l as [| a l IH]; cbn; [reflexivity |]. now rewrite IH. Qed.
Lemma fl_trapz_fin w xs : fl_trapz (map Fin w) xs = Fin (trapz w xs).
Proof.
  revert xs. induction w as [| a [| b w] IH]; intros [| x [| y xs]]; try reflexivity. specialize (IH (y :: xs)). cbn in *. rewrite IH.
  destruct (reqb 2 0) eqn:e; [unfold reqb in e; destruct (Req_EM_T 2 0); [lra | discriminate] |]. reflexivity.
Qed.
Lemma fl_add_nan_r a : fl_add a NaN = NaN.
Proof. destruct a; reflexivity. Qed.
Lemma fl_trapz_nan w : forall xs, length w = length xs -> (2 <= length w)%nat -> In NaN w -> fl_trapz w xs = NaN.
Proof.
  induction w as [| a [| b w] IH]; intros [| x [| y xs]] hl h2 hin; cbn in hl, h2; try lia.
  destruct hin as [-> | hin]; [cbn; rewrite fl_add_nan_r; reflexivity |].
  destruct w as [| c w].
  - destruct hin as [-> | []]. reflexivity.
  - destruct xs as [| z xs]; [cbn in hl; lia |].
    assert (e : fl_trapz (b :: c :: w) (y :: z :: xs) = NaN) by (apply IH; [cbn in *; lia | cbn; lia | exact hin]).
    change (fl_add (fl_div (fl_mul (Fin (y - x)) (fl_add b a)) (Fin 2)) (fl_trapz (b :: c :: w) (y :: z :: xs)) = NaN). rewrite e. apply fl_add_nan_r.
Qed.
(** a value that is NaN or -inf, or no finite value at all, puts a NaN among the weights *)
Lemma fold_max_in l a : fold_left fl_max l a = NaN \/ fold_left fl_max l a = a \/ In (fold_left fl_max l a) l.
Proof.
  revert a. induction l as [| b l IH]; intro a; cbn; [right; now left |]. destruct (IH (fl_max a b)) as [h | [h | h]]; [now left | | right; right; now right].
  rewrite h. destruct a as [x | | |], b as [y | | |]; cbn; auto; destruct (Rle_dec x y); auto.
Qed.
Lemma fold_max_absorb l : forall a, (a = NaN \/ In NaN l -> fold_left fl_max l a = NaN) /\ (a = PInf \/ In PInf l -> fold_left fl_max l a = NaN \/ fold_left fl_max l a = PInf).
Proof.
  induction l as [| b l IH]; intro a; cbn; [split; [intros [h | []]; exact h | intros [h | []]; now right] |]. destruct (IH (fl_max a b)) as [i1 i2]. split.
  - intro h. apply i1. destruct h as [-> | [-> | h]]; [left; reflexivity | left; destruct a; reflexivity | now right].
  - intro h. destruct h as [-> | [-> | h]]; [| | apply i2; now right].
    + destruct b as [y | | |]; cbn in *; auto.
    + destruct a as [x | | |]; cbn in *; auto.
Qed.
Lemma weights_bad vals : vals <> [] -> ~ (Forall admissible vals /\ exists v, In (Fin v) vals) ->
  In NaN (map fl_exp (map (fun a => fl_sub a (fl_npmax (map fl_opp vals))) (map fl_opp vals))).
Proof.
  intros hne h. rewrite !map_map. apply in_map_iff. set (m := fl_npmax (map fl_opp vals)).
  destruct vals as [| v0 vals]; [contradiction |].
  assert (dec : forall l, (exists v, In v l /\ ~ admissible v) \/ Forall admissible l).
  { induction l as [| v l IH]; [right; constructor |]. destruct v as [v | | |];
      [| | left; exists NInf; split; [now left | cbn; tauto] | left; exists NaN; split; [now left | cbn; tauto]];
      (destruct IH as [[u [hu nu]] | IH]; [left; exists u; split; [now right | exact nu] | right; constructor; [exact I | exact IH]]). }
  destruct (dec (v0 :: vals)) as [[v [hv nv]] | adm].
  - exists v. split; [| exact hv]. destruct v as [v | | |]; try (exfalso; apply nv; exact I).
    + assert (hp : In PInf (map fl_opp (v0 :: vals))) by (apply in_map_iff; exists NInf; now split).
      assert (hm : m = NaN \/ m = PInf).
      { unfold m. cbn [map fl_npmax]. cbn [map] in hp. apply (proj2 (fold_max_absorb (map fl_opp vals) (fl_opp v0))). destruct hp as [hp | hp]; [left; exact hp | now right]. }
      destruct hm as [-> | ->]; reflexivity.
    + reflexivity.
  - exists v0. split; [| now left]. assert (hall : Forall (fun v => v = PInf) (v0 :: vals)).
    { assert (adm0 := adm). rewrite Forall_forall in adm |- *. intros v hv. specialize (adm v hv). destruct v as [v | | |]; try contradiction; [| reflexivity].
      exfalso. apply h. split; [exact adm0 |]. exists v. exact hv. }
    inversion hall as [| ? ? e1 e2]; subst. assert (hm : m = NaN \/ m = NInf).
    { unfold m. cbn [map fl_npmax fl_opp]. destruct (fold_max_in (map fl_opp vals) NInf) as [q | [q | q]]; [now left | now right |].
      apply in_map_iff in q as [u [eu hu]]. rewrite Forall_forall in e2. rewrite (e2 u hu) in eu. right. cbn in eu. now rewrite <- eu. }
    destruct hm as [-> | ->]; reflexivity.
Qed.

(** * interpolation *)
Lemma interp_from_range q : forall xp fp x0 f0, x0 <= q -> Sorted Rle (f0 :: fp) -> length xp = length fp ->
  f0 <= interp_from q x0 f0 xp fp /\ forall hi, (forall v, In v (f0 :: fp) -> v <= hi) -> interp_from q x0 f0 xp fp <= hi.
Proof.
  induction xp as [| x1 xp IH]; intros [| f1 fp] x0 f0 hx hs hl; cbn in hl; try lia; cbn [interp_from].
  - split; [lra |]. intros hi h. apply h. now left.
  - destruct (sorted_tail _ _ _ _ hs) as [h1 h2]. destruct (rleb x1 q) eqn:e.
    + apply rleb_iff in e. destruct (IH fp x1 f1 e h2 ltac:(lia)) as [i1 i2]. split; [lra |]. intros hi h. apply i2. intros v hv. apply h. now right.
    + apply rleb_false in e. destruct (reqb x0 q) eqn:e2; [split; [lra | intros hi h; apply h; now left] |].
      assert (r : 0 <= (q - x0) / (x1 - x0) <= 1).
      { assert (0 < / (x1 - x0)) by (apply Rinv_0_lt_compat; lra). unfold Rdiv. split; [apply Rmult_le_pos; lra |].
        apply Rmult_le_reg_r with (x1 - x0); [lra |]. rewrite Rmult_assoc, Rinv_l by lra. lra. }
      replace ((f1 - f0) / (x1 - x0) * (q - x0) + f0) with (f0 + (f1 - f0) * ((q - x0) / (x1 - x0))) by (unfold Rdiv; ring).
      split; [nra |]. intros hi h. assert (b1 := h f1 (or_intror (or_introl eq_refl))). assert (b0 := h f0 (or_introl eq_refl)). nra.
Qed.
Lemma interp_from_mono q q' : q <= q' -> forall xp fp x0 f0, x0 <= q -> Sorted Rle (f0 :: fp) -> length xp = length fp ->
  interp_from q x0 f0 xp fp <= interp_from q' x0 f0 xp fp.
Proof.
  intro hq. induction xp as [| x1 xp IH]; intros [| f1 fp] x0 f0 hx hs hl; cbn in hl; try lia; cbn [interp_from]; [lra |].
  destruct (sorted_tail _ _ _ _ hs) as [h1 h2]. destruct (rleb x1 q) eqn:e.
  - apply rleb_iff in e. assert (e' : rleb x1 q' = true) by (apply rleb_iff; lra). rewrite e'. apply IH; [exact e | exact h2 | lia].
  - apply rleb_false in e.
    assert (P : forall t, x0 <= t < x1 -> f0 <= (f1 - f0) / (x1 - x0) * (t - x0) + f0 <= f1).
    { intros t ht. assert (0 < / (x1 - x0)) by (apply Rinv_0_lt_compat; lra).
      assert (r : 0 <= (t - x0) / (x1 - x0) <= 1) by (unfold Rdiv; split; [apply Rmult_le_pos; lra | apply Rmult_le_reg_r with (x1 - x0); [lra |]; rewrite Rmult_assoc, Rinv_l by lra; lra]).
      replace ((f1 - f0) / (x1 - x0) * (t - x0) + f0) with (f0 + (f1 - f0) * ((t - x0) / (x1 - x0))) by (unfold Rdiv; ring). nra. }
    assert (E : forall t, x0 <= t -> (if reqb x0 t then f0 else (f1 - f0) / (x1 - x0) * (t - x0) + f0) = (f1 - f0) / (x1 - x0) * (t - x0) + f0).
    { intros t ht. unfold reqb. destruct (Req_EM_T x0 t) as [<- |]; [ring | reflexivity]. }
    rewrite E by lra. destruct (rleb x1 q') eqn:e'.
    + apply rleb_iff in e'. destruct (interp_from_range q' xp fp x1 f1 e' h2 ltac:(lia)) as [i1 _]. assert (p := P q ltac:(lra)). lra.
    + apply rleb_false in e'. rewrite E by lra. assert (0 <= (f1 - f0) / (x1 - x0)); [| nra].
      unfold Rdiv. apply Rmult_le_pos; [lra | left; apply Rinv_0_lt_compat; lra].
Qed.
(** the segment containing the level *)
Lemma interp_from_segment q : forall xp fp x0 f0, x0 <= q -> length xp = length fp -> q < last xp x0 -> xp <> [] ->
  exists i, (i < length xp)%nat /\ nth i (x0 :: xp) 0 <= q < nth (S i) (x0 :: xp) 0 /\
    interp_from q x0 f0 xp fp = nth i (f0 :: fp) 0 + (q - nth i (x0 :: xp) 0) / (nth (S i) (x0 :: xp) 0 - nth i (x0 :: xp) 0) * (nth (S i) (f0 :: fp) 0 - nth i (f0 :: fp) 0).
Proof.
  induction xp as [| x1 xp IH]; intros [| f1 fp] x0 f0 hx hl hlast hne; cbn in hl; try lia; [contradiction |]. cbn [interp_from].
  destruct (rleb x1 q) eqn:e.
  - apply rleb_iff in e. destruct xp as [| x2 xp]; [cbn in hlast; lra |].
    assert (hlast' : q < last (x2 :: xp) x1).
    { replace (last (x1 :: x2 :: xp) x0) with (last (x2 :: xp) x0) in hlast by reflexivity.
      replace (last (x2 :: xp) x1) with (last (x2 :: xp) x0); [exact hlast |]. clear. revert x2. induction xp as [| y xp IH]; intro x2; [reflexivity |]. apply (IH y). }
    destruct (IH fp x1 f1 e ltac:(lia) hlast' ltac:(discriminate)) as [i [h1 [h2 h3]]]. exists (S i). split; [cbn in *; lia |]. split; [exact h2 | exact h3].
  - apply rleb_false in e. exists 0%nat. split; [cbn; lia |]. cbn [nth]. split; [lra |].
    unfold reqb. destruct (Req_EM_T x0 q) as [<- |]; [unfold Rdiv; ring | unfold Rdiv; ring].
Qed.

(** * cumulative sums *)
Lemma cumtrapz_length acc w xs : length w = length xs -> length (cumtrapz acc w xs) = length w.
Proof. revert acc xs. induction w as [| a [| b w] IH]; intros acc [| x [| y xs]] h; cbn in h; try lia; [reflexivity | reflexivity |]. cbn [cumtrapz length]. f_equal. apply (IH _ (y :: xs)). cbn in *. lia. Qed.
Lemma cumtrapz_nth w : forall xs acc i, length w = length xs -> (i < length w)%nat ->
  nth i (cumtrapz acc w xs) 0 = acc + trapz (firstn (S i) w) (firstn (S i) xs).
Proof.
  induction w as [| a [| b w] IH]; intros [| x [| y xs]] acc i h hi; cbn in h, hi; try lia.
  - assert (i = 0%nat) by lia. subst. cbn. ring.
  - destruct i as [| i]; [cbn; ring |]. change (nth (S i) (cumtrapz acc (a :: b :: w) (x :: y :: xs)) 0) with (nth i (cumtrapz (acc + (y - x) * (b + a) / 2) (b :: w) (y :: xs)) 0).
    rewrite IH by (cbn in *; lia).
    change (trapz (firstn (S (S i)) (a :: b :: w)) (firstn (S (S i)) (x :: y :: xs))) with ((y - x) * (b + a) / 2 + trapz (firstn (S i) (b :: w)) (firstn (S i) (y :: xs))). ring.
Qed.

(** * assembling *)
Definition mass_below (p : R -> R) (xs : list R) (j : nat) : R := trap p (firstn (S j) xs) / trap p xs.
Definition quantile_at (p : R -> R) (xs : list R) (q x : R) : Prop :=
  exists i, (S i < length xs)%nat /\ mass_below p xs i <= q < mass_below p xs (S i) /\
    x = nth i xs 0 + (q - mass_below p xs i) / (mass_below p xs (S i) - mass_below p xs i) * (nth (S i) xs 0 - nth i xs 0).
Definition first_max (p : R -> R) (xs : list R) (x : R) : Prop :=
  exists i, (i < length xs)%nat /\ x = nth i xs 0 /\ (forall y, In y xs -> p y <= p x) /\ forall j, (j < i)%nat -> p (nth j xs 0) < p x.
Lemma argmax_from_spec l : forall i best m pre, length pre = i -> (best < i)%nat -> nth best pre 0 = m -> (forall y, In y pre -> y <= m) -> (forall j, (j < best)%nat -> nth j pre 0 < m) ->
  let r := argmax_from i best m l in (r < i + length l)%nat /\ (forall y, In y (pre ++ l) -> y <= nth r (pre ++ l) 0) /\ forall j, (j < r)%nat -> nth j (pre ++ l) 0 < nth r (pre ++ l) 0.
Proof.
  induction l as [| a l IH]; intros i best m pre hp hb hm hmax hfirst; cbn [argmax_from]; cbv zeta.
  - rewrite app_nil_r, hm. split; [cbn; lia |]. split; assumption.
  - replace (pre ++ a :: l) with ((pre ++ [a]) ++ l) by (now rewrite <- app_assoc). assert (hl : length (pre ++ [a]) = S i) by (rewrite app_length; cbn; lia).
    destruct (rltb m a) eqn:e.
    + apply rltb_iff in e. destruct (IH (S i) i a (pre ++ [a]) hl ltac:(lia)) as [h1 [h2 h3]].
      * rewrite app_nth2 by lia. now rewrite hp, Nat.sub_diag.
      * intros y hy. apply in_app_iff in hy as [hy | [<- | []]]; [specialize (hmax y hy); lra | lra].
      * intros j hj. rewrite app_nth1 by lia. assert (nth j pre 0 <= m); [| lra]. apply hmax. apply nth_In. lia.
      * split; [cbn; lia |]. split; assumption.
    + apply rltb_false in e. destruct (IH (S i) best m (pre ++ [a]) hl ltac:(lia)) as [h1 [h2 h3]].
      * rewrite app_nth1 by lia. exact hm.
      * intros y hy. apply in_app_iff in hy as [hy | [<- | []]]; [now apply hmax | lra].
      * intros j hj. rewrite app_nth1 by lia. now apply hfirst.
      * split; [cbn; lia |]. split; assumption.
Qed.
Lemma argmax_spec l : l <> [] -> (argmax l < length l)%nat /\ (forall y, In y l -> y <= nth (argmax l) l 0) /\ forall j, (j < argmax l)%nat -> nth j l 0 < nth (argmax l) l 0.
Proof.
  destruct l as [| a l]; [contradiction |]. intros _. cbn [argmax].
  destruct (argmax_from_spec l 1 0 a [a]) as [h1 [h2 h3]]; [reflexivity | lia | reflexivity | intros y [<- | []]; lra | intros; lia |]. cbn [app] in *. split; [cbn; lia |]. now split.
Qed.
Lemma zip_mul (g h : R -> R) xs : zip_with Rmult (map g xs) (map h xs) = map (fun x => g x * h x) xs.
Proof. induction xs as [| x xs IH]; cbn; [reflexivity |]. now rewrite IH. Qed.
Lemma nth_map_R (g : R -> R) l i : (i < length l)%nat -> nth i (map g l) 0 = g (nth i l 0).
Proof. intro h. rewrite (nth_indep _ 0 (g 0)) by (now rewrite map_length). apply map_nth. Qed.
Lemma firstn_in (A : Type) (l : list A) n x : In x (firstn n l) -> In x l.
Proof. revert l. induction n as [| n IH]; intros [| a l]; cbn; try tauto. intros [h | h]; [now left | right; now apply IH]. Qed.
Lemma trap_firstn_mono p : forall xs i, Sorted Rle xs -> (forall x, In x xs -> 0 <= p x) -> trap p (firstn (S i) xs) <= trap p (firstn (S (S i)) xs).
Proof.
  induction xs as [| x [| y xs] IH]; intros i hs hp; [cbn; lra | destruct i; cbn; lra |]. destruct (sorted_tail _ _ _ _ hs) as [h1 h2].
  destruct i as [| i].
  - cbn [firstn]. rewrite trap_cons. cbn [trap]. assert (0 <= p x) by (apply hp; now left). assert (0 <= p y) by (apply hp; right; now left). nra.
  - specialize (IH i h2 (fun z hz => hp z (or_intror hz))). change (firstn (S (S i)) (x :: y :: xs)) with (x :: y :: firstn i xs).
    change (firstn (S (S (S i))) (x :: y :: xs)) with (x :: y :: firstn (S i) xs). rewrite !trap_cons.
    change (y :: firstn i xs) with (firstn (S i) (y :: xs)). change (y :: firstn (S i) xs) with (firstn (S (S i)) (y :: xs)). lra.
Qed.
Lemma firstn_map_R (g : R -> R) n xs : firstn n (map g xs) = map g (firstn n xs).
Proof. revert xs. induction n as [| n IH]; intros [| x xs]; cbn; [reflexivity | reflexivity | reflexivity |]. now rewrite IH. Qed.

Section Fast.
Variables (f : R -> fl) (lo hi : R) (n : nat).
Let xs := linspace lo hi n.
Let p := fun x => pden (f x).
Lemma pden_nonneg v : 0 <= pden v.
Proof. destruct v; cbn; try lra. left. apply exp_pos. Qed.
Lemma fast_value : (2 <= n)%nat -> lo < hi -> Forall admissible (map f xs) -> (exists v, In (Fin v) (map f xs)) ->
  0 < trap p xs /\ exists st, fast_univariate_stats f lo hi n = Some st /\
  st_mean st = trap (fun x => x * p x) xs / trap p xs /\
  st_var st = trap (fun x => sq x * p x) xs / trap p xs - sq (st_mean st) /\
  st_quantiles st = map (fun q => interp q (map (mass_below p xs) (seq 0 n)) xs) levels /\
  st_mode st = nth (argmax (map p xs)) xs 0.
Proof.
  intros hn hlh hadm hfin. destruct (npmax_adm _ hadm hfin) as [M [eM [hMin hMax]]].
  assert (hs : Sorted Rlt xs) by now apply linspace_sorted. assert (hlen : length xs = n) by apply linspace_length.
  assert (Zpos : 0 < trap p xs).
  { apply trap_pos; [exact hs | lia | intros; apply pden_nonneg |]. destruct hfin as [v hv]. apply in_map_iff in hv as [x [ex hx]]. exists x. split; [exact hx |]. unfold p. rewrite ex. cbn. apply exp_pos. }
  split; [exact Zpos |]. unfold fast_univariate_stats. fold xs. cbv zeta.
  assert (ne : map f xs <> []) by (intro q; apply map_eq_nil in q; rewrite q in hlen; cbn in hlen; lia).
  destruct (map f xs) as [| v0 vl] eqn:ev; [contradiction |]. rewrite <- ev in *. clear v0 vl ev ne. rewrite eM.
  rewrite (weights_adm _ M hadm). set (k := exp (- M)). assert (hk : 0 < k) by apply exp_pos.
  assert (ew : map (fun v => k * pden v) (map f xs) = map (fun x => k * p x) xs) by (rewrite map_map; reflexivity). rewrite ew.
  rewrite fl_trapz_fin, trapz_map, trap_scal, reals_fin.
  assert (eZ : rleb (k * trap p xs) 0 = false) by (apply rleb_false; now apply Rmult_lt_0_compat). rewrite eZ.
  eexists. split; [reflexivity |]. cbn [st_mean st_var st_quantiles st_mode].
  assert (em : forall g, trapz (zip_with Rmult (map g xs) (map (fun x => k * p x) xs)) xs / (k * trap p xs) = trap (fun x => g x * p x) xs / trap p xs).
  { intro g. rewrite zip_mul, trapz_map. rewrite (trap_ext _ (fun x => k * (g x * p x))) by (intros; ring). rewrite trap_scal. field. lra. }
  assert (em1 := em (fun x => x)). rewrite map_id in em1. split; [exact em1 |]. split; [rewrite (em sq), em1; reflexivity |]. split.
  - apply map_ext. intro q. f_equal.
    assert (lw : length (map (fun x => k * p x) xs) = length xs) by apply map_length.
    assert (lc : length (cumtrapz 0 (map (fun x => k * p x) xs) xs) = n) by (rewrite cumtrapz_length; congruence).
    apply (nth_ext _ _ 0 0); [rewrite !map_length, seq_length; exact lc |].
    intros i hi'. rewrite map_length, lc in hi'.
    rewrite nth_map_R by lia. rewrite cumtrapz_nth by lia.
    rewrite firstn_map_R, trapz_map, trap_scal. rewrite nth_map_seq by lia. unfold mass_below. field. lra.
  - f_equal. assert (G : forall l i b m, argmax_from i b (k * m) (map (fun x => k * p x) l) = argmax_from i b m (map p l)).
    { induction l as [| x l IH]; intros i b m; cbn [map argmax_from]; [reflexivity |].
      assert (e : rltb (k * m) (k * p x) = rltb m (p x)).
      { destruct (rltb m (p x)) eqn:q; [apply rltb_iff in q; apply rltb_iff; nra | apply rltb_false in q; apply rltb_false; nra]. }
      rewrite e. destruct (rltb m (p x)); apply IH. }
    destruct xs as [| x l]; [reflexivity |]. cbn [map argmax]. apply G.
Qed.
Lemma fast_none : ((n < 2)%nat \/ hi <= lo \/ ~ (Forall admissible (map f xs) /\ exists v, In (Fin v) (map f xs))) -> fast_univariate_stats f lo hi n = None.
Proof.
  intro h. assert (hlen : length xs = n) by apply linspace_length.
  assert (S : n = 0%nat \/ n = 1%nat \/ (2 <= n)%nat) by lia. destruct S as [-> | [-> | hn]].
  - reflexivity.
  - unfold fast_univariate_stats. cbn [linspace map]. cbv zeta. cbn [fl_trapz]. assert (e : rleb 0 0 = true) by (apply rleb_iff; lra). rewrite e. reflexivity.
  - unfold fast_univariate_stats. fold xs. cbv zeta.
    assert (ne : map f xs <> []) by (intro q; apply map_eq_nil in q; rewrite q in hlen; cbn in hlen; lia).
    assert (D : (Forall admissible (map f xs) /\ exists v, In (Fin v) (map f xs)) \/ ~ (Forall admissible (map f xs) /\ exists v, In (Fin v) (map f xs))).
    { assert (E : forall l : list fl, (Forall admissible l \/ ~ Forall admissible l) /\ ((exists v, In (Fin v) l) \/ ~ exists v, In (Fin v) l)).
      { induction l as [| a l [i1 i2]]; [split; [left; constructor | right; intros [v []]] |]. split.
        - destruct i1 as [i1 | i1]; [| right; intro q; inversion q; contradiction]. destruct a as [v | | |];
            [left; constructor; [exact I | exact i1] | left; constructor; [exact I | exact i1] | right; intro q; inversion q; contradiction | right; intro q; inversion q; contradiction].
        - destruct i2 as [[v hv] | i2]; [left; exists v; now right |]. destruct a as [v | | |]; [left; exists v; now left | | |]; right; intros [v [q | q]]; try discriminate; apply i2; now exists v. }
      destruct (E (map f xs)) as [[e1 | e1] [e2 | e2]]; tauto. }
    destruct (map f xs) as [| v0 vl] eqn:ev; [contradiction |]. rewrite <- ev in *. clear v0 vl ev ne.
    destruct D as [[hadm hfin] | bad].
    + assert (hle : hi <= lo) by (destruct h as [h | [h | h]]; [lia | exact h | exfalso; apply h; now split]).
      destruct (npmax_adm _ hadm hfin) as [M [eM _]]. rewrite eM, (weights_adm _ M hadm).
      assert (ew : map (fun v => exp (- M) * pden v) (map f xs) = map (fun x => exp (- M) * p x) xs) by (rewrite map_map; reflexivity). rewrite ew.
      rewrite fl_trapz_fin, trapz_map.
      assert (neg : forall g l, Sorted (fun x y => y <= x) l -> (forall x, In x l -> 0 <= g x) -> trap g l <= 0).
      { intros g l. induction l as [| x [| y l] IH]; intros hs hg; [cbn; lra | cbn; lra |]. destruct (sorted_tail _ _ _ _ hs) as [h1 h2]. rewrite trap_cons.
        specialize (IH h2 (fun z hz => hg z (or_intror hz))). assert (0 <= g x) by (apply hg; now left). assert (0 <= g y) by (apply hg; right; now left). nra. }
      assert (e : rleb (trap (fun x => exp (- M) * p x) xs) 0 = true).
      { apply rleb_iff. apply neg; [now apply linspace_decreasing |]. intros x _. apply Rmult_le_pos; [left; apply exp_pos | apply pden_nonneg]. }
      now rewrite e.
    + rewrite fl_trapz_nan; [reflexivity | now rewrite !map_length | rewrite !map_length; lia |]. apply weights_bad; [| exact bad].
      intro q. apply map_eq_nil in q. rewrite q in hlen. cbn in hlen. lia.
Qed.
End Fast.
