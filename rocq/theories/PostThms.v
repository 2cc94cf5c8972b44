(** Posterior samplers of gpmp/mcmc/param_posterior.py: theorems C89 (starting points) and C90 (MH entry point). *)
From Coq Require Import List Arith ZArith Reals Bool Lra Lia.
From Verif Require Import ConfigModel FlModel PriorModel SmcModel SelectProofs SmcProofs MhModel MhProofs MhProofs2 MhProofs3 MhThms DesignModel PostModel.
Import ListNotations.
Local Open Scope R_scope.

(** a matrix with [d] columns *)
Definition matrix (d : nat) (rows : list (list R)) : Prop := forall r, In r rows -> length r = d.
(** arrays as NumPy builds them: all rows of a matrix have its number of columns *)
Definition array_ok (a : arr) : Prop := match a with A2 c rows => matrix c rows | _ => True end.

Lemma concat_one {A} (r : list A) n : concat (repeat [r] n) = repeat r n.
Proof. induction n as [| n ih]; [reflexivity | simpl; now rewrite ih]. Qed.
Lemma nth_error_ext_eq {A} : forall l l' : list A, (forall i, nth_error l i = nth_error l' i) -> l = l'.
Proof.
  induction l as [| a l ih]; intros [| b l'] h; [reflexivity | specialize (h 0%nat); discriminate | specialize (h 0%nat); discriminate |].
  f_equal; [specialize (h 0%nat); cbn in h; congruence | apply ih; intro i; exact (h (S i))].
Qed.
Lemma matrix_repeat d x n : length x = d -> matrix d (repeat x n).
Proof. intros h r hr. apply repeat_spec in hr. now subst. Qed.

Lemma prepare_inv {C} rd inf crit st rnd ib sb n rand (p : prepared C) : prepare C rd inf crit st rnd ib sb n rand = Some p ->
  resolve_criterion C inf crit rd = Some (p_crit p) /\
  infer_dim C inf st (match ib with Some b => Some b | None => sb end) = Some (p_dim p) /\
  (match sb with None => p_box p = None | Some b => exists lh, normalize_box b (p_dim p) = Some lh /\ p_box p = Some lh end) /\
  (match ib with None => rnd = false | Some b => exists lh, normalize_box b (p_dim p) = Some lh /\
     (rnd = true -> randunif (p_dim p) rand (fst lh) (snd lh) = Some (p_states p)) end) /\
  (rnd = false -> normalize_states C inf st n (p_dim p) = Some (p_states p)).
Proof.
  unfold prepare. destruct (resolve_criterion C inf crit rd) as [f |] eqn:e1; [| discriminate].
  set (b := match ib with Some b => Some b | None => sb end).
  destruct (infer_dim C inf st b) as [dim |] eqn:e2; [| discriminate].
  destruct ib as [ib |], sb as [sb |]; cbn [option_map];
    try (destruct (normalize_box ib dim) as [[l1 u1] |] eqn:e3; cbn [option_map]; [| discriminate]);
    try (destruct (normalize_box sb dim) as [lh |] eqn:e4; cbn [option_map]; [| discriminate]);
    destruct rnd; try discriminate;
    match goal with |- option_map _ ?t = _ -> _ => destruct t as [th |] eqn:e5; [| discriminate] end;
    cbn [option_map]; intro h; injection h as <-; cbn [p_crit p_dim p_box p_states];
    repeat split; try reflexivity; try assumption; try discriminate; eauto;
    eexists; (split; [eassumption | try discriminate; intros _; assumption]).
Qed.

(** * C89 *)
(** whatever the accepted input, there is one starting point per chain and they all have the inferred dimension *)
Theorem C89_shape {C} rd inf crit st rnd ib sb n rand (p : prepared C) : prepare C rd inf crit st rnd ib sb n rand = Some p ->
  (forall a, st = Some a -> array_ok a) -> length rand = n -> (forall r, In r rand -> length r = p_dim p) ->
  length (p_states p) = n /\ matrix (p_dim p) (p_states p).
Proof.
  intros h ha hn hr. apply prepare_inv in h as [_ [hd [_ [hi hs]]]]. destruct rnd.
  - destruct ib as [b |]; [| discriminate]. destruct hi as [[lo up] [e1 e2]]. specialize (e2 eq_refl). cbn [fst snd] in e2.
    unfold normalize_box in e1. destruct (_ && _)%bool eqn:e3 in e1; [| discriminate].
    apply andb_true_iff in e3 as [l1 l2]. apply Nat.eqb_eq in l1, l2.
    assert (elo : lo = flat_side (fst b) (p_dim p)) by congruence. assert (eup : up = flat_side (snd b) (p_dim p)) by congruence.
    rewrite <- elo in l1. rewrite <- eup in l2. clear e1 elo eup.
    unfold randunif, scale, broadcast in e2. rewrite l1, l2, Nat.eqb_refl in e2. destruct (all_lt lo up); [| discriminate].
    destruct rand as [| r0 rand]; [discriminate |]. set (rs := r0 :: rand) in *. destruct (forallb (forallb unit_entry) rs); [| discriminate].
    assert (e : p_states p = map (scale_row lo up) rs) by congruence. rewrite e. split; [now rewrite map_length |].
    intros r hin. apply in_map_iff in hin as [r' [<- hin]]. specialize (hr r' hin).
    clear - l1 l2 hr. revert up r' l1 l2 hr. generalize (p_dim p). induction lo as [| a lo ih]; intros d up r l1 l2 hr.
    + exact l1.
    + destruct up as [| u up]; [simpl in *; lia |]. destruct r as [| x r]; [simpl in *; lia |]. simpl in *.
      destruct d as [| d]; [lia |]. f_equal. apply (ih d); lia.
  - specialize (hs eq_refl). unfold normalize_states in hs. destruct st as [[v | l | c rows |] |].
    + destruct (p_dim p =? 1)%nat eqn:e; [| discriminate]. apply Nat.eqb_eq in e. injection hs as <-. rewrite repeat_length, e. split; [reflexivity | now apply matrix_repeat].
    + destruct (length l =? p_dim p)%nat eqn:e.
      * apply Nat.eqb_eq in e. injection hs as <-. rewrite repeat_length. split; [reflexivity | now apply matrix_repeat].
      * destruct (_ && _)%bool eqn:e1 in hs; [| discriminate]. apply andb_true_iff in e1 as [e1 e2]. apply Nat.eqb_eq in e1, e2. injection hs as <-.
        rewrite map_length. split; [exact e2 |]. intros r hin. apply in_map_iff in hin as [v [<- _]]. now rewrite e1.
    + specialize (ha _ eq_refl). cbn in ha. destruct ((length rows =? n) && (c =? p_dim p))%nat eqn:e1.
      { apply andb_true_iff in e1 as [e1 e2]. apply Nat.eqb_eq in e1, e2. injection hs as <-. rewrite <- e2. split; assumption. }
      destruct ((length rows =? 1) && (c =? p_dim p))%nat eqn:e2.
      { apply andb_true_iff in e2 as [e2 e3]. apply Nat.eqb_eq in e2, e3. injection hs as <-. destruct rows as [| r [|]]; try discriminate.
        rewrite concat_one, repeat_length. split; [reflexivity |]. apply matrix_repeat. rewrite <- e3. apply ha. now left. }
      destruct ((length rows =? p_dim p) && (c =? n))%nat eqn:e3; [| discriminate].
      apply andb_true_iff in e3 as [e3 e4]. apply Nat.eqb_eq in e3, e4. injection hs as <-. unfold transpose. rewrite map_length, seq_length. split; [exact e4 |].
      intros r hin. apply in_map_iff in hin as [j [<- _]]. now rewrite map_length.
    + discriminate.
    + destruct inf as [i |]; [| discriminate]. destruct (i_covparam i) as [| x0 | |]; try discriminate.
      destruct (length x0 =? p_dim p)%nat eqn:e; [| discriminate]. apply Nat.eqb_eq in e. injection hs as <-. rewrite repeat_length. split; [reflexivity | now apply matrix_repeat].
Qed.

(** without random initialisation, the starting points are: the given number, vector or one-row matrix for every chain, or the rows
    of a matrix with one row per chain, or the parameters stored in [info]; nothing else is accepted *)
Theorem C89_starting_points {C} rd inf crit st ib sb n rand (p : prepared C) : prepare C rd inf crit st false ib sb n rand = Some p ->
  match st with
  | Some (A0 v) => p_dim p = 1%nat /\ p_states p = repeat [v] n
  | Some (A1 l) => p_dim p = length l /\ p_states p = repeat l n
  | Some (A2 c rows) => p_dim p = c /\ ((length rows = n /\ p_states p = rows) \/ exists x, rows = [x] /\ p_states p = repeat x n)
  | Some Ahigh => False
  | None => exists i x0, inf = Some i /\ i_covparam i = A1 x0 /\ p_dim p = length x0 /\ p_states p = repeat x0 n
  end.
Proof.
  intros h. apply prepare_inv in h as [_ [hd [_ [_ hs]]]]. specialize (hs eq_refl). unfold infer_dim in hd. unfold normalize_states in hs.
  destruct st as [[v | l | c rows |] |].
  - assert (e : p_dim p = 1%nat) by congruence. rewrite e in hs. cbn in hs. split; congruence.
  - assert (e : p_dim p = length l) by congruence. rewrite e, Nat.eqb_refl in hs. split; congruence.
  - assert (e : p_dim p = c) by congruence. rewrite e, Nat.eqb_refl, !andb_true_r in hs. split; [exact e |].
    destruct (length rows =? n)%nat eqn:e1. { apply Nat.eqb_eq in e1. left. split; congruence. }
    destruct (length rows =? 1)%nat eqn:e2. { apply Nat.eqb_eq in e2. destruct rows as [| x [|]]; try discriminate. right. exists x. rewrite concat_one in hs. split; congruence. }
    destruct ((length rows =? c) && (c =? n))%nat eqn:e3; [| discriminate]. apply andb_true_iff in e3 as [e3 e4]. apply Nat.eqb_eq in e3, e4. apply Nat.eqb_neq in e1. lia.
  - discriminate.
  - destruct inf as [i |]; [| discriminate]. destruct (i_covparam i) as [| x0 | |] eqn:ei; try discriminate. exists i, x0.
    assert (e : p_dim p = length x0) by congruence. rewrite e, Nat.eqb_refl in hs. repeat split; congruence.
Qed.

(** the criterion that is sampled: the one given, or the one stored in info; without a need for gradients the version without
    gradients is preferred; giving both or none raises *)
Theorem C89_criterion {C} rd inf crit st rnd ib sb n rand (p : prepared C) : prepare C rd inf crit st rnd ib sb n rand = Some p ->
  (inf = None /\ crit = Some (p_crit p)) \/
  (crit = None /\ exists i, inf = Some i /\ (rd = true -> i_crit i = Some (p_crit p)) /\
     (rd = false -> i_nograd i = Some (p_crit p) \/ i_nograd i = None /\ i_crit i = Some (p_crit p))).
Proof.
  intro h. apply prepare_inv in h as [h _]. unfold resolve_criterion in h. destruct inf as [i |], crit as [f |]; try discriminate.
  - right. split; [reflexivity |]. exists i. split; [reflexivity |]. destruct rd; (split; intro; try discriminate); [exact h |].
    destruct (i_nograd i); [left; exact h | right; split; [reflexivity | exact h]].
  - left. split; [reflexivity | exact h].
Qed.
(** the bounds of a side of a box: a number or a vector of one number stands for every coordinate *)
Definition side_ok (s : bside) (dim : nat) : Prop := match s with Bnum _ => True | Bvec l => length l = 1%nat \/ length l = dim end.
Definition side_at (s : bside) (i : nat) : R := match s with Bnum v => v | Bvec l => if (length l =? 1)%nat then nth 0 l 0 else nth i l 0 end.
Lemma flat_side_len s dim : length (flat_side s dim) = dim <-> side_ok s dim.
Proof.
  destruct s as [v | [| a [| a' l]]]; cbn; rewrite ?repeat_length; intuition lia.
Qed.
Lemma flat_side_at s dim i : (i < dim)%nat -> nth i (flat_side s dim) 0 = side_at s i.
Proof.
  intro h. destruct s as [v | [| a [| a' l]]]; cbn; try reflexivity; now rewrite (nth_error_nth _ _ 0 (nth_error_repeat _ h)).
Qed.
Theorem C89_box {C} rd inf crit st rnd ib sb n rand (p : prepared C) b : prepare C rd inf crit st rnd ib sb n rand = Some p ->
  (sb = None -> p_box p = None) /\ (ib = Some b \/ sb = Some b -> side_ok (fst b) (p_dim p) /\ side_ok (snd b) (p_dim p)) /\
  (sb = Some b -> exists lo up, p_box p = Some (lo, up) /\ length lo = p_dim p /\ length up = p_dim p /\
     forall i, (i < p_dim p)%nat -> nth i lo 0 = side_at (fst b) i /\ nth i up 0 = side_at (snd b) i).
Proof.
  intro h. apply prepare_inv in h as [_ [_ [hs [hi _]]]].
  assert (N : forall b lh, normalize_box b (p_dim p) = Some lh -> side_ok (fst b) (p_dim p) /\ side_ok (snd b) (p_dim p) /\
    lh = (flat_side (fst b) (p_dim p), flat_side (snd b) (p_dim p))).
  { intros b0 lh. unfold normalize_box. destruct (_ && _)%bool eqn:e; [| discriminate]. apply andb_true_iff in e as [e1 e2].
    apply Nat.eqb_eq in e1, e2. intro e. repeat split; [now apply flat_side_len | now apply flat_side_len | congruence]. }
  repeat split.
  - intros ->. exact hs.
  - destruct H as [-> | ->]; [destruct hi as [lh [e _]] | destruct hs as [lh [e _]]]; apply (N _ _ e).
  - destruct H as [-> | ->]; [destruct hi as [lh [e _]] | destruct hs as [lh [e _]]]; apply (N _ _ e).
  - intros ->. destruct hs as [lh [e e']]. apply N in e as [h1 [h2 ->]]. do 2 eexists. split; [exact e' |].
    split; [now apply flat_side_len |]. split; [now apply flat_side_len |]. intros i hi'. split; now apply flat_side_at.
Qed.

(** without boxes: exactly when the call raises *)
Theorem C89_raises {C} rd inf crit st n rand : prepare C rd inf crit st false None None n rand = None <->
  (resolve_criterion C inf crit rd = None \/
   match st with
   | Some (A0 _) | Some (A1 _) => False
   | Some (A2 _ rows) => length rows <> n /\ length rows <> 1%nat
   | Some Ahigh => True
   | None => match inf with Some i => match i_covparam i with A1 _ => False | _ => True end | None => True end
   end).
Proof.
  unfold prepare. destruct (resolve_criterion C inf crit rd) as [f |]; [| tauto].
  unfold infer_dim, normalize_states. destruct st as [[v | l | c rows |] |]; cbn [option_map].
  - cbn. split; [discriminate | intros [h | []]; discriminate].
  - rewrite Nat.eqb_refl. cbn. split; [discriminate | intros [h | []]; discriminate].
  - rewrite Nat.eqb_refl, !andb_true_r. destruct (length rows =? n)%nat eqn:e1; [apply Nat.eqb_eq in e1; cbn; split; [discriminate | intros [h | [h _]]; [discriminate | lia]] |].
    destruct (length rows =? 1)%nat eqn:e2; [apply Nat.eqb_eq in e2; cbn; split; [discriminate | intros [h | [_ h]]; [discriminate | lia]] |].
    apply Nat.eqb_neq in e1, e2. destruct ((length rows =? c) && (c =? n))%nat eqn:e3.
    + apply andb_true_iff in e3 as [e3 e4]. apply Nat.eqb_eq in e3, e4. lia.
    + cbn. split; [right; split; assumption | reflexivity].
  - split; [right; exact I | reflexivity].
  - destruct inf as [i |]; [| split; [right; exact I | reflexivity]]. destruct (i_covparam i) as [| x0 | |]; cbn;
      try (split; [right; exact I | reflexivity]). rewrite Nat.eqb_refl. cbn. split; [discriminate | intros [h | []]; discriminate].
Qed.

(** the documented layout (dim, n_chains), one column per chain, is never honoured: the array is refused, or read by rows when it is
    square, or taken for a single point of dimension n_chains when the parameter has one coordinate *)
Theorem C89_column_layout_refuted {C} rd inf crit ib sb n rand d rows : matrix n rows -> length rows = d -> (2 <= n)%nat ->
  (d <> n -> d <> 1%nat -> prepare C rd inf crit (Some (A2 n rows)) false ib sb n rand = None) /\
  (forall p, prepare C rd inf crit (Some (A2 n rows)) false ib sb n rand = Some p ->
     p_dim p = n /\ (d = n -> p_states p = rows) /\ (d = 1%nat -> forall x, In x rows -> p_states p = repeat x n)).
Proof.
  intros hm hl hn. split.
  - intros h1 h2. destruct (prepare _ _ _ _ _ _ _ _ _ _) as [p |] eqn:e; [| reflexivity]. apply C89_starting_points in e as [_ [[e _] | [x [e _]]]].
    + congruence. + subst rows. simpl in hl. congruence.
  - intros p e. apply C89_starting_points in e as [e0 e]. split; [exact e0 |]. split.
    + intros ->. destruct e as [[_ e] | [x [e _]]]; [exact e | subst rows; simpl in hl; lia].
    + intros -> x hx. destruct e as [[e _] | [y [-> e]]]; [lia |]. destruct hx as [<- | []]. exact e.
Qed.
(** likewise, one number per chain for a single parameter is read as one point of dimension n_chains *)
Theorem C89_vector_is_one_point {C} rd inf crit ib sb n rand l p : length l = n ->
  prepare C rd inf crit (Some (A1 l)) false ib sb n rand = Some p -> p_dim p = n /\ p_states p = repeat l n.
Proof. intros h e. apply C89_starting_points in e as [e1 e2]. split; congruence. Qed.

(** random initialisation: every coordinate of every starting point lies in init_box, whatever the sampling box *)
Theorem C89_random_start {C} rd inf crit st b sb n rand (p : prepared C) :
  prepare C rd inf crit st true (Some b) sb n rand = Some p -> (forall r, In r rand -> length r = p_dim p) ->
  exists lo up, normalize_box b (p_dim p) = Some (lo, up) /\ forall x, In x (p_states p) -> inside lo up x.
Proof.
  intros h hr. apply prepare_inv in h as [_ [_ [_ [hi _]]]]. destruct hi as [[lo up] [e1 e2]]. specialize (e2 eq_refl). exists lo, up. split; [exact e1 |].
  unfold normalize_box in e1. destruct (_ && _)%bool eqn:e3 in e1; [| discriminate]. apply andb_true_iff in e3 as [l1 l2]. apply Nat.eqb_eq in l1, l2.
  assert (elo : lo = flat_side (fst b) (p_dim p)) by congruence. assert (eup : up = flat_side (snd b) (p_dim p)) by congruence.
  rewrite <- elo in l1. rewrite <- eup in l2. clear e1 elo eup. cbn [fst snd] in e2.
  unfold randunif, scale, broadcast in e2. rewrite l1, l2, Nat.eqb_refl in e2. destruct (all_lt lo up) eqn:hlt; [| discriminate].
  destruct rand as [| r0 rand]; [discriminate |]. set (rs := r0 :: rand) in *. destruct (forallb (forallb unit_entry) rs) eqn:hu; [| discriminate].
  assert (e : p_states p = map (scale_row lo up) rs) by congruence. rewrite e. intros x hx. apply in_map_iff in hx as [r [<- hin]].
  specialize (hr r hin). rewrite forallb_forall in hu. specialize (hu r hin). clear - l1 l2 hlt hr hu. rewrite <- l1 in *. clear l1.
  unfold inside. revert up r l2 hlt hr hu. induction lo as [| a lo ih]; intros up r l2 hlt hr hu.
  - destruct up; [| discriminate]. cbn. repeat split; intros; lia.
  - destruct up as [| u up]; [discriminate |]. destruct r as [| t r]; [discriminate |]. cbn in *.
    apply andb_true_iff in hlt as [h1 h2]. apply andb_true_iff in hu as [h3 h4].
    destruct (ih up r) as [q1 [q2 q3]]; try lia; try assumption. repeat split; try lia; intros.
    all: destruct i as [| i]; [| apply q3; lia]. all: unfold unit_entry in h3; apply andb_true_iff in h3 as [h3 h5].
    all: unfold rltb in h1; destruct (Rlt_dec a u); [| discriminate]. all: unfold rleb in h3, h5; destruct (Rle_dec 0 t), (Rle_dec t 1); try discriminate.
    all: nra.
Qed.

(** * C90 *)
Section C90.
Variables (Y : nat -> nat -> list R) (U : nat -> nat -> R).
Variables (inf : option (info (list R -> option fl))) (crit : option (list R -> option fl)) (st : option arr) (rnd : bool).
Variables (ib sb : option box) (temperature : R) (n_total burnin n n_pool : nat) (silent : bool) (rand : list (list R)).
Notation run := (sample_mh Y U inf crit st rnd ib sb temperature n_total burnin n n_pool silent rand).

Lemma sample_mh_inv samples s : run = Some (samples, s) -> exists p f,
  prepare _ false inf crit st rnd ib sb n rand = Some p /\ make_log_prob_mh (p_crit p) (p_box p) temperature = Some f /\
  length (p_states p) = n /\ matrix (p_dim p) (p_states p) /\
  scheduler (list R) f Y U true (fun _ _ _ _ => Fin 0) 50 (Some n_pool) (3 / 20) (9 / 20) 200%Z (p_dim p) coordinate false n_total burnin (p_states p) = Some s /\
  samples = samples_post_burnin (list R) s /\
  (silent = false -> (2 <= global_iter (list R) s - burnin_period (list R) s)%nat /\ (2 <= length (traces (list R) s))%nat).
Proof.
  unfold sample_mh. destruct (prepare _ _ _ _ _ _ _ _ _ _) as [p |]; [| discriminate]. destruct (n_total <? burnin)%nat; [discriminate |].
  destruct (make_log_prob_mh _ _ _) as [f |] eqn:e1; [| discriminate]. destruct (negb _) eqn:e2; [discriminate |]. apply negb_false_iff, andb_true_iff in e2 as [e2 e3].
  apply Nat.eqb_eq in e2. rewrite forallb_forall in e3. destruct (scheduler _ _ _ _ _ _ _ _ _ _ _ _ _ _ _ _) as [s0 |] eqn:e4; [| discriminate].
  intro h. exists p, f. split; [reflexivity |]. split; [exact e1 |]. split; [exact e2 |]. split; [intros r hr; apply Nat.eqb_eq, e3, hr |].
  destruct silent.
  - injection h as <- <-. split; [exact e4 |]. split; [reflexivity | discriminate].
  - destruct (_ <=? 1)%nat eqn:e5 in h; [discriminate |]. apply Nat.leb_gt in e5. destruct (gelman_rubin _ _ _ _ _ _) eqn:e6; [| discriminate].
    injection h as <- <-. split; [exact e4 |]. split; [reflexivity |]. intros _. split; [lia |]. unfold gelman_rubin in e6.
    destruct (n_chains (list R) s0 <? 2)%nat eqn:e7; [discriminate |]. apply Nat.ltb_ge in e7. exact e7.
Qed.

(** shape of the returned samples, and where they lie *)
Theorem C90_samples samples s : run = Some (samples, s) -> (forall p, prepare _ false inf crit st rnd ib sb n rand = Some p -> forall c t, length (Y c t) = p_dim p) ->
  exists p, prepare _ false inf crit st rnd ib sb n rand = Some p /\ length samples = n /\
  forall c rows, nth_error samples c = Some rows -> length rows = (n_total - burnin)%nat /\
    exists start, nth_error (p_states p) c = Some start /\ forall x, In x rows -> length x = p_dim p /\
      (x = start \/ exists v, p_crit p x = Some v /\ v <> NaN /\ v <> PInf) /\
      forall lo up, p_box p = Some (lo, up) -> (x = start \/ inside lo up x) /\ (inside lo up start -> inside lo up x).
Proof.
  intros h hY. apply sample_mh_inv in h as [p [f [hp [hf [hn [hm [hs [-> _]]]]]]]]. exists p. split; [exact hp |]. specialize (hY p hp).
  destruct (C57_returned_samples _ _ _ _ _ _ _ _ _ _ _ _ _ _ _ _ _ _ hs) as [hb1 [hb2 [hg [hr1 [hr2 hrow]]]]]. split; [lia |].
  destruct (C54_trace _ _ _ _ _ _ _ _ _ _ _ _ _ _ _ _ _ _ hs) as [hlt htr].
  intros c rows hc. assert (hcn : (c < length (traces (list R) s))%nat) by (rewrite hlt; rewrite <- hr2; apply nth_error_Some; congruence).
  destruct (nth_error (traces (list R) s) c) as [tr |] eqn:etr; [| apply nth_error_None in etr; lia].
  destruct (hrow c tr etr) as [hl1 [_ [_ [post [hpost [hpl hpx]]]]]]. assert (post = rows) by congruence. subst post. split; [exact hpl |].
  destruct (htr c tr etr) as [_ [[start [hst h0]] hstep]]. exists start. split; [exact hst |]. intros x hx.
  apply In_nth_error in hx as [j hj]. assert (hjl : (j < n_total - burnin)%nat) by (rewrite <- hpl; apply nth_error_Some; congruence).
  rewrite hpx in hj by exact hjl. unfold x_row in hj. rewrite etr in hj. destruct (nth_error tr (burnin_period (list R) s + j)) as [[[x1 a] l] |] eqn:en; [| discriminate].
  cbn in hj. unfold st_x in hj. cbn in hj. assert (x1 = x) by congruence. subst x1. set (t := (burnin_period (list R) s + j)%nat) in *. clearbody t.
  assert (hdim : forall t x a l, nth_error tr t = Some (x, a, l) -> length x = p_dim p).
  { clear - hY hm hst h0 hstep. induction t as [| t ih]; intros x a l he.
    - rewrite h0 in he. injection he as <- _ _. apply hm. exact (nth_error_In _ _ hst).
    - destruct (nth_error tr t) as [[[x2 a2] l2] |] eqn:h2.
      + destruct (hstep t x2 a2 l2 x a l h2 he) as [_ [[_ [-> _]] | [_ ->]]]; [apply hY | eapply ih; reflexivity].
      + apply nth_error_None in h2. assert (S t < length tr)%nat by (apply nth_error_Some; congruence). lia. }
  split; [exact (hdim _ _ _ _ en) |]. split.
  - destruct (C54_support _ _ _ _ _ _ _ _ _ _ _ _ _ _ _ _ _ _ hs c tr t x a l etr en) as [k | [k1 k2]]; [left; congruence | right].
    unfold target in k1, k2. unfold make_log_prob_mh in hf. destruct (rleb temperature 0) eqn:hT; [discriminate |].
    assert (hT0 : 0 < temperature) by (unfold rleb in hT; destruct (Rle_dec temperature 0); [discriminate | lra]).
    assert (hfx : f x = if out_of_box (p_box p) x then Some NInf else match p_crit p x with None => Some NInf | Some v => Some (fl_div (fl_opp v) (Fin temperature)) end).
    { match type of hf with Some ?g = _ => assert (e : f = g) by congruence end. rewrite e. reflexivity. }
    rewrite hfx in k1, k2. destruct (out_of_box (p_box p) x); [congruence |]. destruct (p_crit p x) as [v |]; [| congruence]. exists v. split; [reflexivity |].
    split; intros ->; cbn in k1, k2; [congruence |]. unfold rltb in k2. destruct (Rlt_dec temperature 0); [lra |]. congruence.
  - intros lo up hbx. rewrite hbx in hf. apply prepare_inv in hp as [_ [_ [hsb _]]].
    assert (hlen : length lo = p_dim p /\ length up = p_dim p).
    { destruct sb as [b |]; [| congruence]. destruct hsb as [lh [e1 e2]]. assert (lh = (lo, up)) by congruence. subst lh.
      unfold normalize_box in e1. destruct (_ && _)%bool eqn:e3 in e1; [| discriminate]. apply andb_true_iff in e3 as [l1 l2]. apply Nat.eqb_eq in l1, l2.
      assert (elo : lo = flat_side (fst b) (p_dim p)) by congruence. assert (eup : up = flat_side (snd b) (p_dim p)) by congruence. now rewrite elo, eup. }
    destruct hlen as [hl2 hl3].
    assert (Q := C55_box (p_crit p) lo up temperature f Y U true (fun _ _ _ _ => Fin 0) 50 (Some n_pool) (3 / 20) (9 / 20) 200%Z (p_dim p) coordinate false n_total burnin (p_states p) s).
    destruct (Q hf ltac:(lia) ltac:(intros; rewrite hY; lia) ltac:(intros r hr; rewrite hl2; apply hm, hr) hs c tr start t x a l hst etr en) as [q1 q2].
    split; [destruct q1 as [q1 | [q1 _]]; [left; exact q1 | right; exact q1] | exact q2].
Qed.

(** a criterion that raises everywhere (for example because the states have the wrong dimension) is not reported: the chains never move *)
Theorem C90_failing_criterion samples s : run = Some (samples, s) ->
  (forall p, prepare _ false inf crit st rnd ib sb n rand = Some p -> forall x, p_crit p x = None) ->
  exists p, prepare _ false inf crit st rnd ib sb n rand = Some p /\
  samples = map (fun x => repeat x (n_total - burnin)) (p_states p).
Proof.
  intros h hc. apply sample_mh_inv in h as [p [f [hp [hf [hn [hm [hs [-> _]]]]]]]]. exists p. split; [exact hp |]. specialize (hc p hp).
  destruct (C57_returned_samples _ _ _ _ _ _ _ _ _ _ _ _ _ _ _ _ _ _ hs) as [hb1 [hb2 [hg [hr1 [hr2 hrow]]]]].
  destruct (C54_trace _ _ _ _ _ _ _ _ _ _ _ _ _ _ _ _ _ _ hs) as [hlt htr].
  apply nth_error_ext_eq. intro c. rewrite nth_error_map.
  destruct (nth_error (traces (list R) s) c) as [tr |] eqn:etr.
  - destruct (hrow c tr etr) as [hl1 [_ [_ [post [hpost [hpl hpx]]]]]]. destruct (htr c tr etr) as [_ [[start [hst h0]] hstep]]. rewrite hpost, hst. cbn [option_map]. f_equal.
    apply nth_error_ext_eq. intro j. destruct (Nat.lt_ge_cases j (n_total - burnin)) as [hj | hj].
    + rewrite hpx by exact hj. rewrite nth_error_repeat' by exact hj. unfold x_row. rewrite etr.
      destruct (nth_error tr (burnin_period (list R) s + j)) as [[[x a] l] |] eqn:en.
      * cbn. f_equal. destruct (C54_support _ _ _ _ _ _ _ _ _ _ _ _ _ _ _ _ _ _ hs c tr _ x a l etr en) as [k | [_ k]]; [congruence |].
        exfalso. apply k. unfold target. unfold make_log_prob_mh in hf. destruct (rleb temperature 0); [discriminate |].
        match type of hf with Some ?g = _ => assert (e : f = g) by congruence end. rewrite e, hc. now destruct (out_of_box (p_box p) x).
      * apply nth_error_None in en. lia.
    + transitivity (@None (list R)); [apply nth_error_None; lia | symmetry; apply nth_error_None; rewrite repeat_length; lia].
  - apply nth_error_None in etr. transitivity (@None (list (list R))); [apply nth_error_None; lia |].
    destruct (nth_error (p_states p) c) eqn:e; [| reflexivity]. assert (c < length (p_states p))%nat by (apply nth_error_Some; congruence). lia.
Qed.
(** with the default reporting, at least two chains and two rows after the burn-in are needed; the pooling factor must divide the number of chains *)
Theorem C90_raises : (silent = false -> (n < 2)%nat \/ (n_total - burnin < 2)%nat -> run = None) /\
  ((n mod n_pool <> 0)%nat -> (50 <= burnin)%nat \/ (50 <= n_total - burnin)%nat -> run = None) /\
  (temperature <= 0 -> run = None) /\ ((n_total < burnin)%nat -> run = None).
Proof.
  repeat split.
  - intros hsil hlow. destruct run as [[samples s] |] eqn:h; [| reflexivity]. apply sample_mh_inv in h as [p [f [hp [hf [hn [hm [hs [_ hq]]]]]]]].
    destruct (C57_returned_samples _ _ _ _ _ _ _ _ _ _ _ _ _ _ _ _ _ _ hs) as [hb1 [hb2 [hg _]]].
    destruct (C54_trace _ _ _ _ _ _ _ _ _ _ _ _ _ _ _ _ _ _ hs) as [hlt _]. specialize (hq hsil). lia.
  - intros hmod hlong. destruct run as [[samples s] |] eqn:h; [| reflexivity]. apply sample_mh_inv in h as [p [f [hp [hf [hn [hm [hs _]]]]]]]. exfalso.
    unfold scheduler in hs. destruct (n_total <? burnin)%nat; [discriminate |]. destruct (run_burnin _ _ _ _ _ _ _ _ _ _ _ _ _ _ _) as [s1 |] eqn:e1; [| discriminate].
    destruct (Nat.lt_ge_cases burnin 50) as [hb | hb].
    + destruct hlong as [hlong | hlong]; [lia |]. unfold run_burnin in e1. cbn [Nat.eqb] in e1. rewrite (Nat.div_small burnin 50) in e1 by exact hb. cbn [burnin_loop] in e1.
      unfold run_adaptive in hs. cbn [Nat.eqb] in hs. assert (q : (1 <= (n_total - burnin) / 50)%nat) by (apply Nat.div_le_lower_bound; lia).
      destruct ((n_total - burnin) / 50)%nat as [| k]; [lia |]. cbn [adapt_blocks adapt_block] in hs.
      assert (hc : n_chains (list R) s1 = n).
      { injection e1 as <-. destruct (run_iter (list R) f Y U true (fun _ _ _ _ => Fin 0) (burnin - 0 * 50) (init_mh (list R) burnin (p_states p))) as [_ [_ q1]].
        change (n_chains (list R) (run_samples (list R) f Y U true (fun _ _ _ _ => Fin 0) (burnin - 0 * 50) (init_mh (list R) burnin (p_states p))) = n). rewrite q1. unfold n_chains. cbn. now rewrite map_length. }
      rewrite hc in hs. apply Nat.eqb_neq in hmod. rewrite hmod in hs. discriminate.
    + unfold run_burnin in e1. cbn [Nat.eqb] in e1. assert (q : (1 <= burnin / 50)%nat) by (apply Nat.div_le_lower_bound; lia).
      destruct (burnin / 50)%nat as [| k]; [lia |]. cbn [burnin_loop adapt_block] in e1. unfold n_chains, init_mh in e1. cbn [traces] in e1. rewrite map_length, hn in e1.
      apply Nat.eqb_neq in hmod. rewrite hmod in e1. discriminate.
  - intros hT. unfold sample_mh. destruct (prepare _ _ _ _ _ _ _ _ _ _); [| reflexivity]. destruct (n_total <? burnin)%nat; [reflexivity |].
    unfold make_log_prob_mh. unfold rleb. destruct (Rle_dec temperature 0); [reflexivity | lra].
  - intros hT. unfold sample_mh. destruct (prepare _ _ _ _ _ _ _ _ _ _); [| reflexivity]. apply Nat.ltb_lt in hT. rewrite hT. reflexivity.
Qed.
End C90.
Print Assumptions C89_shape.
Print Assumptions C89_starting_points.
Print Assumptions C89_criterion.
Print Assumptions C89_box.
Print Assumptions C89_raises.
Print Assumptions C89_column_layout_refuted.
Print Assumptions C89_vector_is_one_point.
Print Assumptions C89_random_start.
Print Assumptions C90_samples.
Print Assumptions C90_failing_criterion.
Print Assumptions C90_raises.

(** * Concrete cases *)
(** three chains in dimension two from one point; the same point per chain; the documented (dim, n_chains) layout *)
Example C89_one_point_ex : exists p, prepare nat false None (Some 7%nat) (Some (A1 [1; 2])) false None (Some (Bnum 0, Bvec [4; 5])) 3 [] = Some p /\
  p_crit p = 7%nat /\ p_dim p = 2%nat /\ p_box p = Some ([0; 0], [4; 5]) /\ p_states p = [[1; 2]; [1; 2]; [1; 2]].
Proof. eexists. split; [reflexivity |]. repeat split. Qed.
Example C89_column_layout_ex : prepare nat false None (Some 7%nat) (Some (A2 3 [[1; 2; 3]; [4; 5; 6]])) false None None 3 [] = None.
Proof. reflexivity. Qed.
Example C89_square_layout_ex : exists p, prepare nat false None (Some 7%nat) (Some (A2 2 [[1; 2]; [3; 4]])) false None None 2 [] = Some p /\ p_states p = [[1; 2]; [3; 4]].
Proof. eexists. split; reflexivity. Qed.
Example C89_info_ex : exists p, prepare nat true (Some (mkInfo (A1 [1; 2]) (Some 5%nat) (Some 6%nat))) None None false None None 2 [] = Some p /\ p_crit p = 5%nat /\ p_states p = [[1; 2]; [1; 2]].
Proof. eexists. split; [reflexivity |]. split; reflexivity. Qed.
Example C89_nograd_ex : exists p, prepare nat false (Some (mkInfo (A1 [1; 2]) (Some 5%nat) (Some 6%nat))) None None false None (Some (Bvec [0], Bvec [3; 4])) 2 [] = Some p /\ p_crit p = 6%nat /\ p_box p = Some ([0; 0], [3; 4]).
Proof. eexists. split; [reflexivity | split; reflexivity]. Qed.
Example C89_random_ex : exists p, prepare nat false None (Some 7%nat) None true (Some (Bvec [0; 2], Bnum 4)) None 1 [[1 / 2; 1]] = Some p /\ p_dim p = 2%nat /\ forall x, In x (p_states p) -> inside [0; 2] [4; 4] x.
Proof.
  assert (H : exists p, prepare nat false None (Some 7%nat) None true (Some (Bvec [0; 2], Bnum 4)) None 1 [[1 / 2; 1]] = Some p /\ p_dim p = 2%nat).
  { unfold prepare, randunif, scale, broadcast. cbn. unfold rltb, unit_entry, rleb. destruct (Rlt_dec 0 4), (Rlt_dec 2 4); try lra. cbn.
    destruct (Rle_dec 0 (1 / 2)), (Rle_dec (1 / 2) 1), (Rle_dec 0 1), (Rle_dec 1 1); try lra. cbn. eexists. split; reflexivity. }
  destruct H as [p [h hd]]. exists p. split; [exact h |]. split; [exact hd |]. destruct (C89_random_start _ _ _ _ _ _ _ _ _ h) as [lo [up [e q]]].
  - intros r [<- | []]. now rewrite hd.
  - rewrite hd in e. cbn in e. assert (lo = [0; 2]) by congruence. assert (up = [4; 4]) by congruence. subst. exact q.
Qed.
(** two chains, two steps, constant criterion *)
Definition ex_mh (crit : list R -> option fl) (silent : bool) (n : nat) :=
  sample_mh (fun c t => [INR t]) (fun _ _ => 1 / 2) None (Some crit) (Some (A1 [0])) false None (Some (Bnum 0, Bnum 1)) 1 2 0 n 1 silent [].
Lemma ex_mh_runs crit silent : exists r, ex_mh crit silent 2 = Some r.
Proof.
  unfold ex_mh, sample_mh, make_log_prob_mh, rleb at 1. cbn [prepare resolve_criterion infer_dim normalize_box flat_side fst snd repeat length Nat.eqb andb option_map normalize_states p_crit p_dim p_box p_states Nat.ltb Nat.leb negb forallb].
  destruct (Rle_dec 1 0); [lra |]. unfold scheduler, run_burnin, run_adaptive. cbn [Nat.ltb Nat.leb Nat.eqb]. change (0 / 50)%nat with 0%nat. change (2 / 50)%nat with 0%nat.
  destruct silent; eexists; reflexivity.
Qed.
Example C90_samples_ex : exists samples s, ex_mh (fun _ => Some (Fin 0)) false 2 = Some (samples, s) /\ length samples = 2%nat /\
  forall rows, In rows samples -> length rows = 2%nat /\ forall x, In x rows -> inside [0] [1] x.
Proof.
  destruct (ex_mh_runs (fun _ => Some (Fin 0)) false) as [[samples s] h]. exists samples, s. split; [exact h |].
  destruct (C90_samples _ _ _ _ _ _ _ _ _ _ _ _ _ _ _ _ _ h) as [p [hp [hl hrow]]].
  { intros p hp c t. cbn in hp. assert (e : p_dim p = 1%nat) by (injection hp as <-; reflexivity). now rewrite e. }
  split; [exact hl |]. intros rows hin. apply In_nth_error in hin as [c hc]. destruct (hrow c rows hc) as [h1 [start [hs hx]]]. split; [exact h1 |]. intros x hxi.
  destruct (hx x hxi) as [_ [_ hb]]. assert (e : p_box p = Some ([0], [1]) /\ p_states p = [[0]; [0]]) by (injection hp as <-; split; reflexivity). destruct e as [e1 e2].
  destruct (hb _ _ e1) as [_ q]. apply q. rewrite e2 in hs. assert (start = [0]) by (destruct c as [| [| [|c]]]; cbn in hs; congruence). subst start.
  split; [reflexivity |]. split; [reflexivity |]. intros [| i] hi; cbn in *; [lra | lia].
Qed.
Example C90_failing_ex : exists s, ex_mh (fun _ => None) true 2 = Some ([[[0]; [0]]; [[0]; [0]]], s).
Proof.
  destruct (ex_mh_runs (fun _ => None) true) as [[samples s] h]. exists s. destruct (C90_failing_criterion _ _ _ _ _ _ _ _ _ _ _ _ _ _ _ _ _ h) as [p [hp e]].
  { intros p hp x. cbn in hp. assert (q : p_crit p = fun _ => None) by (injection hp as <-; reflexivity). now rewrite q. }
  rewrite h. do 2 f_equal. rewrite e. assert (q : p_states p = [[0]; [0]]) by (injection hp as <-; reflexivity). now rewrite q.
Qed.
Example C90_one_chain_ex : ex_mh (fun _ => Some (Fin 0)) false 1 = None.
Proof. refine (proj1 (C90_raises _ _ _ _ _ _ _ _ _ _ _ 1%nat _ false _) eq_refl (or_introl _)). lia. Qed.
