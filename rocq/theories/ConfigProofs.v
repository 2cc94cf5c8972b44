(** ConfigProofs.v: lemmas for C16, C17, C18. *)
From Coq Require Import String Ascii List Arith ZArith Reals Lra Lia Bool.
From Verif Require Import DataModel ParamModel ConfigModel.
Import ListNotations.
Local Open Scope string_scope.

(** ** C16 *)
Lemma z_arange_app a b c : (a <= b <= c)%Z -> (z_arange a b ++ z_arange b c)%list = z_arange a c.
Proof.
intros H. unfold z_arange. replace (Z.to_nat (c - a)) with (Z.to_nat (b - a) + Z.to_nat (c - b))%nat by lia.
rewrite seq_app, map_app. f_equal. rewrite Nat.add_0_l.
rewrite <- (Nat.add_0_r (Z.to_nat (b - a))) at 1. generalize 0%nat. generalize (Z.to_nat (c - b)) as n.
induction n; intros k; simpl; auto. f_equal; [lia|]. rewrite IHn. f_equal. f_equal. lia.
Qed.
Lemma z_arange_length a b : length (z_arange a b) = Z.to_nat (b - a).
Proof. unfold z_arange. now rewrite map_length, seq_length. Qed.
Lemma z_arange_nth a b k : (k < Z.to_nat (b - a))%nat -> nth_error (z_arange a b) k = Some (a + Z.of_nat k)%Z.
Proof.
intros H. unfold z_arange. rewrite nth_error_map.
assert (E : nth_error (seq 0 (Z.to_nat (b - a))) k = Some k).
{ rewrite (nth_error_nth' _ 0%nat) by (rewrite seq_length; lia). f_equal. now rewrite seq_nth. }
rewrite E. reflexivity.
Qed.
(** a cache that holds a table 0..m-1 of g *)
Definition good V (g : Z -> V) (c : option (list V)) : Prop :=
  match c with None => True | Some t => exists m, (0 <= m)%Z /\ t = map g (z_arange 0 m) end.
Lemma z_arange_neg a b : (b <= a)%Z -> z_arange a b = [].
Proof. intros H. unfold z_arange. replace (Z.to_nat (b - a)) with 0%nat by lia. reflexivity. Qed.
Lemma gammaln_good V g c p : good V g c -> good V g (snd (compute_gammaln g c p)).
Proof.
intros H. unfold compute_gammaln. destruct c as [t|].
- destruct H as (m & Hm & ->). rewrite map_length, z_arange_length, Z.sub_0_r.
  destruct (Z.ltb_spec (Z.of_nat (Z.to_nat m)) (2 * p + 2)) as [Hlt|Hge].
  + cbn [snd good]. rewrite Z2Nat.id in * by lia. exists (2 * p + 2)%Z. split; [lia|].
    rewrite <- map_app. f_equal. apply z_arange_app. lia.
  + cbn [snd good]. eauto.
- cbn [snd good]. destruct (Z.le_ge_cases 0 (2 * p + 2)); [eauto|]. exists 0%Z. split; [lia|].
  now rewrite !z_arange_neg by lia.
Qed.
Lemma good_history V g hist : good V g (fold_left (cache_step g) hist None).
Proof.
assert (G : forall c, good V g c -> good V g (fold_left (cache_step g) hist c)).
{ induction hist as [|h r IH]; intros c Hc; simpl; auto. apply IH.
  destruct h; simpl; [now apply gammaln_good|exact I|]. destruct (String.eqb name "gammaln"); [exact I|exact Hc]. }
apply G. exact I.
Qed.
Lemma firstn_arange V (g : Z -> V) m n : (0 <= n <= m)%Z ->
  firstn (Z.to_nat n) (map g (z_arange 0 m)) = map g (z_arange 0 n).
Proof.
intros H. rewrite <- (z_arange_app 0 n m) by lia. rewrite map_app.
replace (Z.to_nat n) with (length (map g (z_arange 0 n)) + 0)%nat by (rewrite map_length, z_arange_length; lia).
rewrite firstn_app_2. simpl. apply app_nil_r.
Qed.
Lemma gammaln_value V g c p : good V g c -> (-1 <= p)%Z ->
  fst (compute_gammaln g c p) = map g (z_arange 0 (2 * p + 2)).
Proof.
intros H Hp. unfold compute_gammaln, py_head.
assert (Hn : (2 * p + 2 <? 0)%Z = false) by (apply Z.ltb_ge; lia). rewrite !Hn.
destruct c as [t|].
- destruct H as (m & Hm & ->). rewrite map_length, z_arange_length, Z.sub_0_r.
  destruct (Z.ltb_spec (Z.of_nat (Z.to_nat m)) (2 * p + 2)) as [Hlt|Hge]; cbn [fst].
  + rewrite Z2Nat.id in * by lia. rewrite <- map_app, z_arange_app by lia. apply firstn_arange. lia.
  + rewrite firstn_arange by lia. reflexivity.
- cbn [fst]. apply firstn_arange. lia.
Qed.
Lemma gammaln_transparent V (g : Z -> V) hist p : (-1 <= p)%Z ->
  fst (compute_gammaln g (fold_left (cache_step g) hist None) p) = map g (z_arange 0 (2 * p + 2)).
Proof. intros H. apply gammaln_value; auto. apply good_history. Qed.
Lemma gammaln_entry V (g : Z -> V) hist p k : (-1 <= p)%Z -> (0 <= k < 2 * p + 2)%Z ->
  nth_error (fst (compute_gammaln g (fold_left (cache_step g) hist None) p)) (Z.to_nat k) = Some (g k).
Proof.
intros H Hk. rewrite gammaln_transparent by auto. rewrite nth_error_map, z_arange_nth by lia. simpl.
f_equal. f_equal. lia.
Qed.
Lemma gammaln_length V (g : Z -> V) hist p : (-1 <= p)%Z ->
  length (fst (compute_gammaln g (fold_left (cache_step g) hist None) p)) = Z.to_nat (2 * p + 2).
Proof. intros H. rewrite gammaln_transparent by auto. rewrite map_length, z_arange_length. f_equal. lia. Qed.
Lemma matern_reads_in_range p i k : (0 <= i < p)%Z -> In k (matern_reads p i) -> (0 <= k < 2 * p + 2)%Z.
Proof. intros H. unfold matern_reads. cbn [In]. intros [<-|[<-|[<-|[<-|[<-|[]]]]]]; lia. Qed.

(** ** C17 *)
Definition legal_backend (b : option string) : Prop := b = None \/ b = Some "numpy" \/ b = Some "torch".
Definition legal (c : config) : Prop := legal_backend (c_backend c) /\ c_dtype c = "float64".
(** the environment agrees with a chosen backend *)
Definition synced (c : config) : Prop := forall b, c_backend c = Some b -> env_backend c = Some b.

Lemma normalize_backend_legal v b : normalize_backend_spec v = Some b -> legal_backend b.
Proof.
destruct v; simpl; try discriminate; [intros [= <-]; now left|].
destruct (String.eqb_spec (lower s) "jax"); [discriminate|].
destruct (String.eqb_spec (lower s) "numpy") as [->|]; [intros [= <-]; right; now left|].
destruct (String.eqb_spec (lower s) "torch") as [->|]; [intros [= <-]; right; now right|discriminate].
Qed.
Lemma normalize_dtype_legal v d : normalize_dtype_spec v = Some d -> d = "float64".
Proof.
destruct v; cbn [normalize_dtype_spec]; try (intros [= <-]; reflexivity);
  destruct (_ || _ || _); try discriminate; destruct (_ || _); congruence.
Qed.
Lemma detect_legal tf e b : detect_backend tf e = Some b -> legal_backend (Some b).
Proof.
unfold detect_backend. destruct e as [e|].
- destruct (String.eqb (lower e) "jax"); [discriminate|].
  destruct (String.eqb_spec (lower e) "numpy") as [E|].
  { rewrite orb_true_l. rewrite E. intros [= <-]. right; now left. }
  destruct (String.eqb_spec (lower e) "torch") as [E|].
  { rewrite orb_true_r. rewrite E. intros [= <-]. right; now right. }
  simpl. destruct tf; intros [= <-]; right; [now right|now left].
- destruct tf; intros [= <-]; right; [now right|now left].
Qed.

Lemma fold_other_fields l : forall c, let c' := fold_left (fun c kv => set_cfg_other c (fst kv) (snd kv)) l c in
  c_backend c' = c_backend c /\ c_dtype c' = c_dtype c /\ c_dtype_resolved c' = c_dtype_resolved c /\
  c_device c' = c_device c /\ env_backend c' = env_backend c /\ env_dtype c' = env_dtype c /\
  c_others c' = (rev l ++ c_others c)%list.
Proof.
induction l as [|kv l IH]; intros c; simpl; [repeat split; reflexivity|].
destruct (IH (set_cfg_other c (fst kv) (snd kv))) as (-> & -> & -> & -> & -> & -> & ->). simpl.
rewrite <- app_assoc. simpl. destruct kv. repeat split; reflexivity.
Qed.

(** what a successful update leaves behind, field by field *)
Lemma update_ok c k c' : update c k = (c', true) ->
  (kw_backend k = None /\ c_backend c' = c_backend c /\ env_backend c' = env_backend c \/
   (exists v b, kw_backend k = Some v /\ normalize_backend_spec v = Some b /\ c_backend c' = b /\
      env_backend c' = match b with None => env_backend c | Some _ => b end)) /\
  (kw_dtype k = None /\ c_dtype c' = c_dtype c /\ env_dtype c' = env_dtype c /\
     c_dtype_resolved c' = match kw_dtype_resolved k with None => c_dtype_resolved c | Some r => r end \/
   (exists v d, kw_dtype k = Some v /\ normalize_dtype_spec v = Some d /\ c_dtype c' = d /\
      env_dtype c' = Some d /\
      c_dtype_resolved c' = match kw_dtype_resolved k with None => VNone | Some r => r end)) /\
  c_device c' = match kw_device k with None => c_device c | Some d => d end /\
  c_others c' = (rev (kw_others k) ++ c_others c)%list.
Proof.
unfold update.
destruct (kw_backend k) as [vb|] eqn:Eb.
- destruct (normalize_backend_spec vb) as [[b|]|] eqn:Enb; [| |discriminate].
  + destruct (kw_dtype k) as [vd|] eqn:Ed.
    * destruct (normalize_dtype_spec vd) as [d|] eqn:End; [|discriminate].
      intros [= <-].
      match goal with |- context [fold_left ?f ?l ?c0] => destruct (fold_other_fields l c0) as (-> & -> & -> & -> & -> & -> & ->) end.
      split; [right; exists vb, (Some b); destruct (kw_device k), (kw_dtype_resolved k); simpl; auto|].
      split; [right; exists vd, d; destruct (kw_device k), (kw_dtype_resolved k); simpl; auto 6|].
      destruct (kw_device k), (kw_dtype_resolved k); simpl; auto.
    * intros [= <-].
      match goal with |- context [fold_left ?f ?l ?c0] => destruct (fold_other_fields l c0) as (-> & -> & -> & -> & -> & -> & ->) end.
      split; [right; exists vb, (Some b); destruct (kw_device k), (kw_dtype_resolved k); simpl; auto|].
      split; [left; destruct (kw_device k), (kw_dtype_resolved k); simpl; auto 6|].
      destruct (kw_device k), (kw_dtype_resolved k); simpl; auto.
  + destruct (kw_dtype k) as [vd|] eqn:Ed.
    * destruct (normalize_dtype_spec vd) as [d|] eqn:End; [|discriminate].
      intros [= <-].
      match goal with |- context [fold_left ?f ?l ?c0] => destruct (fold_other_fields l c0) as (-> & -> & -> & -> & -> & -> & ->) end.
      split; [right; exists vb, None; destruct (kw_device k), (kw_dtype_resolved k); simpl; auto|].
      split; [right; exists vd, d; destruct (kw_device k), (kw_dtype_resolved k); simpl; auto 6|].
      destruct (kw_device k), (kw_dtype_resolved k); simpl; auto.
    * intros [= <-].
      match goal with |- context [fold_left ?f ?l ?c0] => destruct (fold_other_fields l c0) as (-> & -> & -> & -> & -> & -> & ->) end.
      split; [right; exists vb, None; destruct (kw_device k), (kw_dtype_resolved k); simpl; auto|].
      split; [left; destruct (kw_device k), (kw_dtype_resolved k); simpl; auto 6|].
      destruct (kw_device k), (kw_dtype_resolved k); simpl; auto.
- destruct (kw_dtype k) as [vd|] eqn:Ed.
  + destruct (normalize_dtype_spec vd) as [d|] eqn:End; [|discriminate].
    intros [= <-].
    match goal with |- context [fold_left ?f ?l ?c0] => destruct (fold_other_fields l c0) as (-> & -> & -> & -> & -> & -> & ->) end.
    split; [left; destruct (kw_device k), (kw_dtype_resolved k); simpl; auto|].
    split; [right; exists vd, d; destruct (kw_device k), (kw_dtype_resolved k); simpl; auto 6|].
    destruct (kw_device k), (kw_dtype_resolved k); simpl; auto.
  + intros [= <-].
    match goal with |- context [fold_left ?f ?l ?c0] => destruct (fold_other_fields l c0) as (-> & -> & -> & -> & -> & -> & ->) end.
    split; [left; destruct (kw_device k), (kw_dtype_resolved k); simpl; auto|].
    split; [left; destruct (kw_device k), (kw_dtype_resolved k); simpl; auto 6|].
    destruct (kw_device k), (kw_dtype_resolved k); simpl; auto.
Qed.

(** when update raises, and what it leaves *)
Lemma update_raises c k : snd (update c k) = false <->
  (exists v, kw_backend k = Some v /\ normalize_backend_spec v = None) \/
  (exists v, kw_dtype k = Some v /\ normalize_dtype_spec v = None).
Proof.
unfold update. destruct (kw_backend k) as [vb|] eqn:Eb.
- destruct (normalize_backend_spec vb) as [[b|]|] eqn:Enb.
  + destruct (kw_dtype k) as [vd|] eqn:Ed; [destruct (normalize_dtype_spec vd) as [d|] eqn:End|]; simpl; split; eauto; try discriminate;
    intros [(v & [= <-] & E)|(v & E1 & E)]; try congruence; try (injection E1 as <-; congruence).
  + destruct (kw_dtype k) as [vd|] eqn:Ed; [destruct (normalize_dtype_spec vd) as [d|] eqn:End|]; simpl; split; eauto; try discriminate;
    intros [(v & [= <-] & E)|(v & E1 & E)]; try congruence; try (injection E1 as <-; congruence).
  + simpl; split; eauto.
- destruct (kw_dtype k) as [vd|] eqn:Ed; [destruct (normalize_dtype_spec vd) as [d|] eqn:End|]; simpl; split; eauto; try discriminate;
    intros [(v & [= <-] & E)|(v & E1 & E)]; try congruence; try (injection E1 as <-; congruence).
Qed.
Lemma update_failed c k c' : update c k = (c', false) ->
  c_backend c' = c_backend c /\ c_dtype c' = c_dtype c /\ c_dtype_resolved c' = c_dtype_resolved c /\
  c_device c' = c_device c /\ c_others c' = c_others c /\ env_dtype c' = env_dtype c /\
  env_backend c' = match kw_backend k with
    | Some v => match normalize_backend_spec v with Some (Some b) => Some b | _ => env_backend c end
    | None => env_backend c end.
Proof.
unfold update. destruct (kw_backend k) as [vb|] eqn:Eb.
- destruct (normalize_backend_spec vb) as [[b|]|] eqn:Enb;
  [destruct (kw_dtype k) as [vd|]; [destruct (normalize_dtype_spec vd) as [d|]|]
  |destruct (kw_dtype k) as [vd|]; [destruct (normalize_dtype_spec vd) as [d|]|]|];
  intros [= <-]; simpl; repeat split; auto.
- destruct (kw_dtype k) as [vd|]; [destruct (normalize_dtype_spec vd) as [d|]|]; intros [= <-]; repeat split; auto.
Qed.

Lemma step_legal tf c call : legal c -> legal (fst (config_step tf c call)).
Proof.
intros [L1 L2]. destruct call as [k|v|v|v|]; simpl.
- destruct (update c k) as [c' [|]] eqn:E; simpl.
  + destruct (update_ok _ _ _ E) as (Hb & Hd & _). split.
    * destruct Hb as [(_ & -> & _)|(v & b & _ & Hn & -> & _)]; auto. eapply normalize_backend_legal; eauto.
    * destruct Hd as [(_ & -> & _)|(v & d & _ & Hn & -> & _)]; auto. eapply normalize_dtype_legal; eauto.
  + destruct (update_failed _ _ _ E) as (Hb & Hd & _). split; congruence.
- unfold set_backend. destruct (normalize_backend_spec v) as [[b|]|] eqn:E; simpl; split; auto.
  + simpl. eapply normalize_backend_legal; eauto.
  + now left.
- unfold set_dtype. destruct (normalize_dtype_spec v) as [d|] eqn:E; simpl; split; auto. simpl. eapply normalize_dtype_legal; eauto.
- split; auto.
- unfold get_backend, init_backend. destruct (c_backend c) eqn:E; simpl; [split; auto; rewrite E; auto|].
  destruct (detect_backend tf (env_backend c)) as [b|] eqn:Ed; simpl; split; auto; simpl; [eapply detect_legal; eauto|].
  rewrite E; auto.
Qed.
Lemma history_legal tf calls c : legal c -> legal (fold_left (fun c call => fst (config_step tf c call)) calls c).
Proof. revert c; induction calls; intros c H; simpl; auto. apply IHcalls. now apply step_legal. Qed.

(** synced survives everything but a failing update *)
Lemma step_synced tf c call : synced c ->
  (forall k, call = CUpdate k -> snd (config_step tf c call) = true) ->
  synced (fst (config_step tf c call)).
Proof.
intros S Hk. destruct call as [k|v|v|v|]; simpl in *.
- specialize (Hk k eq_refl). destruct (update c k) as [c' ok] eqn:E; simpl in *. subst ok.
  destruct (update_ok _ _ _ E) as (Hb & _). intros b Hcb.
  destruct Hb as [(_ & E1 & ->)|(v & b' & _ & Hn & E1 & ->)]; [apply S; congruence|]. rewrite Hcb in E1. subst b'. reflexivity.
- unfold set_backend. destruct (normalize_backend_spec v) as [[b|]|] eqn:E; simpl; auto.
  + intros b'; simpl; auto.
  + intros b'; simpl; discriminate.
- unfold set_dtype. destruct (normalize_dtype_spec v) as [d|]; simpl; auto.
- auto.
- unfold get_backend, init_backend. destruct (c_backend c) eqn:E; simpl; auto.
  destruct (detect_backend tf (env_backend c)) as [b|]; simpl; auto. intros b'; simpl; auto.
Qed.

Lemma get_backend_idem tf c c' b : get_backend tf c = (c', Some b) -> get_backend tf c' = (c', Some b) /\ c_backend c' = b.
Proof.
unfold get_backend, init_backend. destruct (c_backend c) as [b0|] eqn:E.
- intros [= <- <-]. rewrite E. auto.
- destruct (detect_backend tf (env_backend c)) as [b0|]; [|discriminate]. intros [= <- <-]. auto.
Qed.
Lemma lower_numpy : lower "numpy" = "numpy". Proof. reflexivity. Qed.
Lemma set_backend_none tf c : legal c ->
  snd (set_backend c VNone) = false /\ c_backend (fst (set_backend c VNone)) = None /\
  (forall b, c_backend c = Some b -> synced c ->
     snd (get_backend tf (fst (set_backend c VNone))) = Some (Some b)).
Proof.
intros [L _]. repeat split. intros b Hb S. unfold get_backend, init_backend; simpl.
rewrite (S b Hb). destruct L as [L|[L|L]]; rewrite L in Hb; [discriminate| |]; injection Hb as <-; reflexivity.
Qed.

(** ** C18 *)
Definition above (t : R) (v : fl) : Prop := v = NaN \/ fl_lt (Fin t) v = true.
Definition within (v : fl) : Prop := exists x, v = Fin x /\ (0 < x < 1)%R.
Definition pd_inv (d : prior_defaults) : Prop :=
  above 1 (d_gamma d) /\ within (d_coverage d) /\ above 0 (d_alpha d) /\ above 0 (d_factor d).
Definition pd_strict (d : prior_defaults) : Prop :=
  d_gamma d <> NaN /\ d_alpha d <> NaN /\ d_factor d <> NaN.

Lemma fl_le_false t v : fl_le v (Fin t) = false <-> above t v.
Proof.
unfold above. destruct v; simpl; try (split; [auto|intros [H|H]; auto; discriminate]).
- destruct Rle_dec; destruct Rlt_dec; split; intros; try lra; auto; try discriminate.
  destruct H; discriminate.
Qed.
Lemma cov_within v : fl_lt (Fin 0) v && fl_lt v (Fin 1) = true <-> within v.
Proof.
unfold within. destruct v; simpl; try (split; [discriminate|intros (y & E & _); discriminate]).
destruct (Rlt_dec 0 x); destruct (Rlt_dec x 1); simpl; split; intros H; try discriminate; eauto;
  destruct H as (y & [= <-] & ?); lra.
Qed.
Definition arg_ok (t : R) (a : option fl) := match a with None => True | Some v => above t v end.
Definition cov_ok (a : option fl) := match a with None => True | Some v => within v end.
Definition arg_or (A : Type) (a : option A) (d : A) : A := match a with None => d | Some v => v end.
Arguments arg_or {A}.

Lemma set_gamma_eq d g : set_gamma d g = if fl_le g (Fin 1) then (d, false) else (mkPD g (d_coverage d) (d_alpha d) (d_factor d), true).
Proof. reflexivity. Qed.

(** the call succeeds exactly when all given values are acceptable *)
Lemma set_defaults_ok d g cv a f :
  (snd (set_defaults d g cv a f) = true <-> arg_ok 1 g /\ cov_ok cv /\ arg_ok 0 a /\ arg_ok 0 f) /\
  (snd (set_defaults d g cv a f) = true ->
   fst (set_defaults d g cv a f) =
   mkPD (arg_or g (d_gamma d)) (arg_or cv (d_coverage d)) (arg_or a (d_alpha d)) (arg_or f (d_factor d))).
Proof.
assert (G1 : forall t v, fl_le v (Fin t) = true -> ~ above t v) by (intros t v E H; apply fl_le_false in H; congruence).
assert (G2 : forall v, fl_lt (Fin 0) v && fl_lt v (Fin 1) = false -> ~ within v) by (intros v E H; apply cov_within in H; congruence).
unfold set_defaults, opt_step, set_gamma, set_coverage, set_alpha, set_factor.
destruct g as [g|]; cbn [arg_ok arg_or]; [destruct (fl_le g (Fin 1)) eqn:Eg;
  [cbn; split; [split; [discriminate|intros (H & _); now apply G1 in H]|discriminate]|apply fl_le_false in Eg]|].
all: destruct cv as [cv|]; cbn [cov_ok arg_or]; [destruct (fl_lt (Fin 0) cv && fl_lt cv (Fin 1)) eqn:Ec;
  [apply cov_within in Ec|cbn; split; [split; [discriminate|intros (_ & H & _); now apply G2 in H]|discriminate]]|].
all: destruct a as [a|]; cbn [arg_ok arg_or]; [destruct (fl_le a (Fin 0)) eqn:Ea;
  [cbn; split; [split; [discriminate|intros (_ & _ & H & _); now apply G1 in H]|discriminate]|apply fl_le_false in Ea]|].
all: destruct f as [f|]; cbn [arg_ok arg_or]; [destruct (fl_le f (Fin 0)) eqn:Ef;
  [cbn; split; [split; [discriminate|intros (_ & _ & _ & H); now apply G1 in H]|discriminate]|apply fl_le_false in Ef]|].
all: destruct d; cbn; split; [tauto|reflexivity].
Qed.
(** a failing call: the acceptable arguments before the first bad one are stored, nothing after *)
Lemma set_defaults_failed d g cv a f :
  (~ arg_ok 1 g -> set_defaults d g cv a f = (d, false)) /\
  (arg_ok 1 g -> ~ cov_ok cv -> set_defaults d g cv a f =
     (mkPD (arg_or g (d_gamma d)) (d_coverage d) (d_alpha d) (d_factor d), false)) /\
  (arg_ok 1 g -> cov_ok cv -> ~ arg_ok 0 a -> set_defaults d g cv a f =
     (mkPD (arg_or g (d_gamma d)) (arg_or cv (d_coverage d)) (d_alpha d) (d_factor d), false)) /\
  (arg_ok 1 g -> cov_ok cv -> arg_ok 0 a -> ~ arg_ok 0 f -> set_defaults d g cv a f =
     (mkPD (arg_or g (d_gamma d)) (arg_or cv (d_coverage d)) (arg_or a (d_alpha d)) (d_factor d), false)).
Proof.
assert (G1 : forall t v, above t v -> fl_le v (Fin t) = false) by (intros t v H; now apply fl_le_false).
assert (G1n : forall t v, ~ above t v -> fl_le v (Fin t) = true).
{ intros t v H. destruct (fl_le v (Fin t)) eqn:E; auto. apply fl_le_false in E. contradiction. }
assert (G2 : forall v, within v -> fl_lt (Fin 0) v && fl_lt v (Fin 1) = true) by (intros v H; now apply cov_within).
assert (G2n : forall v, ~ within v -> fl_lt (Fin 0) v && fl_lt v (Fin 1) = false).
{ intros v H. destruct (fl_lt (Fin 0) v && fl_lt v (Fin 1)) eqn:E; auto. apply cov_within in E. contradiction. }
unfold set_defaults, opt_step, set_gamma, set_coverage, set_alpha, set_factor.
destruct d as [dg dc da df].
split; [|split; [|split]].
- intros Hg. destruct g as [g|]; cbn [arg_ok] in Hg; [|tauto]. now rewrite G1n.
- intros Hg Hc. destruct cv as [cv|]; cbn [cov_ok] in Hc; [|tauto].
  destruct g as [g|]; cbn [arg_ok arg_or] in *; rewrite ?G1, G2n by auto; reflexivity.
- intros Hg Hc Ha. destruct a as [a|]; cbn [arg_ok] in Ha; [|tauto].
  destruct g as [g|]; cbn [arg_ok arg_or] in *; rewrite ?(G1 1%R) by auto;
  (destruct cv as [cv|]; cbn [cov_ok arg_or] in *; rewrite ?G2 by auto; cbn; rewrite G1n by auto; reflexivity).
- intros Hg Hc Ha Hf. destruct f as [f|]; cbn [arg_ok] in Hf; [|tauto].
  destruct g as [g|]; cbn [arg_ok arg_or] in *; rewrite ?(G1 1%R) by auto;
  (destruct cv as [cv|]; cbn [cov_ok arg_or] in *; rewrite ?G2 by auto;
   (destruct a as [a|]; cbn [arg_ok arg_or] in *; cbn; rewrite ?(G1 0%R a) by auto; cbn; rewrite G1n by auto; reflexivity)).
Qed.

Lemma set_defaults_inv d g cv a f : pd_inv d -> pd_inv (fst (set_defaults d g cv a f)).
Proof.
intros (H1 & H2 & H3 & H4).
unfold set_defaults, opt_step, set_gamma, set_coverage, set_alpha, set_factor.
destruct g as [g|]; [destruct (fl_le g (Fin 1)) eqn:Eg; [cbn; repeat split; auto|apply fl_le_false in Eg]|].
all: destruct cv as [cv|]; [destruct (fl_lt (Fin 0) cv && fl_lt cv (Fin 1)) eqn:Ec; [apply cov_within in Ec|cbn; repeat split; auto]|].
all: destruct a as [a|]; [destruct (fl_le a (Fin 0)) eqn:Ea; [cbn; repeat split; auto|apply fl_le_false in Ea]|].
all: destruct f as [f|]; [destruct (fl_le f (Fin 0)) eqn:Ef; [cbn; repeat split; auto|apply fl_le_false in Ef]|].
all: cbn; repeat split; auto.
Qed.
Definition call_no_nan (c : prior_call) : Prop :=
  match c with
  | PSet g cv a f => g <> Some NaN /\ a <> Some NaN /\ f <> Some NaN
  | PKwargs k => k_gamma k <> Some (Some NaN) /\ k_alpha k <> Some (Some NaN) /\ k_factor k <> Some (Some NaN)
  end.
Lemma set_defaults_strict d g cv a f : pd_strict d -> g <> Some NaN -> a <> Some NaN -> f <> Some NaN ->
  pd_strict (fst (set_defaults d g cv a f)).
Proof.
intros (H1 & H2 & H3) N1 N2 N3.
unfold set_defaults, opt_step, set_gamma, set_coverage, set_alpha, set_factor.
destruct g as [g|]; [destruct (fl_le g (Fin 1)); [cbn; (split; [|split]); cbn; congruence|]|].
all: destruct cv as [cv|]; [destruct (fl_lt (Fin 0) cv && fl_lt cv (Fin 1)); [|cbn; (split; [|split]); cbn; congruence]|].
all: destruct a as [a|]; [destruct (fl_le a (Fin 0)); [cbn; (split; [|split]); cbn; congruence|]|].
all: destruct f as [f|]; [destruct (fl_le f (Fin 0)); [cbn; (split; [|split]); cbn; congruence|]|].
all: cbn; (split; [|split]); cbn; congruence.
Qed.
(** the dictionary entry point does the same updates as the keyword entry point *)
Definition join (A : Type) (a : option (option A)) : option A := match a with Some b => b | None => None end.
Arguments join {A}.
Lemma from_kwargs_eq d k :
  let '(d', _, ok) := set_from_kwargs d k in
  (d', ok) = set_defaults d (join (k_gamma k)) (join (k_coverage k)) (join (k_alpha k)) (join (k_factor k)).
Proof.
unfold set_from_kwargs, set_defaults, opt_step, join.
destruct (k_gamma k) as [[g|]|]; cbn [negb];
 [destruct (set_gamma d g) as [d1 [|]]; cbn [negb]; auto| |].
all: destruct (k_coverage k) as [[cv|]|]; cbn [negb];
 [match goal with |- context [set_coverage ?x cv] => destruct (set_coverage x cv) as [d2 [|]] end; cbn [negb]; auto| |].
all: destruct (k_alpha k) as [[a|]|]; cbn [negb];
 [match goal with |- context [set_alpha ?x a] => destruct (set_alpha x a) as [d3 [|]] end; cbn [negb]; auto| |].
all: destruct (k_factor k) as [[f|]|]; cbn [negb];
 [match goal with |- context [set_factor ?x f] => destruct (set_factor x f) as [d4 [|]] end; cbn [negb]; auto| |]; auto.
Qed.
Lemma from_kwargs_pops d k d' k' : set_from_kwargs d k = (d', k', true) -> k' = mkPKw None None None None.
Proof.
unfold set_from_kwargs.
destruct (match k_gamma k with Some v => _ | None => _ end) as [d1 [|]]; cbn [negb]; [|discriminate].
destruct (match k_coverage k with Some v => _ | None => _ end) as [d2 [|]]; cbn [negb]; [|discriminate].
destruct (match k_alpha k with Some v => _ | None => _ end) as [d3 [|]]; cbn [negb]; [|discriminate].
destruct (match k_factor k with Some v => _ | None => _ end) as [d4 ok]. congruence.
Qed.
Lemma prior_step_inv d c : pd_inv d -> pd_inv (fst (prior_step d c)).
Proof.
intros H. destruct c as [g cv a f|k]; simpl; [now apply set_defaults_inv|].
assert (E := from_kwargs_eq d k). destruct (set_from_kwargs d k) as [[d' k'] ok]. simpl.
replace d' with (fst (d', ok)) by reflexivity. rewrite E. now apply set_defaults_inv.
Qed.
Lemma prior_step_strict d c : pd_strict d -> call_no_nan c -> pd_strict (fst (prior_step d c)).
Proof.
intros H. destruct c as [g cv a f|k]; simpl; [intros (? & ? & ?); now apply set_defaults_strict|].
intros (N1 & N2 & N3). assert (E := from_kwargs_eq d k). destruct (set_from_kwargs d k) as [[d' k'] ok]. simpl.
replace d' with (fst (d', ok)) by reflexivity. rewrite E.
apply set_defaults_strict; auto; unfold join; [destruct (k_gamma k)|destruct (k_alpha k)|destruct (k_factor k)]; congruence.
Qed.
Lemma strict_above t v : above t v -> v <> NaN -> fl_lt (Fin t) v = true.
Proof. intros [H|H] Hn; [contradiction|exact H]. Qed.
Lemma prior_history calls : pd_inv (fold_left (fun d c => fst (prior_step d c)) calls initial_defaults).
Proof.
assert (G : forall d, pd_inv d -> pd_inv (fold_left (fun d c => fst (prior_step d c)) calls d)).
{ induction calls; intros d H; simpl; auto. apply IHcalls. now apply prior_step_inv. }
apply G. unfold pd_inv, initial_defaults, above, within; simpl.
repeat split; try (right; destruct Rlt_dec; auto; lra). exists (95 / 100)%R. split; auto. lra.
Qed.
Lemma prior_history_strict calls : Forall call_no_nan calls ->
  let d := fold_left (fun d c => fst (prior_step d c)) calls initial_defaults in
  fl_lt (Fin 1) (d_gamma d) = true /\ within (d_coverage d) /\
  fl_lt (Fin 0) (d_alpha d) = true /\ fl_lt (Fin 0) (d_factor d) = true.
Proof.
intros F d. destruct (prior_history calls) as (H1 & H2 & H3 & H4).
assert (S : pd_strict d).
{ unfold d. clear -F. assert (G : forall d, pd_strict d -> pd_strict (fold_left (fun d c => fst (prior_step d c)) calls d)).
  { induction F; intros d H0; simpl; auto. apply IHF. now apply prior_step_strict. }
  apply G. repeat split; discriminate. }
destruct S as (S1 & S2 & S3). repeat split; auto; apply strict_above; auto.
Qed.
