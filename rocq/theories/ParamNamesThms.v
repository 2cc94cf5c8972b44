(** Property theorem C111: names, dictionaries and paths of Params. *)
From Coq Require Import String Ascii List Arith Reals Lia Lra Bool Permutation Sorting.Sorted.
From Verif Require Import DataModel ParamModel ParamProofs ConfigModel ReportModel ReportThms ParamNamesModel.
Import ListNotations.
Local Open Scope string_scope.
Local Open Scope list_scope.
Local Open Scope R_scope.

Local Arguments path_match : simpl never.
(** ** the suffixes of the names form a suffix code *)
Fixpoint chars (s : string) : list ascii := match s with EmptyString => [] | String c r => c :: chars r end.
Lemma chars_app s t : chars (s ++ t)%string = chars s ++ chars t.
Proof. induction s; cbn; congruence. Qed.
Lemma chars_inj s t : chars s = chars t -> s = t.
Proof. revert t. induction s as [| c s IH]; intros [| d t]; cbn; try congruence. intros [= -> e]. f_equal. auto. Qed.
Definition is_digit (c : ascii) : Prop := exists n, (n < 10)%nat /\ c = digit n.
Lemma digits_aux f : forall n acc, Forall is_digit (chars acc) -> Forall is_digit (chars (nat_to_string_aux f n acc)).
Proof.
  induction f as [| f IH]; intros n acc h; [exact h |]. cbn [nat_to_string_aux].
  assert (h' : Forall is_digit (chars (String (digit (n mod 10)) acc))).
  { cbn. constructor; auto. exists (n mod 10)%nat. split; auto. apply Nat.mod_upper_bound. lia. }
  destruct (n / 10)%nat; auto.
Qed.
Lemma digits n : Forall is_digit (chars (nat_to_string n)).
Proof. apply digits_aux. constructor. Qed.
Lemma not_digit c n : ~ (48 <= nat_of_ascii c < 58)%nat -> ~ In c (chars (nat_to_string n)).
Proof.
  intros h i. assert (d := digits n). rewrite Forall_forall in d. destruct (d _ i) as (k & hk & ->). apply h. unfold digit.
  rewrite nat_ascii_embedding by lia. lia.
Qed.
Inductive suffix : string -> Prop :=
| suf_s : suffix "sigma2" | suf_n : suffix "sigma2_noise" | suf_r : forall i, suffix ("rho_" ++ nat_to_string i)%string.
Lemma app_split {A} (a b c d : list A) : a ++ b = c ++ d -> (exists t, b = t ++ d) \/ (exists t, d = t ++ b).
Proof.
  revert c. induction a as [| x a IH]; intros c h.
  - left. exists c. exact h.
  - destruct c as [| y c]; [right; exists (x :: a); auto |]. injection h as _ h. eauto.
Qed.
Lemma suffix_proper s s' t : suffix s -> suffix s' -> chars s = t ++ chars s' -> t = [].
Proof.
  intros h h' e. destruct t as [| c t]; [reflexivity | exfalso].
  assert (L := f_equal (@List.length _) e). assert (I : forall x, In x (chars s') -> In x (tl (chars s))) by (intros x hx; rewrite e; cbn; apply in_app_iff; auto).
  destruct h as [| | i], h' as [| | j]; rewrite ?chars_app in *; cbn in L, e, I; try rewrite app_length in L; cbn in L; try lia.
  - specialize (I "r"%char (or_introl eq_refl)). cbn in I. intuition discriminate.
  - injection e as -> e. do 7 (destruct t as [| ? t]; cbn in e; [discriminate | injection e as _ e]). apply (f_equal (@List.length _)) in e. rewrite app_length in e. cbn in e. lia.
  - specialize (I "r"%char (or_introl eq_refl)). cbn in I. intuition discriminate.
  - specialize (I "s"%char (or_introl eq_refl)). destruct I as [I | [I | [I | I]]]; try discriminate. apply not_digit in I; auto. vm_compute. lia.
  - specialize (I "s"%char (or_introl eq_refl)). destruct I as [I | [I | [I | I]]]; try discriminate. apply not_digit in I; auto. vm_compute. lia.
  - specialize (I "r"%char (or_introl eq_refl)). destruct I as [I | [I | [I | I]]]; try discriminate. apply not_digit in I; auto. vm_compute. lia.
Qed.
Lemma suffix_code p p' s s' : suffix s -> suffix s' -> (p ++ s)%string = (p' ++ s')%string -> p = p' /\ s = s'.
Proof.
  intros h h' e. assert (E := f_equal chars e). rewrite !chars_app in E.
  assert (G : chars s = chars s').
  { destruct (app_split _ _ _ _ E) as [[t ht] | [t ht]]; assert (t = []) by (eapply suffix_proper; [| | exact ht]; auto); subst; exact ht || (symmetry; exact ht). }
  split; [| apply chars_inj, G]. rewrite G in E. apply app_inv_tail in E. now apply chars_inj.
Qed.

(** ** names of several Params put together *)
Inductive maker := Anisotropic | Noisy.
(** [b]: bounds of sigma2, of the noise variance and of the ranges *)
Definition make (k : maker) (v : list R) (b : bound * bound * bound) (prefix : string) : option param :=
  match k with Anisotropic => make_anisotropic_param v (fst (fst b)) (snd b) prefix | Noisy => make_noisy_param v (fst (fst b)) (snd (fst b)) (snd b) prefix end.
Lemma init_some v ps ns nm bs p : param_init v ps ns nm bs = Some p -> p = mkParam v ps ns nm bs /\ consistent p = true.
Proof. unfold param_init. cbv zeta. destruct (consistent _) eqn:e; [| discriminate]. intros [= <-]. auto. Qed.
Lemma make_names k v b q p : make k v b q = Some p -> consistent p = true /\ NoDup (names p) /\ In (q ++ "sigma2")%string (names p) /\
  forall n, In n (names p) -> exists s, suffix s /\ n = (q ++ s)%string.
Proof.
  assert (R : forall d, NoDup (map (fun i => (q ++ "rho_" ++ nat_to_string i)%string) (seq 0 d))).
  { intro d. assert (N := rho_nodup (q ++ "rho_") d 0). erewrite map_ext; [exact N |]. intro i. cbn. clear. induction q; cbn; congruence. }
  assert (X : forall s d, suffix s -> (forall i, s <> ("rho_" ++ nat_to_string i)%string) -> ~ In (q ++ s)%string (map (fun i => (q ++ "rho_" ++ nat_to_string i)%string) (seq 0 d))).
  { intros s d hs h i. apply in_map_iff in i as (k' & e & _). apply append_inj in e. apply (h k'). now symmetry. }
  assert (Y : forall d n, In n (map (fun i => (q ++ "rho_" ++ nat_to_string i)%string) (seq 0 d)) -> exists s, suffix s /\ n = (q ++ s)%string).
  { intros d n i. apply in_map_iff in i as (k' & <- & _). eexists. split; [apply suf_r | reflexivity]. }
  destruct k; cbn [make]; intro h; apply init_some in h as [-> c]; split; auto; cbn [names].
  - split; [constructor; [apply X; [constructor | discriminate] | apply R] |]. split; [left; reflexivity |].
    intros n [<- | i]; [eexists; split; [apply suf_s | reflexivity] | eapply Y; eauto].
  - split.
    { constructor; [| constructor; [apply X; [constructor | discriminate] | apply R]].
      intros [e | i]; [apply append_inj in e; discriminate | revert i; apply X; [constructor | discriminate]]. }
    split; [left; reflexivity |].
    intros n [<- | [<- | i]]; [eexists; split; [apply suf_s | reflexivity] | eexists; split; [apply suf_n | reflexivity] | eapply Y; eauto].
Qed.
Lemma nodup_app {A} (a b : list A) : NoDup (a ++ b) <-> NoDup a /\ NoDup b /\ forall x, In x a -> ~ In x b.
Proof.
  induction a as [| x a IH]; cbn.
  - split; [intro h; repeat split; auto; constructor | tauto].
  - split.
    + intro h. inversion h as [| ? ? h1 h2]; subst. apply IH in h2 as (h3 & h4 & h5). rewrite in_app_iff in h1. repeat split; auto; [constructor; tauto |].
      intros y [-> | hy]; auto.
    + intros (h1 & h2 & h3). inversion h1; subst. constructor; [rewrite in_app_iff; intros [i | i]; [auto | apply (h3 x); auto] | apply IH; auto].
Qed.
(** Params for anisotropic models, noisy or not, put together with concat or +: the names are distinct exactly when the name
    prefixes are *)
Theorem C111_distinct_names specs ps p :
  Forall2 (fun s q => match s with (k, v, b, prefix) => make k v b prefix = Some q end) specs ps -> param_concat ps = Some p ->
  (NoDup (names p) <-> NoDup (map snd specs)).
Proof.
  intros F c. assert (e : names p = concat (map names ps)).
  { destruct ps; [discriminate |]. unfold param_concat in c. apply init_some in c as [-> _]. reflexivity. }
  rewrite e. clear e c p. induction F as [| [[[k v] b] q] p0 specs ps h F IH]; [cbn; split; constructor |]. cbn [map concat snd].
  destruct (make_names _ _ _ _ _ h) as (_ & n1 & n2 & n3). rewrite nodup_app.
  assert (A : forall n, In n (concat (map names ps)) -> exists q' s, In q' (map snd specs) /\ suffix s /\ n = (q' ++ s)%string).
  { clear -F. induction F as [| [[[k v] b] q] p0 specs ps h F IH]; cbn; [tauto |]. intros n i. apply in_app_iff in i as [i | i].
    - destruct (make_names _ _ _ _ _ h) as (_ & _ & _ & n3). destruct (n3 _ i) as (s & hs & ->). exists q, s. auto.
    - destruct (IH _ i) as (q' & s & a & b' & c'). exists q', s. auto. }
  assert (B : forall q', In q' (map snd specs) -> In (q' ++ "sigma2")%string (concat (map names ps))).
  { clear -F. induction F as [| [[[k v] b] q] p0 specs ps h F IH]; cbn; [tauto |]. intros q' [<- | i]; apply in_app_iff; [left | right; auto].
    now destruct (make_names _ _ _ _ _ h) as (_ & _ & n2 & _). }
  split.
  - intros (_ & h2 & h3). constructor; [| now apply IH]. intro i. apply (h3 _ n2). now apply B.
  - intro N. inversion N as [| ? ? N1 N2]; subst. split; auto. split; [now apply IH |]. intros x i j. destruct (n3 _ i) as (s & hs & ->).
    destruct (A _ j) as (q' & s' & hq & hs' & e). destruct (suffix_code _ _ _ _ hs hs' e) as [-> _]. auto.
Qed.
Print Assumptions C111_distinct_names.
(** default names are distinct within a Param; two Params with the same prefix share names; so can two with different prefixes *)
Theorem C111_default_names v q : exists p, default_param v q = Some p /\ values p = v /\ NoDup (names p) /\
  (forall w p', default_param w q = Some p' -> v <> [] -> w <> [] -> exists n, In n (names p) /\ In n (names p')) /\
  denormalized_values p = v.
Proof.
  unfold default_param, param_init. cbv zeta. assert (c : consistent (mkParam v (repeat ["param"] (length v)) (repeat NONE (length v))
     (map (fun i => (q ++ nat_to_string i)%string) (seq 0 (length v))) (repeat None (length v))) = true).
  { unfold consistent. cbn [values paths names normalizations bounds]. rewrite map_length, seq_length, !repeat_length, !Nat.eqb_refl. reflexivity. }
  rewrite c. eexists. split; [reflexivity |]. cbn [values names]. split; [reflexivity |]. split; [apply rho_nodup |]. split.
  - intros w p' e hv hw. destruct (consistent _) in e; [| discriminate]. injection e as <-. cbn [names]. exists (q ++ nat_to_string 0)%string.
    split; apply in_map_iff; exists 0%nat; (split; [reflexivity | apply in_seq]); [destruct v | destruct w]; cbn; try congruence; lia.
  - unfold denormalized_values. cbn [values normalizations]. clear. induction v; cbn; congruence.
Qed.
Print Assumptions C111_default_names.
Theorem C111_default_names_collide_refuted : exists v w p p' n, default_param v "a" = Some p /\ default_param w "a1" = Some p' /\ In n (names p) /\ In n (names p').
Proof.
  exists (repeat 0 12), (repeat 0 2), (mkParam (repeat 0 12) (repeat ["param"] 12) (repeat NONE 12) (map (fun i => ("a" ++ nat_to_string i)%string) (seq 0 12)) (repeat None 12)),
    (mkParam (repeat 0 2) (repeat ["param"] 2) (repeat NONE 2) (map (fun i => ("a1" ++ nat_to_string i)%string) (seq 0 2)) (repeat None 2)), "a11"%string.
  split; [reflexivity |]. split; [reflexivity |]. split; cbn; tauto.
Qed.
Print Assumptions C111_default_names_collide_refuted.

(** the Param of a noisy covariance: variance, noise variance and ranges, each with its bounds *)
Theorem C111_noisy_layout s n rhos bs bn br prefix : exists p, make_noisy_param (s :: n :: rhos) bs bn br prefix = Some p /\
  consistent p = true /\ values p = s :: n :: rhos /\
  denormalized_values p = exp s :: exp n :: map (fun r => exp (- r)) rhos /\
  check_bounds p = in_bound (exp s) bs :: in_bound (exp n) bn :: map (fun r => in_bound (exp (- r)) br) rhos /\
  get_by_name p (prefix ++ "sigma2") = Some s /\ get_by_name p (prefix ++ "sigma2_noise") = Some n /\
  get_by_path p ["covparam"; "variance"] false = Some [s; n] /\ get_by_path p ["covparam"; "lengthscale"] false = Some rhos.
Proof.
  unfold make_noisy_param, param_init. cbn [length]. replace (S (S (length rhos)) - 2)%nat with (length rhos) by lia.
  match goal with |- context [if consistent ?P then _ else _] => set (p := P) end.
  assert (C : consistent p = true).
  { apply consistent_iff; simpl. rewrite !repeat_length, map_length, seq_length. auto. }
  rewrite C. exists p. split; [reflexivity |]. split; [exact C |]. split; [reflexivity |]. split; [| split; [| split; [| split]]].
  - unfold denormalized_values; cbn [p values normalizations zip_with]. now rewrite zip_norms_repeat.
  - unfold check_bounds, denormalized_values; cbn [p values normalizations zip_with bounds]. rewrite zip_norms_repeat by reflexivity.
    rewrite zip_bounds_repeat by apply map_length. rewrite map_map. reflexivity.
  - unfold get_by_name. cbn [p names index_of]. rewrite String.eqb_refl. reflexivity.
  - unfold get_by_name. cbn [p names index_of].
    assert (ne : String.eqb (prefix ++ "sigma2") (prefix ++ "sigma2_noise") = false).
    { apply String.eqb_neq. intro e. clear -e. induction prefix as [| a q IH]; cbn in e; [discriminate |]. injection e as e. auto. }
    rewrite ne, String.eqb_refl. reflexivity.
  - assert (E : entries p = mkEntry s ["covparam"; "variance"] LOG (prefix ++ "sigma2") bs :: mkEntry n ["covparam"; "variance"] LOG (prefix ++ "sigma2_noise") bn ::
      map (fun ir => mkEntry (snd ir) ["covparam"; "lengthscale"] LOG_INV (prefix ++ "rho_" ++ nat_to_string (fst ir)) br) (combine (seq 0 (length rhos)) rhos)).
    { unfold entries. cbn [p values paths normalizations names bounds zip5]. do 2 f_equal. generalize 0%nat. clear. induction rhos as [| r rhos IH]; intro k; cbn; [reflexivity |].
      f_equal. apply IH. }
    assert (F : forall (f : nat -> string) k, filter (fun e => path_match ["covparam"; "variance"] false (e_path e)) (map (fun ir => mkEntry (snd ir) ["covparam"; "lengthscale"] LOG_INV (f (fst ir)) br) (combine (seq k (length rhos)) rhos)) = [] /\
      map e_value (filter (fun e => path_match ["covparam"; "lengthscale"] false (e_path e)) (map (fun ir => mkEntry (snd ir) ["covparam"; "lengthscale"] LOG_INV (f (fst ir)) br) (combine (seq k (length rhos)) rhos))) = rhos).
    { clear. intro f. induction rhos as [| r rhos IH]; intro k; [split; reflexivity |]. destruct (IH (S k)) as [I1 I2]. split; [exact I1 |]. exact (f_equal (cons r) I2). }
    destruct (F (fun i => prefix ++ "rho_" ++ nat_to_string i)%string 0%nat) as [F1 F2]. rewrite !get_by_path_spec, E by exact C. split.
    + exact (f_equal (fun l => Some (s :: n :: map e_value l)) F1).
    + exact (f_equal Some F2).
Qed.
Print Assumptions C111_noisy_layout.

Theorem C111_noisy_short v bs bn br prefix : (length v < 2)%nat -> make_noisy_param v bs bn br prefix = None.
Proof. destruct v as [| a [| c v]]; cbn; intro h; try lia; reflexivity. Qed.
Print Assumptions C111_noisy_short.
(** ** dictionaries *)
Definition item_of (e : entry) : item := mkItem (e_value e) (e_path e) (e_norm e) (denormalize (e_value e) (e_norm e)) (e_bound e).
Lemma items_spec vs : forall nm ps ns bs, length nm = length vs -> length ps = length vs -> length ns = length vs -> length bs = length vs ->
  items nm vs ps ns (zip_with denormalize vs ns) bs = Some (map (fun e => (e_name e, item_of e)) (zip5 vs ps ns nm bs)).
Proof.
  induction vs as [| v vs IH]; intros [| n nm] [| p ps] [| o ns] [| b bs] h1 h2 h3 h4; cbn in *; try lia; [reflexivity |]. rewrite IH by lia. reflexivity.
Qed.
Lemma dict_spec p : consistent p = true -> to_dict p = Some (dict_of (map (fun e => (e_name e, item_of e)) (entries p))).
Proof. intros (h1 & h2 & h3 & h4)%consistent_iff. unfold to_dict, denormalized_values. rewrite items_spec by lia. reflexivity. Qed.
Lemma dict_last {A} (l : list (string * A)) n x : dict_get (dict_of l) n = Some x <->
  exists i, nth_error l i = Some (n, x) /\ forall j y, (i < j)%nat -> nth_error l j <> Some (n, y).
Proof.
  unfold dict_of. rewrite fold_get. assert (f := find_last l n). destruct (find _ (rev l)) as [[a y] |]; cbn [snd dict_get] in *.
  - destruct f as (i & hi & hl). split.
    + intros [= <-]. exists i. split; auto. intros j z hj ej. apply hl in ej. lia.
    + intros (k & hk & hn). destruct (Nat.lt_trichotomy i k) as [lt | [-> | gt]]; [apply hl in hk; lia | congruence |]. exfalso. eapply hn; eauto.
  - split; [discriminate |]. intros (i & hi & _). exfalso. apply f. apply nth_error_In in hi. apply (in_map fst) in hi. exact hi.
Qed.
Definition last_entry (p : param) (n : string) (i : nat) (e : entry) : Prop :=
  nth_error (entries p) i = Some e /\ e_name e = n /\ forall j e', (i < j)%nat -> nth_error (entries p) j = Some e' -> e_name e' <> n.
Lemma names_entries p : consistent p = true -> map e_name (entries p) = names p /\ map e_value (entries p) = values p.
Proof.
  intros (h1 & h2 & h3 & h4)%consistent_iff. unfold entries. destruct p as [v ps ns nm bs]; cbn in *. revert ps ns nm bs h1 h2 h3 h4.
  induction v as [| a v IH]; intros [| ? ps] [| ? ns] [| ? nm] [| ? bs] h1 h2 h3 h4; cbn in *; try lia; auto.
  destruct (IH ps ns nm bs ltac:(lia) ltac:(lia) ltac:(lia) ltac:(lia)) as [-> ->]. auto.
Qed.
(** to_dict has one key per distinct name; the key stands for the last entry of that name; it lists all the entries in order when the
    names are distinct *)
Theorem C111_to_dict p : consistent p = true -> exists d, to_dict p = Some d /\ NoDup (map fst d) /\ (forall n, In n (map fst d) <-> In n (names p)) /\
  (forall n x, dict_get d n = Some x <-> exists i e, last_entry p n i e /\ x = item_of e) /\
  (NoDup (names p) -> d = map (fun e => (e_name e, item_of e)) (entries p)).
Proof.
  intro c. eexists. split; [apply dict_spec, c |]. set (l := map (fun e => (e_name e, item_of e)) (entries p)).
  assert (kl : map fst l = names p) by (unfold l; rewrite map_map; cbn; apply names_entries, c).
  destruct (fold_keys l [] ltac:(constructor)) as (g1 & g2 & _). split; [exact g1 |]. split; [intro n; unfold dict_of; rewrite g2, kl; cbn; tauto |]. split.
  - intros n x. rewrite dict_last. split.
    + intros (i & hi & hl). unfold l in hi. rewrite nth_error_map in hi. destruct (nth_error (entries p) i) as [e |] eqn:ei; [| discriminate]. injection hi as hn hx.
      exists i, e. split; [| auto]. split; [exact ei |]. split; [auto |]. intros j e' hj ej en. apply (hl j (item_of e') hj). unfold l. rewrite nth_error_map, ej. cbn. congruence.
    + intros (i & e & (ei & en & hl) & ->). exists i. unfold l. rewrite nth_error_map, ei. cbn. split; [congruence |]. intros j y hj ej. rewrite nth_error_map in ej.
      destruct (nth_error (entries p) j) as [e' |] eqn:e2; [| discriminate]. cbn in ej. injection ej as en' _. eapply hl; eauto.
  - intro N. apply dict_nodup. fold l. now rewrite kl.
Qed.
Print Assumptions C111_to_dict.
(** get_by_name reads the first entry of a name, to_dict the last: with distinct names they agree *)
Theorem C111_by_name p d : consistent p = true -> to_dict p = Some d -> NoDup (names p) ->
  forall n, get_by_name p n = option_map i_value (dict_get d n).
Proof.
  intros c e N n. destruct (C111_to_dict p c) as (d' & e' & _ & k & g & _). replace d' with d in * by congruence. clear e'.
  destruct (names_entries p c) as [en ev]. unfold get_by_name. assert (s := index_of_spec n (names p)). destruct (index_of n (names p)) as [i |].
  - destruct s as [s _]. assert (s' := s). rewrite <- en, nth_error_map in s'. destruct (nth_error (entries p) i) as [x |] eqn:ei; [| discriminate]. injection s' as hn.
    rewrite <- ev, nth_error_map, ei. cbn. rewrite (proj2 (g n (item_of x))); [reflexivity |]. exists i, x. split; [| auto]. split; auto. split; auto.
    intros j x' hj ej en'. assert (nj : nth_error (names p) j = Some n) by (rewrite <- en, nth_error_map, ej; cbn; congruence).
    assert (i = j); [| lia]. eapply NoDup_nth_error; eauto; [apply nth_error_Some; congruence | congruence].
  - destruct (dict_get d n) as [x |] eqn:ex; [| reflexivity]. exfalso. apply s. apply g in ex as (i & x' & (h1 & h2 & _) & _). rewrite <- en. apply nth_error_In in h1.
    apply in_map_iff. eauto.
Qed.
Print Assumptions C111_by_name.
(** when a name occurs twice, a value set with set_by_name is read back by get_by_name but never shows in to_dict *)
Theorem C111_hidden_update p n v i k d : consistent p = true -> to_dict p = Some d -> (i < k)%nat -> nth_error (names p) i = Some n -> nth_error (names p) k = Some n ->
  exists p' d', set_by_name p n v = (p', true) /\ get_by_name p' n = Some v /\ to_dict p' = Some d' /\ dict_get d' n = dict_get d n.
Proof.
  intros c e lt hi hk. destruct (proj1 (set_by_name_spec p n v c) ltac:(eapply nth_error_In; eauto)) as (p' & f & hs & c' & hf & hm & hv & hg & ho & _).
  destruct (C111_to_dict p' c') as (d' & e' & _ & _ & g' & _). destruct (C111_to_dict p c) as (d0 & e0 & _ & kk & g & _). replace d0 with d in * by congruence. clear e0 d0.
  exists p', d'. split; [exact hs |]. split; [exact hg |]. split; [exact e' |].
  assert (E : forall j x, j <> f -> nth_error (entries p') j = Some x <-> nth_error (entries p) j = Some x).
  { intros j x hj. unfold set_by_name in hs. destruct (index_of n (names p)) as [f' |] eqn:ef; [| discriminate]. injection hs as <-.
    assert (f' = f). { assert (s := index_of_spec n (names p)). rewrite ef in s. destruct s as [s1 s2]. destruct (Nat.lt_trichotomy f' f) as [a | [a | a]]; auto; exfalso; [apply (hm f' a s1) | apply (s2 f a hf)]. }
    subst f'. apply consistent_iff in c as (h1 & h2 & h3 & h4). apply consistent_iff in c' as (h1' & h2' & h3' & h4'). cbn in h1', h2', h3', h4'. unfold entries, with_values. cbn.
    rewrite !zip5_nth by auto. rewrite upd_other by auto. reflexivity. }
  assert (lf : (f < k)%nat) by (destruct (Nat.lt_ge_cases f k) as [a | a]; auto; exfalso; apply (hm i); [lia | auto]).
  destruct (names_entries p c) as [en _]. 
  assert (D : exists x, dict_get d n = Some x).
  { assert (I : In n (map fst d)) by (apply kk; eapply nth_error_In; eauto). clear -I. induction d as [| [a y] d IH]; cbn in *; [tauto |].
    destruct (String.eqb_spec n a); [eauto |]. destruct I; [congruence | auto]. }
  destruct D as [x hx]. rewrite hx. apply g'. apply g in hx as (l & z & (hl1 & hl2 & hl3) & hz). exists l, z. split; [| exact hz].
  assert (lk : (k <= l)%nat). { destruct (Nat.lt_ge_cases l k) as [a | a]; auto. exfalso. assert (q := hk). rewrite <- en, nth_error_map in q. destruct (nth_error (entries p) k) as [w |] eqn:ew; [| discriminate].
    injection q as q. eapply hl3; eauto. }
  split; [apply E; [lia | auto] |]. split; auto. intros j z' hj ej. apply (hl3 j z' hj). apply E; [lia | auto].
Qed.
Print Assumptions C111_hidden_update.

(** ** writing a dictionary back *)
Lemma list_ext {A} (l k : list A) : (forall i, nth_error l i = nth_error k i) -> l = k.
Proof.
  revert k. induction l as [| a l IH]; intros [| b k] h; auto; [discriminate (h 0%nat) | discriminate (h 0%nat) |]. f_equal; [now injection (h 0%nat) |]. apply IH. intro i. apply (h (S i)).
Qed.
Lemma sfu_value kw : forall p p' ok, set_from_unnormalized p kw = (p', ok) -> consistent p = true -> NoDup (map fst kw) -> (forall n, In n (map fst kw) -> In n (names p)) ->
  ok = true /\ names p' = names p /\ normalizations p' = normalizations p /\ paths p' = paths p /\ bounds p' = bounds p /\ length (values p') = length (values p) /\
  (forall i, (forall n v, In (n, v) kw -> index_of n (names p) <> Some i) -> nth_error (values p') i = nth_error (values p) i) /\
  (forall n v i o, In (n, v) kw -> index_of n (names p) = Some i -> nth_error (normalizations p) i = Some o -> nth_error (values p') i = Some (normalize v o)).
Proof.
  induction kw as [| [a w] kw IH]; intros p p' ok e c N I; cbn in e.
  - injection e as <- <-. do 7 (split; auto). cbn. tauto.
  - inversion N as [| ? ? N1 N2]; subst. assert (s := index_of_spec a (names p)). destruct (index_of a (names p)) as [f |] eqn:ef; [| exfalso; apply s, I; left; auto].
    assert (lf := index_of_lt _ _ _ c ef). assert (c2 := c). apply consistent_iff in c2 as (h1 & h2 & h3 & h4).
    destruct (nth_error (normalizations p) f) as [o |] eqn:eo; [| exfalso; apply nth_error_None in eo; lia].
    assert (c3 : consistent (with_values p (upd (values p) f (normalize w o))) = true) by (apply consistent_iff; cbn; rewrite upd_length; auto).
    destruct (IH _ _ _ e c3 N2) as (g0 & g1 & g2 & g3 & g4 & g5 & g6 & g7); [intros n hn; apply I; right; auto |]. cbn [with_values values names normalizations paths bounds] in *.
    rewrite upd_length in g5. do 6 (split; auto). split.
    + intros i hi. rewrite g6; [apply upd_other; intros ->; apply (hi a w); [left; auto | auto] |]. intros n v hn. apply (hi n v). right. auto.
    + intros n v i o' [q | hn] hi ho.
      * injection q as -> ->. assert (i = f) by congruence. subst i. assert (o' = o) by congruence. subst o'. rewrite g6; [apply upd_same; auto |].
        intros n' v' hn' hx. assert (n <> n') by (intros ->; apply N1; apply (in_map fst) in hn'; exact hn'). eapply index_of_neq; eauto.
      * eapply g7; eauto.
Qed.
(** set_from_unnormalized applied to the Param's own to_simple_dict succeeds; entry i is rewritten only if it is the first of its name,
    with the value of the last of its name; with distinct names the Param is unchanged *)
Theorem C111_dict_round_trip p : consistent p = true -> exists p', set_from_unnormalized p (simple_dict p) = (p', true) /\
  (forall i e, nth_error (entries p) i = Some e ->
     ((exists j, (j < i)%nat /\ nth_error (names p) j = Some (e_name e)) -> nth_error (values p') i = Some (e_value e)) /\
     ((forall j, (j < i)%nat -> nth_error (names p) j <> Some (e_name e)) -> forall k z, last_entry p (e_name e) k z ->
        nth_error (values p') i = Some (normalize (denormalize (e_value z) (e_norm z)) (e_norm e)))) /\
  (NoDup (names p) -> p' = p).
Proof.
  intro c. destruct (set_from_unnormalized p (simple_dict p)) as [p' ok] eqn:e. assert (c2 := c). apply consistent_iff in c2 as (h1 & h2 & h3 & h4).
  set (l := combine (names p) (denormalized_values p)).
  assert (dl : length (denormalized_values p) = length (values p)) by (unfold denormalized_values; rewrite zip_with_length; auto).
  assert (kl : map fst l = names p).
  { unfold l. assert (L : length (names p) = length (denormalized_values p)) by lia. clear -L. revert L. generalize (denormalized_values p). induction (names p) as [| a nm IH]; intros [| b ds] L; cbn in *; try lia; auto. f_equal. apply IH. lia. }
  destruct (fold_keys l [] ltac:(constructor)) as (g1 & g2 & _).
  destruct (sfu_value _ _ _ _ e c) as (-> & f1 & f2 & f3 & f4 & f5 & f6 & f7); [exact g1 | intros n hn; apply g2 in hn; rewrite kl in hn; cbn in hn; tauto |].
  exists p'. split; [reflexivity |]. destruct (names_entries p c) as [en ev].
  assert (zl : forall k z, nth_error (entries p) k = Some z -> nth_error l k = Some (e_name z, denormalize (e_value z) (e_norm z))).
  { intros k z hz. unfold l. rewrite nth_combine. rewrite <- en at 1. rewrite nth_error_map, hz. cbn.
    unfold denormalized_values. rewrite zip_with_nth by lia. unfold entries in hz. rewrite zip5_nth in hz by auto.
    destruct (nth_error (values p) k), (nth_error (paths p) k), (nth_error (normalizations p) k), (nth_error (names p) k), (nth_error (bounds p) k); try discriminate. injection hz as <-. reflexivity. }
  assert (last_in : forall n k z, last_entry p n k z -> In (n, denormalize (e_value z) (e_norm z)) (simple_dict p)).
  { intros n k z (hz1 & hz2 & hz3). assert (G : dict_get (dict_of l) n = Some (denormalize (e_value z) (e_norm z))).
    { apply dict_last. exists k. split; [rewrite (zl k z hz1); congruence |]. intros j y hj ej. assert (lj : (j < length (entries p))%nat).
      { rewrite entries_length by auto. assert (q : (j < length l)%nat) by (apply nth_error_Some; congruence). unfold l in q. rewrite combine_length in q. lia. }
      destruct (nth_error (entries p) j) as [z' |] eqn:ez; [| apply nth_error_None in ez; lia]. rewrite (zl j z' ez) in ej. injection ej as q1 q2. eapply hz3; eauto. }
    clear -G. unfold simple_dict. fold l. revert G. generalize (dict_of l). intro d. induction d as [| [a y] d IH]; cbn; [discriminate |]. destruct (String.eqb_spec n a) as [-> | ne]; [intros [= ->]; auto | auto]. }
  assert (main : forall i x, nth_error (entries p) i = Some x ->
     ((exists j, (j < i)%nat /\ nth_error (names p) j = Some (e_name x)) -> nth_error (values p') i = Some (e_value x)) /\
     ((forall j, (j < i)%nat -> nth_error (names p) j <> Some (e_name x)) -> forall k z, last_entry p (e_name x) k z ->
        nth_error (values p') i = Some (normalize (denormalize (e_value z) (e_norm z)) (e_norm x)))).
  { intros i x hx. assert (ni : nth_error (names p) i = Some (e_name x)) by (rewrite <- en, nth_error_map, hx; reflexivity). split.
    - intros (j & lj & hj). rewrite f6; [rewrite <- ev, nth_error_map, hx; reflexivity |]. intros n v _ q. assert (s := index_of_spec n (names p)). rewrite q in s. destruct s as [s1 s2].
      assert (n = e_name x) by congruence. subst n. now apply (s2 j).
    - intros hf k z hl. eapply f7; [eapply last_in; eauto | |].
      + assert (s := index_of_spec (e_name x) (names p)). destruct (index_of (e_name x) (names p)) as [f |]; [| exfalso; apply s; eapply nth_error_In; eauto]. destruct s as [s1 s2].
        f_equal. destruct (Nat.lt_trichotomy f i) as [a | [a | a]]; auto; exfalso; [apply (hf f a s1) | apply (s2 i a ni)].
      + unfold entries in hx. rewrite zip5_nth in hx by auto.
        destruct (nth_error (values p) i), (nth_error (paths p) i), (nth_error (normalizations p) i), (nth_error (names p) i), (nth_error (bounds p) i); try discriminate. injection hx as <-. reflexivity. }
  split; [exact main |]. intro N. assert (V : values p' = values p).
  { apply list_ext. intro i. destruct (nth_error (entries p) i) as [x |] eqn:ex.
    - assert (ni : nth_error (names p) i = Some (e_name x)) by (rewrite <- en, nth_error_map, ex; reflexivity).
      assert (U : forall j, nth_error (names p) j = Some (e_name x) -> j = i) by (intros j hj; symmetry; eapply NoDup_nth_error; eauto; [apply nth_error_Some; congruence | congruence]).
      destruct (main i x ex) as [_ m]. rewrite (m (fun j lj hj => Nat.lt_neq _ _ lj (U j hj)) i x).
      + rewrite norm_denorm. rewrite <- ev, nth_error_map, ex. reflexivity.
      + split; auto. split; auto. intros j x' hj ej q. assert (i = j) by (symmetry; apply U; rewrite <- en, nth_error_map, ej; cbn; congruence). lia.
    - apply nth_error_None in ex. rewrite entries_length in ex by auto. assert (a1 : nth_error (values p) i = None) by (apply nth_error_None; auto). rewrite a1. apply nth_error_None. lia. }
  destruct p, p'. cbn in *. subst. reflexivity.
Qed.
Print Assumptions C111_dict_round_trip.

(** ** paths *)
(** the blocks get_by_path(q) for q in get_paths(), in whatever order, share out all the values *)
Theorem C111_paths_partition p qs : consistent p = true -> is_get_paths p qs ->
  exists parts, Forall2 (fun q v => get_by_path p q false = Some v /\ v <> []) qs parts /\ Permutation (concat parts) (values p).
Proof.
  intros c [N M]. set (f := fun q => map e_value (filter (fun e => path_match q false (e_path e)) (entries p))). exists (map f qs).
  assert (pe : map e_path (entries p) = paths p).
  { apply consistent_iff in c as (h1 & h2 & h3 & h4). unfold entries. destruct p as [v ps ns nm bs]; cbn in *. clear -h1 h2 h3 h4. revert ps ns nm bs h1 h2 h3 h4.
    induction v as [| a v IH]; intros [| ? ps] [| ? ns] [| ? nm] [| ? bs] h1 h2 h3 h4; cbn in *; try lia; auto. f_equal. apply IH; lia. }
  split.
  - assert (M' : forall q, In q qs -> In q (paths p)) by (intros q; apply M). clear M N. induction qs as [| q qs IH]; cbn; constructor; [| apply IH; intros; apply M'; right; auto].
    split; [apply get_by_path_spec, c |]. specialize (M' q (or_introl eq_refl)). rewrite <- pe in M'. apply in_map_iff in M' as (x & hx & hi).
    intro E. unfold f in E. apply map_eq_nil in E. assert (I : In x (filter (fun e => path_match q false (e_path e)) (entries p))) by (apply filter_In; split; auto; apply path_match_exact; auto).
    rewrite E in I. destruct I.
  - rewrite <- (proj2 (names_entries p c)). assert (M' : forall x, In x (entries p) -> In (e_path x) qs) by (intros x hx; apply M; rewrite <- pe; apply in_map; auto).
    unfold f. clear -N M'. revert M'. generalize (entries p). intros l. induction qs as [| q qs IH] in l, N |- *; intro M'.
    + destruct l as [| x l]; [constructor |]. destruct (M' x (or_introl eq_refl)).
    + inversion N as [| ? ? N1 N2]; subst. cbn [map concat].
      assert (S : Permutation (filter (fun e => path_match q false (e_path e)) l ++ filter (fun e => negb (path_match q false (e_path e))) l) l).
      { clear. induction l as [| x l IH]; cbn [filter app]; [constructor |]. destruct (path_match q false (e_path x)); cbn [negb app]; [constructor; auto |].
        eapply Permutation_trans; [apply Permutation_sym, Permutation_middle | constructor; auto]. }
      eapply Permutation_trans; [| apply Permutation_map, S]. rewrite map_app. apply Permutation_app_head.
      assert (E : map (fun q0 => map e_value (filter (fun e => path_match q0 false (e_path e)) l)) qs =
                  map (fun q0 => map e_value (filter (fun e => path_match q0 false (e_path e)) (filter (fun e => negb (path_match q false (e_path e))) l))) qs).
      { apply map_ext_in. intros r hr. f_equal. clear -hr N1. induction l as [| x l IH]; cbn [filter]; auto. destruct (path_match q false (e_path x)) eqn:m; cbn [negb filter].
        - destruct (path_match r false (e_path x)) eqn:m2; auto. apply path_match_exact in m, m2. exfalso. apply N1. congruence.
        - destruct (path_match r false (e_path x)); congruence. }
      rewrite E. apply IH; auto. intros x hx. apply filter_In in hx as [hx m]. destruct (M' x hx) as [-> | i]; auto. rewrite (proj2 (path_match_exact _ _) eq_refl) in m. discriminate.
Qed.
Print Assumptions C111_paths_partition.
(** get_paths(prefix), names_by_path_prefix and select_by_path_prefix list the same entries, in order *)
Theorem C111_prefix p q : consistent p = true -> exists es, (forall e, In e es <-> In e (entries p) /\ prefix_of q (e_path e)) /\
  get_paths_prefix p q = map e_path es /\ names_by_path_prefix p q = Some (map e_name es) /\ get_by_path p q true = Some (map e_value es).
Proof.
  intro c. exists (filter (fun e => path_match q true (e_path e)) (entries p)). split; [intro e; rewrite filter_In, path_match_prefix; tauto |].
  assert (c2 := c). apply consistent_iff in c2 as (h1 & h2 & h3 & h4). split; [| split; [| apply get_by_path_spec, c]].
  - unfold get_paths_prefix, entries. destruct p as [v ps ns nm bs]; cbn in *. clear -h1 h2 h3 h4. revert ps ns nm bs h1 h2 h3 h4.
    induction v as [| a v IH]; intros [| x ps] [| ? ns] [| ? nm] [| ? bs] h1 h2 h3 h4; cbn [length filter zip5 map e_path] in *; try lia; auto.
    destruct (path_match q true x); cbn [map e_path]; rewrite (IH ps ns nm bs) by lia; reflexivity.
  - unfold names_by_path_prefix, path_indices, entries. destruct p as [v ps ns nm bs]; cbn in *.
    assert (G : forall v ps ns nm bs pre, length ps = length v -> length ns = length v -> length nm = length v -> length bs = length v ->
      take (pre ++ nm) (enum_filter (path_match q true) (length pre) ps) = Some (map e_name (filter (fun e => path_match q true (e_path e)) (zip5 v ps ns nm bs)))).
    { clear. induction v as [| a v IH]; intros [| x ps] [| o0 ns] [| n nm] [| ? bs] pre h1 h2 h3 h4; cbn [length] in *; try lia; auto. cbn [enum_filter zip5 filter e_path].
      specialize (IH ps ns nm bs (pre ++ [n]) ltac:(lia) ltac:(lia) ltac:(lia) ltac:(lia)). rewrite <- app_assoc in IH. cbn [app] in IH. rewrite app_length in IH. cbn [length] in IH.
      rewrite Nat.add_1_r in IH. destruct (path_match q true x); cbn [map e_name take]; rewrite IH; [| reflexivity]. rewrite nth_error_app2, Nat.sub_diag by lia. reflexivity. }
    apply (G v ps ns nm bs []); auto.
Qed.
Print Assumptions C111_prefix.

(** two anisotropic Params without prefix share the name sigma2: the first is the one that set_by_name writes, the second the one that
    to_dict shows; with prefixes the names are distinct *)
Example C111_case : exists p1 p2 p d, make Anisotropic [0; 1] (None, None, None) "" = Some p1 /\ make Noisy [2; 3; 4] (None, None, None) "" = Some p2 /\
  param_concat [p1; p2] = Some p /\ consistent p = true /\ names p = ["sigma2"; "rho_0"; "sigma2"; "sigma2_noise"; "rho_0"] /\
  to_dict p = Some d /\ map fst d = ["sigma2"; "rho_0"; "sigma2_noise"] /\ get_by_name p "sigma2" = Some 0 /\ option_map i_value (dict_get d "sigma2") = Some 2 /\
  is_get_paths p [["covparam"; "lengthscale"]; ["covparam"; "variance"]].
Proof.
  do 4 eexists. split; [reflexivity |]. split; [reflexivity |]. split; [reflexivity |]. split; [reflexivity |]. split; [reflexivity |]. split; [reflexivity |].
  split; [reflexivity |]. split; [reflexivity |]. split; [reflexivity |]. split.
  - constructor; [intros [h | []]; discriminate | constructor; [intros [] | constructor]].
  - intro q. cbn. intuition.
Qed.
Example C111_prefix_case : exists ps p, Forall2 (fun s q => match s with (k, v, b, prefix) => make k v b prefix = Some q end)
    [(Anisotropic, [0; 1], (None, None, None), "k1_"); (Noisy, [2; 3; 4], (None, None, None), "k2_")] ps /\ param_concat ps = Some p /\ NoDup (names p).
Proof.
  do 2 eexists. assert (F : Forall2 (fun s q => match s with (k, v, b, prefix) => make k v b prefix = Some q end)
    [(Anisotropic, [0; 1], (None, None, None), "k1_"%string); (Noisy, [2; 3; 4], (None, None, None), "k2_"%string)] _) by (repeat constructor).
  split; [exact F |]. split; [reflexivity |]. refine (proj2 (C111_distinct_names _ _ _ F eq_refl) _). cbn.
  constructor; [intros [h | []]; discriminate | constructor; [intros [] | constructor]].
Qed.
