(** Property theorem C108: parameters and bounds of the diagnosis report. *)
From Coq Require Import String Ascii List Arith Reals Lia Lra Bool Permutation Sorting.Sorted.
From Verif Require Import ParamModel ParamProofs ConfigModel ReportModel.
Import ListNotations.
Local Open Scope string_scope.
Local Open Scope list_scope.
Local Open Scope R_scope.

(** ** decimal names are distinct *)
Fixpoint decode (v : nat) (s : string) : nat := match s with EmptyString => v | String c r => decode (10 * v + (nat_of_ascii c - 48)) r end.
Lemma digit_val n : (n < 10)%nat -> (nat_of_ascii (digit n) - 48 = n)%nat.
Proof. intros h. unfold digit. rewrite nat_ascii_embedding by lia. lia. Qed.
Lemma decode_aux f : forall n acc, (n < f)%nat -> decode 0 (nat_to_string_aux f n acc) = decode n acc.
Proof.
  induction f as [| f IH]; intros n acc h; [lia |]. cbn [nat_to_string_aux]. assert (m := Nat.mod_upper_bound n 10 ltac:(lia)).
  assert (e := Nat.div_mod n 10 ltac:(lia)). destruct (n / 10)%nat as [| k] eqn:E.
  - cbn [decode]. rewrite digit_val by auto. f_equal. lia.
  - rewrite IH by lia. cbn [decode]. rewrite digit_val by auto. f_equal. lia.
Qed.
Lemma nat_to_string_inj i j : nat_to_string i = nat_to_string j -> i = j.
Proof.
  intros H. assert (d : forall n, decode 0 (nat_to_string n) = n) by (intros n; unfold nat_to_string; rewrite decode_aux by lia; reflexivity).
  rewrite <- (d i), <- (d j), H. reflexivity.
Qed.
Lemma append_inj p s t : (p ++ s)%string = (p ++ t)%string -> s = t.
Proof. induction p as [| c p IH]; cbn; [auto |]. intros [= H]. auto. Qed.
Lemma rho_nodup p d k : NoDup (map (fun i => (p ++ nat_to_string i)%string) (seq k d)).
Proof.
  revert k. induction d as [| d IH]; intros k; cbn; constructor; auto. intros H. apply in_map_iff in H as (i & e & Hi).
  apply append_inj, nat_to_string_inj in e. apply in_seq in Hi. lia.
Qed.

(** ** dicts *)
Section D.
Context {A : Type}.
Lemma set_get (d : list (string * A)) k v k' : dict_get (dict_set d k v) k' = if String.eqb k' k then Some v else dict_get d k'.
Proof.
  induction d as [| [a w] d IH]; cbn; [destruct (String.eqb k' k); auto |]. destruct (String.eqb_spec k a) as [<- | ne]; cbn.
  - destruct (String.eqb k' k); auto.
  - rewrite IH. destruct (String.eqb_spec k' a) as [-> | ne']; auto. destruct (String.eqb_spec a k); congruence.
Qed.
Lemma set_keys (d : list (string * A)) k v : map fst (dict_set d k v) = map fst d ++ (if in_dec string_dec k (map fst d) then [] else [k]).
Proof.
  induction d as [| [a w] d IH]; [reflexivity |]. cbn [dict_set]. destruct (String.eqb_spec k a) as [<- | ne]; cbn [map fst].
  - destruct (in_dec string_dec k (k :: map fst d)) as [i | i]; [rewrite app_nil_r; reflexivity | exfalso; apply i; left; auto].
  - rewrite IH. cbn [app]. f_equal. f_equal. destruct (in_dec string_dec k (map fst d)) as [i | i], (in_dec string_dec k (a :: map fst d)) as [j | j]; auto.
    + exfalso. apply j. right. auto.
    + destruct j; [congruence | tauto].
Qed.
Lemma fold_get (l : list (string * A)) : forall d k, dict_get (fold_left (fun d kv => dict_set d (fst kv) (snd kv)) l d) k =
  match find (fun kv => String.eqb k (fst kv)) (rev l) with Some kv => Some (snd kv) | None => dict_get d k end.
Proof.
  induction l as [| [a w] l IH]; intros d k; cbn; auto. rewrite IH.
  assert (F : forall x y : list (string * A), find (fun kv => String.eqb k (fst kv)) (x ++ y) =
    match find (fun kv => String.eqb k (fst kv)) x with Some kv => Some kv | None => find (fun kv => String.eqb k (fst kv)) y end).
  { induction x as [| z x IHx]; intros y; cbn; auto. destruct (String.eqb k (fst z)); auto. }
  rewrite F. destruct (find _ (rev l)); auto. cbn. rewrite set_get. destruct (String.eqb k a); reflexivity.
Qed.
Lemma fold_keys (l : list (string * A)) : forall d, NoDup (map fst d) -> let d' := fold_left (fun d kv => dict_set d (fst kv) (snd kv)) l d in
  NoDup (map fst d') /\ (forall k, In k (map fst d') <-> In k (map fst d) \/ In k (map fst l)) /\ (NoDup (map fst (d ++ l)) -> d' = d ++ l).
Proof.
  induction l as [| [a w] l IH]; intros d N; cbn.
  - split; auto. split; [tauto |]. rewrite app_nil_r. reflexivity.
  - assert (N' : NoDup (map fst (dict_set d a w))).
    { rewrite set_keys. destruct (in_dec string_dec a (map fst d)) as [i | i]; [rewrite app_nil_r; auto |].
      assert (P : NoDup (a :: map fst d)) by (constructor; auto). eapply Permutation_NoDup; [| exact P]. apply Permutation_cons_append. }
    destruct (IH _ N') as (G1 & G2 & G3). split; auto. split.
    + intros k. rewrite G2, set_keys, in_app_iff. destruct (in_dec string_dec a (map fst d)) as [i | i]; cbn; [| tauto].
      split; [tauto |]. intros [h | [<- | h]]; auto.
    + intros Nd. assert (na : ~ In a (map fst d)).
      { intros i. rewrite map_app in Nd. cbn in Nd. apply NoDup_remove_2 in Nd. apply Nd. apply in_app_iff. auto. }
      assert (E : dict_set d a w = d ++ [(a, w)]).
      { clear -na. induction d as [| [b x] d IH]; cbn; auto. destruct (String.eqb_spec a b) as [<- | ne]; [exfalso; apply na; left; auto |].
        f_equal. apply IH. intros h. apply na. right. auto. }
      rewrite G3; rewrite E, <- app_assoc; auto.
Qed.
End D.
Lemma dict_nodup {A} (l : list (string * A)) : NoDup (map fst l) -> dict_of l = l.
Proof. intros N. destruct (fold_keys l [] ltac:(constructor)) as (_ & _ & G). apply G. exact N. Qed.
Lemma find_last {A} (l : list (string * A)) k : match find (fun kv => String.eqb k (fst kv)) (rev l) with
  | Some kv => exists i, nth_error l i = Some (k, snd kv) /\ forall j v, nth_error l j = Some (k, v) -> (j <= i)%nat
  | None => ~ In k (map fst l) end.
Proof.
  induction l as [| [a w] l IH] using rev_ind; cbn; [tauto |]. rewrite rev_app_distr. cbn. destruct (String.eqb_spec k a) as [<- | ne].
  - exists (length l). split; [rewrite nth_error_app2, Nat.sub_diag; auto |]. intros j v Hj.
    assert (j < length (l ++ [(k, w)]))%nat by (apply nth_error_Some; congruence). rewrite app_length in H. cbn in H. lia.
  - destruct (find _ (rev l)) as [kv |].
    + destruct IH as (i & Hi & Hl). exists i. assert (i < length l)%nat by (apply nth_error_Some; congruence). split; [rewrite nth_error_app1; auto |].
      intros j v Hj. destruct (Nat.lt_ge_cases j (length l)) as [lt | ge]; [rewrite nth_error_app1 in Hj by auto; eauto |].
      rewrite nth_error_app2 in Hj by auto. destruct (j - length l)%nat as [| m]; cbn in Hj; [injection Hj as -> ->; congruence | destruct m; discriminate].
    + rewrite map_app, in_app_iff. cbn. intros [h | [h | []]]; [auto | congruence].
Qed.
Lemma nth_combine {A B} (l : list A) (k : list B) i : nth_error (combine l k) i =
  match nth_error l i, nth_error k i with Some a, Some b => Some (a, b) | _, _ => None end.
Proof.
  revert k i. induction l as [| a l IH]; intros [| b k] [| i]; cbn; auto. destruct (nth_error l i); auto.
Qed.

(** every name of the Param is a key; its value is the denormalised value of the last entry of that name; the dict has as many
    entries as distinct names, and lists all the entries exactly when the names are distinct *)
Theorem C108_parameters : forall p, q_consistent p = true -> let d := to_simple_dict p in
  NoDup (map fst d) /\ (forall n, In n (map fst d) <-> In n (q_names p)) /\
  (forall n i v, nth_error (q_names p) i = Some n -> (forall j, nth_error (q_names p) j = Some n -> (j <= i)%nat) ->
     nth_error (q_denormalized p) i = Some v -> dict_get d n = Some v) /\
  (length d = length (q_names p) <-> NoDup (q_names p)) /\ (NoDup (q_names p) -> d = combine (q_names p) (q_denormalized p)).
Proof.
  intros p C d. unfold q_consistent in C. apply andb_true_iff in C as [C E4]. apply andb_true_iff in C as [C E3]. apply andb_true_iff in C as [E1 E2].
  apply Nat.eqb_eq in E1, E2, E3, E4. assert (L : length (q_denormalized p) = length (q_names p)) by (unfold q_denormalized; rewrite zip_with_length; congruence).
  assert (K : map fst (combine (q_names p) (q_denormalized p)) = q_names p).
  { clear -L. revert L. generalize (q_denormalized p). induction (q_names p) as [| a l IH]; intros [| b k]; cbn; intros H; try discriminate; auto. f_equal. auto. }
  destruct (fold_keys (combine (q_names p) (q_denormalized p)) [] ltac:(constructor)) as (G1 & G2 & G3). rewrite K in G2. cbn [app] in G3. rewrite K in G3.
  assert (D : NoDup (q_names p) -> d = combine (q_names p) (q_denormalized p)) by exact G3.
  assert (I : forall n, In n (map fst d) <-> In n (q_names p)) by (intros n; specialize (G2 n); cbn in G2; unfold d, to_simple_dict, dict_of; tauto).
  split; [exact G1 |]. split; [exact I |]. split; [| split; [| exact D]].
  - intros n i v Hn Hl Hv. unfold d, to_simple_dict, dict_of. rewrite fold_get. cbn.
    assert (F := find_last (combine (q_names p) (q_denormalized p)) n). rewrite K in F. destruct (find _ _) as [kv |].
    + destruct F as (k & Hk & Fk). f_equal. assert (k = i); [| subst; rewrite nth_combine, Hn, Hv in Hk; congruence].
      assert (k <= i)%nat; [apply Hl; rewrite nth_combine in Hk; destruct (nth_error (q_names p) k), (nth_error (q_denormalized p) k); congruence |].
      assert (i <= k)%nat; [apply (Fk i v); rewrite nth_combine, Hn, Hv; reflexivity | lia].
    + exfalso. apply F. eapply nth_error_In; eauto.
  - split.
    + intros e. apply NoDup_incl_NoDup with (l := map fst d); [exact G1 | rewrite map_length; lia | intros n Hn; apply I; auto].
    + intros N. rewrite (D N), combine_length. lia.
Qed.
Print Assumptions C108_parameters.

(** ** bounds *)
(** position of the covariance entries *)
Definition cov_entries (p : pparam) (inds : list nat) : Prop :=
  StronglySorted lt inds /\ forall i, In i inds <-> exists r, nth_error (q_paths p) i = Some ("covparam" :: r).
Lemma cov_entries_inds p : cov_entries p (enum_filter is_cov 0 (q_paths p)).
Proof.
  split; [apply enum_filter_sorted |]. intros i. rewrite enum_filter_in. split.
  - intros (j & a & -> & Hj & Ha). destruct a as [| s r]; [discriminate |]. cbn in Ha. apply String.eqb_eq in Ha. subst. exists r. exact Hj.
  - intros (r & H). exists i, ("covparam" :: r). auto.
Qed.
Lemma sorted_unique (l k : list nat) : StronglySorted lt l -> StronglySorted lt k -> (forall i, In i l <-> In i k) -> l = k.
Proof.
  revert k. induction l as [| a l IH]; intros [| b k] Sl Sk H; auto; try (exfalso; eapply (proj2 (H _)); left; reflexivity); try (exfalso; eapply (proj1 (H _)); left; reflexivity).
  apply StronglySorted_inv in Sl as [Sl Fl]. apply StronglySorted_inv in Sk as [Sk Fk]. rewrite Forall_forall in Fl, Fk.
  assert (a = b) as ->.
  { destruct (proj1 (H a) (or_introl eq_refl)) as [| Ha]; auto. destruct (proj2 (H b) (or_introl eq_refl)) as [| Hb]; auto. apply Fl in Hb. apply Fk in Ha. lia. }
  f_equal. apply IH; auto. intros i. split; intros Hi.
  - destruct (proj1 (H i) (or_intror Hi)) as [<- | h]; auto. apply Fl in Hi. lia.
  - destruct (proj2 (H i) (or_intror Hi)) as [<- | h]; auto. apply Fk in Hi. lia.
Qed.
Lemma fold_bound inds : forall (bs : list (fl * fl)) l, NoDup inds -> length inds = length bs -> (forall i, In i inds -> (i < length l)%nat) ->
  let l' := fold_left (fun l ib => upd l (fst ib) (stored_bound (snd ib))) (combine inds bs) l in
  length l' = length l /\ (forall k i b, nth_error inds k = Some i -> nth_error bs k = Some b -> nth_error l' i = Some (stored_bound b)) /\
  (forall i, ~ In i inds -> nth_error l' i = nth_error l i).
Proof.
  induction inds as [| j inds IH]; intros [| b bs] l N L R; try discriminate; cbn.
  - split; auto. split; auto. intros [| k] i b H; discriminate.
  - inversion N; subst. destruct (IH bs (upd l j (stored_bound b))) as (G1 & G2 & G3); auto.
    { intros i Hi. rewrite upd_length. apply R. right; auto. }
    split; [rewrite G1; apply upd_length |]. split.
    + intros [| k] i c Hk Hb; cbn in *; [| eapply G2; eauto]. injection Hk as ->. injection Hb as ->. rewrite G3 by auto. apply upd_same. apply R. left; auto.
    + intros i h. rewrite G3 by (intro; apply h; right; auto). apply upd_other. intros ->. apply h. left; auto.
Qed.
Lemma nth_firstn' {A} n : forall (l : list A) i, (i < n)%nat -> nth_error (firstn n l) i = nth_error l i.
Proof. induction n as [| n IH]; intros [| a l] [| i] h; cbn; auto; try lia. apply IH. lia. Qed.
Lemma nth_skip {A} n : forall (l : list A) i, nth_error (skipn n l) i = nth_error l (n + i).
Proof. induction n as [| n IH]; intros [| a l] i; cbn; auto. destruct i; reflexivity. Qed.
Definition start (mean : option (list R)) : nat := match mean with None => 0%nat | Some m => length m end.
(** bounds reach the Param exactly when the array has two columns and enough rows and the Param has as many covariance entries as
    the model; then the k-th covariance entry gets row (number of mean parameters + k), [None] if both sides are infinite *)
Theorem C108_bounds : forall ty cov mean p b inds, q_consistent p = true -> cov_entries p inds ->
  exists p', report_param ty cov mean (Some p) b = Some p' /\ q_values p' = q_values p /\ q_paths p' = q_paths p /\ q_norms p' = q_norms p /\ q_names p' = q_names p /\
  q_consistent p' = true /\
  (forall l, b = Pairs l -> (start mean + length cov <= length l)%nat -> length inds = length cov ->
     (forall k i lo hi, nth_error inds k = Some i -> nth_error l (start mean + k) = Some (lo, hi) ->
        nth_error (q_bounds p') i = Some (if is_inf lo && is_inf hi then None else Some (lo, hi))) /\
     (forall i, ~ In i inds -> nth_error (q_bounds p') i = nth_error (q_bounds p) i)) /\
  ((match b with Pairs l => (length l < start mean + length cov)%nat \/ length inds <> length cov | _ => True end) -> p' = p).
Proof.
  intros ty cov mean p b inds C CE. unfold report_param. fold (start mean).
  assert (E : inds = enum_filter is_cov 0 (q_paths p)).
  { destruct CE as [S1 H1]. destruct (cov_entries_inds p) as [S2 H2]. apply sorted_unique; auto. intros i. rewrite H1, H2. tauto. }
  destruct b as [| l |]; [exists p; repeat split; auto; try discriminate | | exists p; repeat split; auto; try discriminate].
  destruct (Nat.leb_spec (start mean + length cov) (length l)) as [le | gt].
  - set (bs := firstn (length cov) (skipn (start mean) l)).
    assert (Lb : length bs = length cov) by (unfold bs; rewrite firstn_length, skipn_length; lia).
    unfold apply_cov_bounds. rewrite <- E, Lb. destruct (Nat.eqb_spec (length inds) (length cov)) as [e | ne].
    + assert (C' := C). unfold q_consistent in C'. apply andb_true_iff in C' as [C' E4]. apply andb_true_iff in C' as [C' E3]. apply andb_true_iff in C' as [E1 E2].
      apply Nat.eqb_eq in E1, E2, E3, E4.
      destruct (fold_bound inds bs (q_bounds p)) as (G1 & G2 & G3); [apply sorted_nodup; apply CE | congruence | |].
      { intros i Hi. apply CE in Hi as (r & Hr). rewrite <- E3, <- E2, <- E1. apply nth_error_Some. congruence. }
      eexists. split; [reflexivity |]. cbn [q_values q_paths q_norms q_names q_bounds]. repeat split; auto.
      * unfold q_consistent in *. cbn [q_values q_paths q_norms q_names q_bounds]. rewrite G1. exact C.
      * injection H as <-. intros k i lo hi Hk Hb. apply (G2 k i (lo, hi) Hk). unfold bs. rewrite nth_firstn'; [| rewrite <- e; apply nth_error_Some; congruence].
        rewrite nth_skip. exact Hb.
      * intros [h | h]; [lia | congruence].
    + exists p. repeat split; auto; intros; congruence.
  - exists p. repeat split; auto; intros; injection H as <-; lia.
Qed.
Print Assumptions C108_bounds.

(** ** the Param built when none is given *)
Lemma zip_seq {A B} (f : nat -> B) (g : A -> R) (l : list A) : forall k,
  combine (map f (seq k (length l))) (map g l) = zip_with (fun i x => (f i, g x)) (seq k (length l)) l.
Proof. induction l as [| a l IH]; intros k; cbn; auto. f_equal. apply IH. Qed.
Lemma zip_repeat (f : R -> normalization -> R) n (l : list R) : zip_with f l (repeat n (length l)) = map (fun x => f x n) l.
Proof. induction l as [| a l IH]; cbn; auto. f_equal. auto. Qed.
Lemma fst_zip {A} (f : nat -> string) (g : A -> R) (l : list A) : forall k, map fst (zip_with (fun i x => (f i, g x)) (seq k (length l)) l) = map f (seq k (length l)).
Proof. induction l as [| a l IH]; intros k; cbn; auto. f_equal. apply IH. Qed.
Lemma nth_zip {A} (f : nat -> string) (g : A -> R) (l : list A) : forall k i x, nth_error l i = Some x ->
  nth_error (zip_with (fun i x => (f i, g x)) (seq k (length l)) l) i = Some (f (k + i)%nat, g x).
Proof.
  induction l as [| a l IH]; intros k [| i] x H; cbn in *; try discriminate; [injection H as ->; rewrite Nat.add_0_r; reflexivity |].
  rewrite (IH (S k) i x H). do 2 f_equal. f_equal. lia.
Qed.
Lemma get_in {A} (d : list (string * A)) i k v : NoDup (map fst d) -> nth_error d i = Some (k, v) -> dict_get d k = Some v.
Proof.
  revert i. induction d as [| [a w] d IH]; intros [| i] N H; cbn in *; try discriminate.
  - injection H as -> ->. rewrite String.eqb_refl. reflexivity.
  - inversion N; subst. destruct (String.eqb_spec k a) as [-> | ne]; [| eapply IH; eauto]. exfalso. apply H2. change a with (fst (a, v)). apply in_map. eapply nth_error_In; eauto.
Qed.
Lemma rho_notin s d : (forall i, s <> ("rho_" ++ nat_to_string i)%string) -> ~ In s (map (fun i => ("rho_" ++ nat_to_string i)%string) (seq 0 d)).
Proof. intros h i. apply in_map_iff in i as (k & e & _). apply (h k). auto. Qed.
(** the report of an anisotropic model lists sigma2 = exp(covparam[0]) and rho_i = exp(-covparam[i+1]), the square of sigma and the
    ranges of sigma_rho_from_covparam; the noisy one has the noise variance in between; other types, and vectors too short for the type,
    are refused *)
Theorem C108_default : forall mean,
  (forall c0 r, exists p, report_param "linear_mean_matern_anisotropic" (c0 :: r) mean None NoBounds = Some p /\ q_consistent p = true /\ q_values p = c0 :: r /\
     to_simple_dict p = ("sigma2", exp c0) :: zip_with (fun i x => (("rho_" ++ nat_to_string i)%string, exp (- x))) (seq 0 (length r)) r /\
     cov_entries p (seq 0 (S (length r))) /\
     exists d, sigma_rho (c0 :: r) = Some d /\ (exists s, dict_get d "sigma" = Some s /\ dict_get (to_simple_dict p) "sigma2" = Some (s * s)) /\
       forall i, (i < length r)%nat -> dict_get (to_simple_dict p) ("rho_" ++ nat_to_string i)%string = dict_get d ("rho" ++ nat_to_string i)%string) /\
  (forall c0 c1 r, exists p, report_param "linear_mean_matern_anisotropic_noisy" (c0 :: c1 :: r) mean None NoBounds = Some p /\ q_consistent p = true /\
     to_simple_dict p = ("sigma2", exp c0) :: ("sigma2_noise", exp c1) :: zip_with (fun i x => (("rho_" ++ nat_to_string i)%string, exp (- x))) (seq 0 (length r)) r /\
     cov_entries p (seq 0 (2 + length r))) /\
  (forall ty cov b, ty <> "linear_mean_matern_anisotropic" -> ty <> "linear_mean_matern_anisotropic_noisy" -> report_param ty cov mean None b = None) /\
  (forall b, report_param "linear_mean_matern_anisotropic" [] mean None b = None /\ report_param "linear_mean_matern_anisotropic_noisy" [] mean None b = None /\
     forall c, report_param "linear_mean_matern_anisotropic_noisy" [c] mean None b = None).
Proof.
  intros mean.
  assert (SQ : forall n, StronglySorted lt (seq 0 n)).
  { intros n. generalize 0%nat. induction n as [| n IH]; intros k; cbn; constructor; auto. apply Forall_forall. intros i Hi. apply in_seq in Hi. lia. }
  assert (CE : forall (p : pparam) n, length (q_paths p) = n -> Forall (fun a => exists r, a = "covparam" :: r) (q_paths p) -> cov_entries p (seq 0 n)).
  { intros p n L F. split; [apply SQ |]. intros i. rewrite in_seq. split.
    - intros h. destruct (nth_error (q_paths p) i) as [a |] eqn:E; [| apply nth_error_None in E; lia]. rewrite Forall_forall in F.
      destruct (F a) as [r ->]; [eapply nth_error_In; eauto | eauto].
    - intros (r & H). assert (i < length (q_paths p))%nat by (apply nth_error_Some; congruence). lia. }
  split; [| split; [| split]].
  - intros c0 r. unfold report_param. rewrite String.eqb_refl. unfold build_anisotropic. cbn [length]. replace (S (length r) - 1)%nat with (length r) by lia.
    match goal with |- context [if q_consistent ?p then _ else _] => set (P := p) end.
    assert (Q : q_consistent P = true). { unfold q_consistent, P. cbn. rewrite map_length, seq_length, !repeat_length, !Nat.eqb_refl. reflexivity. }
    rewrite Q. exists P. split; [reflexivity |]. split; [exact Q |]. split; [reflexivity |].
    assert (N : NoDup (q_names P)). { unfold P. cbn [q_names]. constructor; [apply rho_notin; discriminate | apply rho_nodup]. }
    destruct (C108_parameters P Q) as (_ & _ & _ & _ & D). specialize (D N).
    assert (D2 : to_simple_dict P = ("sigma2", exp c0) :: zip_with (fun i x => (("rho_" ++ nat_to_string i)%string, exp (- x))) (seq 0 (length r)) r).
    { rewrite D. unfold q_denormalized, P. cbn [q_names q_values q_norms zip_with combine denormalize]. f_equal. rewrite zip_repeat. cbn [denormalize].
      apply (zip_seq (fun i => ("rho_" ++ nat_to_string i)%string) (fun x => exp (- x)) r 0). }
    split; [exact D2 |]. split.
    { apply CE; [cbn; rewrite repeat_length; reflexivity |]. cbn. constructor; [eauto |]. apply Forall_forall. intros a Ha. apply repeat_spec in Ha as ->. eauto. }
    assert (N2 : NoDup (map fst (("sigma", exp (0.5 * c0)) :: zip_with (fun i x => (("rho" ++ nat_to_string i)%string, exp (- x))) (seq 0 (length r)) r))).
    { cbn [map fst]. rewrite (fst_zip (fun i => ("rho" ++ nat_to_string i)%string) (fun x => exp (- x)) r 0). constructor; [| apply rho_nodup].
      intros h. apply in_map_iff in h as (k & e & _). discriminate. }
    eexists. split; [cbn [sigma_rho]; rewrite (dict_nodup _ N2); reflexivity |]. split.
    + exists (exp (0.5 * c0)). split; [reflexivity |]. rewrite D2. cbn [dict_get String.eqb Ascii.eqb Bool.eqb]. rewrite <- exp_plus. do 2 f_equal. lra.
    + intros i hi. destruct (nth_error r i) as [x |] eqn:Ex; [| apply nth_error_None in Ex; lia].
      assert (A1 := nth_zip (fun i => ("rho_" ++ nat_to_string i)%string) (fun x => exp (- x)) r 0 i x Ex).
      assert (A2 := nth_zip (fun i => ("rho" ++ nat_to_string i)%string) (fun x => exp (- x)) r 0 i x Ex). cbn [Nat.add] in A1, A2.
      rewrite (get_in _ (S i) _ (exp (- x)) N2); [| exact A2]. apply get_in with (i := S i); [apply C108_parameters; exact Q |]. rewrite D2. exact A1.
  - intros c0 c1 r. unfold report_param. cbn [String.eqb]. unfold build_noisy. cbn [length]. replace (S (S (length r)) - 2)%nat with (length r) by lia.
    match goal with |- context [if q_consistent ?p then _ else _] => set (P := p) end.
    assert (Q : q_consistent P = true). { unfold q_consistent, P. cbn. rewrite map_length, seq_length, !repeat_length, !Nat.eqb_refl. reflexivity. }
    rewrite Q. exists P. split; [reflexivity |]. split; [exact Q |].
    assert (N : NoDup (q_names P)). { unfold P. cbn [q_names]. constructor; [intros [h | h]; [discriminate | revert h; apply rho_notin; discriminate] |]. constructor; [apply rho_notin; discriminate | apply rho_nodup]. }
    destruct (C108_parameters P Q) as (_ & _ & _ & _ & D). specialize (D N). split.
    + rewrite D. unfold q_denormalized, P. cbn [q_names q_values q_norms zip_with combine denormalize]. do 2 f_equal. rewrite zip_repeat. cbn [denormalize].
      apply (zip_seq (fun i => ("rho_" ++ nat_to_string i)%string) (fun x => exp (- x)) r 0).
    + apply CE; [cbn; rewrite repeat_length; reflexivity |]. cbn. constructor; [eauto |]. constructor; [eauto |]. apply Forall_forall. intros a Ha. apply repeat_spec in Ha as ->. eauto.
  - intros ty cov b h1 h2. unfold report_param. apply String.eqb_neq in h1, h2. rewrite h1, h2. reflexivity.
  - intros b. repeat split.
Qed.
Print Assumptions C108_default.
(** a Param with a mean entry between two covariance entries, one bound infinite on both sides *)
Example C108_case : let p := mkPP [0; 1; 2] [["covparam"; "variance"]; ["meanparam"]; ["covparam"; "lengthscale"]] [LOG; NONE; LOG_INV] ["a"; "m"; "b"] [None; None; None] in
  q_consistent p = true /\ cov_entries p [0; 2]%nat /\
  report_param "any" [0; 2] (Some [1]) (Some p) (Pairs [(NInf, PInf); (Fin (-3), Fin 3); (NInf, PInf)])
  = Some (mkPP [0; 1; 2] (q_paths p) (q_norms p) (q_names p) [Some (Fin (-3), Fin 3); None; None]).
Proof. split; [reflexivity |]. split; [apply cov_entries_inds | reflexivity]. Qed.
