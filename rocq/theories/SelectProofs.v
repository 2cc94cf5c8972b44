(** Proofs about parameter selection (C45-C47, C76). *)
From Coq Require Import List Arith Reals Bool Lra Lia.
From Verif Require Import ConfigModel FlModel PriorModel PriorProofs SelectModel.
Import ListNotations.

(** * order on extended floats *)
Lemma fl_le_refl a : a <> NaN -> fl_le a a = true.
Proof. destruct a; simpl; auto; intros H; try congruence. destruct (Rle_dec x x); auto. lra. Qed.
Lemma fl_le_trans a b c : fl_le a b = true -> fl_le b c = true -> fl_le a c = true.
Proof.
  destruct a, b, c; simpl; auto; try discriminate.
  destruct (Rle_dec x x0), (Rle_dec x0 x1), (Rle_dec x x1); auto; lra.
Qed.
Lemma fl_lt_le a b : fl_lt a b = true -> fl_le a b = true.
Proof.
  destruct a, b; simpl; auto; try discriminate. destruct (Rlt_dec x x0), (Rle_dec x x0); auto; lra.
Qed.
Lemma fl_lt_nlt a b : a <> NaN -> b <> NaN -> fl_lt a b = false -> fl_le b a = true.
Proof.
  destruct a, b; simpl; auto; try congruence. intros _ _. destruct (Rlt_dec x x0), (Rle_dec x0 x); auto; try discriminate; lra.
Qed.
Lemma fl_lt_nan a b : fl_lt a b = true -> a <> NaN /\ b <> NaN.
Proof. destruct a, b; simpl; split; congruence. Qed.
Lemma fl_le_lt_trans a b c : fl_le a b = true -> fl_lt b c = true -> fl_lt a c = true.
Proof.
  destruct a, b, c; simpl; auto; try discriminate.
  destruct (Rle_dec x x0), (Rlt_dec x0 x1), (Rlt_dec x x1); auto; lra.
Qed.
Lemma fl_lt_not_le a b : fl_lt a b = true -> fl_le b a = false.
Proof. destruct a, b; simpl; auto; try discriminate. destruct (Rlt_dec x x0), (Rle_dec x0 x); auto; try discriminate; lra. Qed.

(** * C45 *)
Section A.
Variables P St : Type.
Variable criterion : P -> St -> outcome * St.
(** the number an evaluation answers with *)
Definition answers (o : outcome) (J : fl) : Prop :=
  match o with Value v => J = v | LinalgError => J = PInf | OtherError => False end.
(** [run s st l e]: playing [s] makes the evaluations [l] (point, answer) in this order and ends
    with the optimiser's result [e], or with an exception (None) *)
Inductive run : strat P -> St -> list (P * fl) -> option (P * fl) -> Prop :=
| run_done x f st : run (Done x f) st [] (Some (x, f))
| run_raise st : run Raise st [] None
| run_ask p k st o st' J l e :
    criterion p st = (o, st') -> answers o J -> run (k J) st' l e -> run (Ask p k) st ((p, J) :: l) e
| run_err p k st st' : criterion p st = (OtherError, st') -> run (Ask p k) st [] None.

Definition inv (h : hist P) : Prop :=
  best_criterion P h <> NaN /\
  ((best_params P h = None /\ best_criterion P h = PInf) \/
   (exists p, best_params P h = Some p /\ In (p, best_criterion P h) (visited P h))) /\
  forall p J, In (p, J) (visited P h) -> J <> NaN -> fl_le (best_criterion P h) J = true.
Lemma inv0 : inv (hist0 P).
Proof. split; [discriminate|]. split; [left; auto|]. simpl; tauto. Qed.
Lemma inv_record h p J : inv h -> inv (record P h p J).
Proof.
  intros (Hn & Hb & Hm). unfold record. destruct (fl_lt J (best_criterion P h)) eqn:E.
  - destruct (fl_lt_nan _ _ E) as [HJ _]. split; [exact HJ|]. split.
    + right. exists p. split; auto. simpl. apply in_or_app; right; left; auto.
    + simpl. intros q K HI HK. apply in_app_or in HI. destruct HI as [HI|[HI|[]]].
      * eapply fl_le_trans; [apply fl_lt_le, E|]. eapply Hm; eauto.
      * injection HI; intros; subst. apply fl_le_refl; auto.
  - split; [exact Hn|]. split.
    + destruct Hb as [[H1 H2]|(q & H1 & H2)]; [left; auto|]. right. exists q. split; auto.
      simpl. apply in_or_app; auto.
    + simpl. intros q K HI HK. apply in_app_or in HI. destruct HI as [HI|[HI|[]]].
      * eapply Hm; eauto.
      * injection HI; intros; subst. apply fl_lt_nlt; auto.
Qed.
Lemma visited_record h p J : visited P (record P h p J) = visited P h ++ [(p, J)].
Proof. unfold record. destruct (fl_lt _ _); auto. Qed.

Lemma minimize_run s : forall st h, inv h -> exists l e, run s st l e /\
  match e with
  | None => minimize P St criterion s st h = None
  | Some (x, f) => exists h', minimize P St criterion s st h = Some (x, f, h') /\
      visited P h' = visited P h ++ l /\ inv h'
  end.
Proof.
  induction s as [x f|p k IH|]; intros st h Hh.
  - exists [], (Some (x, f)). split; [constructor|]. exists h. split; auto. rewrite app_nil_r; auto.
  - destruct (criterion p st) as [o st'] eqn:E.
    assert (K : forall J, answers o J -> exists l e, run (Ask p k) st l e /\
       match e with
       | None => minimize P St criterion (k J) st' (record P h p J) = None
       | Some (x, f) => exists h', minimize P St criterion (k J) st' (record P h p J) = Some (x, f, h') /\
           visited P h' = visited P h ++ l /\ inv h' end).
    { intros J HJ. destruct (IH J st' (record P h p J) (inv_record h p J Hh)) as (l & e & R & M).
      exists ((p, J) :: l), e. split; [econstructor; eauto|].
      destruct e as [[x f]|]; auto. destruct M as (h' & M1 & M2 & M3). exists h'. split; auto. split; auto.
      rewrite M2, visited_record, <- app_assoc. reflexivity. }
    simpl. unfold criterion_with_history. rewrite E. destruct o as [J| |].
    + exact (K J eq_refl).
    + exact (K PInf eq_refl).
    + exists [], None. split; auto. eapply run_err; eauto.
  - exists [], None. split; auto. constructor.
Qed.
Lemma run_det s : forall st l e l' e', run s st l e -> run s st l' e' -> l = l' /\ e = e'.
Proof.
  induction s as [x f|p k IH|]; intros st l e l' e' R R'.
  - inversion R; inversion R'; subst; auto.
  - inversion R as [|? |? ? ? o s1 J l1 e1 C1 A1 R1|? ? ? s1 C1]; subst;
      inversion R' as [|? |? ? ? o' s1' J' l1' e1' C1' A1' R1'|? ? ? s1' C1']; subst;
      rewrite C1 in C1'; injection C1'; intros; subst; auto; try contradiction.
    assert (J' = J) by (destruct o'; simpl in *; subst; auto; tauto). subst.
    destruct (IH _ _ _ _ _ _ R1 R1'); subst; auto.
  - inversion R; inversion R'; subst; auto.
Qed.
Lemma autoselect_none s st : autoselect P St criterion s st = None <-> exists l, run s st l None.
Proof.
  destruct (minimize_run s st (hist0 P) inv0) as (l & e & R & M). unfold autoselect.
  split.
  - destruct e as [[x f]|]; [|intros; eauto]. destruct M as (h' & M1 & _). rewrite M1.
    destruct (fl_lt _ _); discriminate.
  - intros (l' & R'). destruct (run_det s _ _ _ _ _ R R') as [_ ->]. rewrite M. auto.
Qed.
Lemma autoselect_some s st r : autoselect P St criterion s st = Some r ->
  exists x f, run s st (history P r) (Some (x, f)) /\
   (f <> NaN -> forall p J, In (p, J) (history P r) -> J <> NaN -> fl_le (r_fun P r) J = true) /\
   ((best_value_returned P r = true /\ r_x P r = Some x /\ r_fun P r = f) \/
    (best_value_returned P r = false /\ fl_lt (r_fun P r) f = true /\
     exists p, r_x P r = Some p /\ In (p, r_fun P r) (history P r))) /\
   (best_value_returned P r = false <-> exists p J, In (p, J) (history P r) /\ fl_lt J f = true).
Proof.
  destruct (minimize_run s st (hist0 P) inv0) as (l & e & R & M). unfold autoselect.
  destruct e as [[x f]|]; [|rewrite M; discriminate]. destruct M as (h & M1 & M2 & (I1 & I2 & I3)).
  rewrite M1. simpl in M2. rewrite <- M2 in R.
  assert (B : fl_lt (best_criterion P h) f = true <-> exists p J, In (p, J) (visited P h) /\ fl_lt J f = true).
  { split.
    - intros L. destruct I2 as [[_ I2]|(p & _ & I2)].
      + rewrite I2 in L. destruct f; discriminate.
      + eauto.
    - intros (p & J & H1 & H2). eapply fl_le_lt_trans; eauto. apply (I3 p J H1). apply (fl_lt_nan _ _ H2). }
  destruct (fl_lt (best_criterion P h) f) eqn:L; intros E; injection E as <-; simpl; exists x, f; split; auto; split.
  - intros _ p J H1 H2. eauto.
  - split; [|split; [intros _; apply B|]; auto].
    right. split; auto. split; auto. destruct I2 as [[_ I2]|(p & I2 & I4)]; [rewrite I2 in L; destruct f; discriminate|].
    exists p; auto.
  - intros Hf p J H1 H2. eapply fl_le_trans; [|apply (I3 p J H1 H2)]. apply fl_lt_nlt; auto.
  - split; [left; auto|]. split; [discriminate|]. intros H. apply B in H. discriminate.
Qed.
End A.

(** selection with a deterministic criterion *)
Section B.
Variable crit : option (list R) -> list R -> outcome.
(** the value the user sees at given parameters of a model *)
Definition value_at (pm : bool) (m : gp_model) (v : fl) : Prop :=
  exists c, m_covparam m = Some c /\
    (if pm then exists mu, m_meanparam m = Some mu /\ answers (crit (Some mu) c) v else answers (crit None c) v).
(** the optimiser reports the criterion at the point it returns *)
Definition honest (pm : bool) (k : nat) (s : strat (list R)) : Prop :=
  forall l x f, run _ _ (crit_ crit pm k) s tt l (Some (x, f)) -> answers (fst (crit_ crit pm k x tt)) f.
Lemma run_values pm k s : forall l e, run _ _ (crit_ crit pm k) s tt l e ->
  forall p J, In (p, J) l -> answers (fst (crit_ crit pm k p tt)) J.
Proof.
  induction s as [x f|p K IH|]; intros l e H; inversion H; subst; try (intros q J' []; fail).
  intros q J' [E|HI].
  - injection E; intros; subst. rewrite H2. auto.
  - destruct st'. eapply IH; eauto.
Qed.
Lemma select_some guess opt m mp0 cp0 pm k m' r :
  select_with crit guess opt m mp0 cp0 pm k = Some (m', r) ->
  exists p0 x, autoselect _ _ (crit_ crit pm k) (opt p0) tt = Some r /\ r_x _ r = Some x /\
    (if pm then exists mu0, mp0 = Some mu0 /\ p0 = mu0 ++ match cp0 with Some c => c | None => guess end
     else p0 = match cp0 with Some c => c | None => guess end) /\
    m' = if pm then mkModel (Some (firstn k x)) (Some (skipn k x)) else mkModel (m_meanparam m) (Some x).
Proof.
  unfold select_with. set (c0 := match cp0 with Some c => c | None => guess end).
  destruct pm.
  - destruct mp0 as [mu|]; simpl; [|discriminate].
    destruct (autoselect _ _ _ (opt (mu ++ c0)) tt) as [r'|] eqn:E; [|discriminate].
    destruct (r_x _ r') as [x|] eqn:Ex; [|discriminate]. intros H; injection H as <- <-.
    exists (mu ++ c0), x. split; auto. split; auto. split; auto. exists mu; auto.
  - destruct (autoselect _ _ _ (opt c0) tt) as [r'|] eqn:E; [|discriminate].
    destruct (r_x _ r') as [x|] eqn:Ex; [|discriminate]. intros H; injection H as <- <-.
    exists c0, x. split; auto.
Qed.
Lemma selected_value guess opt m mp0 cp0 pm k m' r :
  (forall p0, honest pm k (opt p0)) ->
  select_with crit guess opt m mp0 cp0 pm k = Some (m', r) -> value_at pm m' (r_fun _ r).
Proof.
  intros Hh E. destruct (select_some _ _ _ _ _ _ _ _ _ E) as (p0 & x & A & X & _ & ->).
  destruct (autoselect_some _ _ _ _ _ _ A) as (x' & f & R & _ & D & _).
  assert (V : answers (fst (crit_ crit pm k x tt)) (r_fun _ r)).
  { destruct D as [(_ & X' & ->)|(_ & _ & p & X' & I)].
    - rewrite X in X'. injection X' as <-. eapply Hh; eauto.
    - rewrite X in X'. injection X' as <-. eapply run_values; eauto. }
  unfold crit_ in V. destruct pm; simpl in *.
  - exists (skipn k x). split; auto. exists (firstn k x); auto.
  - exists x; auto.
Qed.
End B.

(** * C46 *)
Section Bd.
Local Open Scope R_scope.
Lemma Rabs_bd p a : Rabs p <= a -> - a <= p <= a.
Proof. unfold Rabs. destruct (Rcase_abs p); lra. Qed.
Lemma bound_contains delta p : 0 <= delta ->
  (fst (auto_bound delta p) <= p <= snd (auto_bound delta p) <-> Rabs p <= 500).
Proof.
  intros Hd. unfold auto_bound; simpl. split.
  - intros [H1 H2]. assert (A := Rmax_r (p - delta) (-500)). assert (B := Rmin_r (p + delta) 500).
    apply Rabs_le. lra.
  - intros H. assert (G := Rabs_bd p 500 H). split.
    + apply Rmax_lub; lra.
    + apply Rmin_glb; lra.
Qed.
Lemma bound_ordered delta p : 0 <= delta ->
  (fst (auto_bound delta p) <= snd (auto_bound delta p) <-> Rabs p <= 500 + delta).
Proof.
  intros Hd. unfold auto_bound; simpl. split.
  - intros H. assert (A := Rmax_l (p - delta) (-500)). assert (A' := Rmax_r (p - delta) (-500)).
    assert (B := Rmin_l (p + delta) 500). assert (B' := Rmin_r (p + delta) 500).
    apply Rabs_le. lra.
  - intros H. assert (G := Rabs_bd p (500 + delta) H).
    apply Rmax_lub; apply Rmin_glb; lra.
Qed.
Lemma bound_width delta p : 0 <= delta -> Rabs p + delta <= 500 -> auto_bound delta p = (p - delta, p + delta).
Proof.
  intros Hd H. unfold auto_bound. assert (H0 : Rabs p <= 500 - delta) by lra. assert (G := Rabs_bd p (500 - delta) H0). rewrite Rmax_left, Rmin_left by lra. auto.
Qed.
Lemma fold_plus l : forall a, fold_left Rplus l a = a + fold_left Rplus l 0.
Proof. induction l as [|b l IH]; simpl; intros a; [lra|]. rewrite (IH (a + b)), (IH (0 + b)). ring. Qed.
Lemma sum_cons a l : sum_list (a :: l) = a + sum_list l.
Proof. unfold sum_list. simpl. rewrite (fold_plus l (0 + a)). ring. Qed.
Lemma sum_app l l' : sum_list (l ++ l') = sum_list l + sum_list l'.
Proof. induction l as [|a l IH]; simpl app; [unfold sum_list at 2; simpl; ring|]. rewrite !sum_cons, IH. ring. Qed.
Lemma sum_list_pos l : (forall x, In x l -> 0 <= x) -> 0 <= sum_list l /\ (sum_list l = 0 <-> forall x, In x l -> x = 0).
Proof.
  induction l as [|a l IH]; intros H.
  - unfold sum_list; simpl. split; [lra|]. split; auto. intros _ x [].
  - rewrite sum_cons. simpl in *. destruct IH as [IH1 IH2]; [auto|]. assert (0 <= a) by auto. split; [lra|]. split.
    + intros E. assert (a = 0) by lra. intros x [<-|Hx]; auto. apply IH2; auto. lra.
    + intros E. rewrite (E a) by auto. rewrite (proj2 IH2); [lra|auto].
Qed.
Lemma variance_spec z : z <> [] ->
  0 <= pop_variance z /\ (pop_variance z = 0 <-> forall a b, In a z -> In b z -> a = b).
Proof.
  intros Hz. unfold pop_variance. set (n := INR (length z)). set (m := sum_list z / n).
  assert (Hn : 0 < n). { unfold n. apply lt_0_INR. destruct z; simpl; [congruence|lia]. }
  destruct (sum_list_pos (map (fun v => (v - m) * (v - m)) z)) as [S1 S2].
  { intros x Hx. apply in_map_iff in Hx. destruct Hx as (v & <- & _). apply Rle_0_sqr. }
  split; [apply Rmult_le_pos; [auto|left; apply Rinv_0_lt_compat; auto]|].
  split.
  - intros E a b Ha Hb. assert (E' : sum_list (map (fun v => (v - m) * (v - m)) z) = 0).
    { apply (f_equal (fun t => t * n)) in E. unfold Rdiv in E. rewrite Rmult_assoc, Rinv_l, Rmult_1_r, Rmult_0_l in E by lra. auto. }
    assert (Q : forall v, In v z -> v = m).
    { intros v Hv. assert ((v - m) * (v - m) = 0) by (apply S2; auto; apply in_map_iff; eauto).
      apply Rsqr_0_uniq in H. lra. }
    rewrite (Q a Ha), (Q b Hb); auto.
  - intros Hall. rewrite (proj2 S2); [field; lra|]. intros x Hx. apply in_map_iff in Hx. destruct Hx as (v & <- & Hv).
    assert (Hm : m = v); [|rewrite Hm; ring].
    unfold m. assert (sum_list z = n * v); [|rewrite H; field; lra].
    unfold n. clear -Hall Hv. assert (G : forall w, In w z -> w = v) by auto. clear Hall Hv.
    induction z as [|a z IH]; [unfold sum_list; simpl; ring|].
    cbn [length]. rewrite S_INR, sum_cons. rewrite IH by (intros; apply G; right; auto).
    rewrite (G a) by (left; auto). ring.
Qed.
End Bd.

(** * C47 *)
Section C47.
Variables P B : Type.
Variable size : B -> nat.
Variable crit : P -> B -> outcome.
Variable loader : nat -> list B.
(** the i-th batch of the successive epochs put end to end *)
Definition stream (i : nat) : option B := nth_error (concat (map loader (seq 0 (S i)))) i.
Definition epochs (e : nat) : list B := concat (map loader (seq 0 e)).
Definition nonempty : Prop := forall e, loader e <> [].
Lemma epochs_S e : epochs (S e) = epochs e ++ loader e.
Proof. unfold epochs. rewrite seq_S, map_app, concat_app. simpl. rewrite app_nil_r. auto. Qed.
Lemma epochs_len e : nonempty -> e <= length (epochs e).
Proof.
  intros H. induction e as [|e IH]; [simpl; lia|]. rewrite epochs_S, app_length.
  specialize (H e). destruct (loader e); [congruence|simpl; lia].
Qed.
Lemma epochs_prefix e e' : e <= e' -> exists t, epochs e' = epochs e ++ t.
Proof.
  intros H. induction H as [|e' H IH]; [exists []; rewrite app_nil_r; auto|].
  destruct IH as [t Ht]. exists (t ++ loader e'). rewrite epochs_S, Ht, app_assoc. auto.
Qed.
Lemma stream_epochs i e : nonempty -> i < length (epochs e) -> stream i = nth_error (epochs e) i.
Proof.
  intros Hn H. unfold stream. fold (epochs (S i)).
  assert (L : S i <= length (epochs (S i))) by (apply epochs_len; auto).
  destruct (le_ge_dec (S i) e) as [C|C].
  - destruct (epochs_prefix _ _ C) as [t ->]. rewrite nth_error_app1 by lia. auto.
  - destruct (epochs_prefix _ _ C) as [t Ht]. rewrite Ht. rewrite nth_error_app1 by lia. auto.
Qed.
Definition at_pos (st : batch_state B) (i : nat) : Prop :=
  i <= length (epochs (opened B st)) /\ rest B st = skipn i (epochs (opened B st)).
Lemma init_pos bpe : bpe <> 0 -> at_pos (batch_init B loader bpe) 0.
Proof.
  intros H. unfold batch_init. destruct (Nat.eqb_spec bpe 0); [lia|]. split; [simpl; lia|].
  simpl. unfold epochs; simpl. rewrite app_nil_r. auto.
Qed.
Lemma skipn_cons {V} (l : list V) i b t : skipn i l = b :: t -> nth_error l i = Some b /\ skipn (S i) l = t /\ i < length l.
Proof.
  revert l. induction i as [|i IH]; intros [|a l] H; simpl in *; try discriminate.
  - injection H as -> ->. repeat split; lia.
  - destruct (IH _ H) as (H1 & H2 & H3). repeat split; auto. lia.
Qed.
Lemma next_pos st i : nonempty -> at_pos st i ->
  exists b st', next_batch B loader st = (Some b, st') /\ stream i = Some b /\ at_pos st' (S i).
Proof.
  intros Hn [Hi Hr]. unfold next_batch. destruct (rest B st) as [|b l] eqn:E.
  - assert (L : i = length (epochs (opened B st))).
    { assert (L := skipn_length i (epochs (opened B st))). rewrite <- Hr in L. simpl in L. lia. }
    destruct (loader (opened B st)) as [|b l] eqn:El; [destruct (Hn _ El)|].
    exists b. eexists. split; [reflexivity|].
    assert (Es : epochs (S (opened B st)) = epochs (opened B st) ++ b :: l) by (rewrite epochs_S, El; auto).
    split.
    + rewrite (stream_epochs i (S (opened B st))); auto; rewrite Es.
      * rewrite nth_error_app2 by lia. rewrite L, Nat.sub_diag. auto.
      * rewrite app_length; simpl; lia.
    + split; simpl opened; rewrite Es.
      * rewrite app_length; simpl; lia.
      * simpl rest. rewrite skipn_app. rewrite skipn_all2 by lia. rewrite L.
        replace (S (length (epochs (opened B st))) - length (epochs (opened B st))) with 1 by lia. reflexivity.
  - symmetry in Hr. destruct (skipn_cons _ _ _ _ Hr) as (H1 & H2 & H3).
    exists b. eexists. split; [reflexivity|]. split.
    + rewrite (stream_epochs i (opened B st)); auto.
    + split; simpl; auto.
Qed.
(** the [k] batches from position [i] on *)
Definition window (i k : nat) (bs : list B) : Prop :=
  length bs = k /\ forall j b, nth_error bs j = Some b -> stream (i + j) = Some b.
Lemma window_S i k b bs : stream i = Some b -> window (S i) k bs -> window i (S k) (b :: bs).
Proof.
  intros Hb [Hl Hw]. split; [simpl; lia|]. intros [|j] c Hc; simpl in Hc.
  - rewrite Nat.add_0_r. congruence.
  - rewrite <- (Hw j c Hc). f_equal. lia.
Qed.
Lemma window_inv i k b bs : window i (S k) (b :: bs) -> stream i = Some b /\ window (S i) k bs.
Proof.
  intros [Hl Hw]. split; [|split].
  - rewrite <- (Nat.add_0_r i). apply Hw. auto.
  - simpl in Hl. lia.
  - intros j c Hc. replace (S i + j) with (i + S j) by lia. apply Hw. auto.
Qed.
Lemma window_exists i k : nonempty -> exists bs, window i k bs.
Proof.
  intros Hn. revert i. induction k as [|k IH]; intros i.
  - exists []. split; auto. intros [|j] b H; discriminate.
  - destruct (IH (S i)) as [bs Hb]. destruct (stream i) as [b|] eqn:E.
    + exists (b :: bs). apply window_S; auto.
    + exfalso. unfold stream in E. fold (epochs (S i)) in E. apply nth_error_None in E.
      assert (L := epochs_len (S i) Hn). lia.
Qed.
Lemma window_unique i k : forall bs bs', window i k bs -> window i k bs' -> bs = bs'.
Proof.
  revert i. induction k as [|k IH]; intros i bs bs' H H'.
  - destruct H as [H _], H' as [H' _]. destruct bs, bs'; try discriminate; auto.
  - destruct bs as [|b bs]; [destruct H; discriminate|]. destruct bs' as [|b' bs']; [destruct H'; discriminate|].
    apply window_inv in H. apply window_inv in H'. destruct H as [H1 H2], H' as [H1' H2'].
    rewrite H1 in H1'. injection H1' as <-. f_equal. eapply IH; eauto.
Qed.
Local Open Scope R_scope.
(** criterion values at [p], when they are finite numbers *)
Definition finite_at (p : P) (v : B -> R) : Prop := forall b, crit p b = Value (Fin (v b)).
Definition wsum (v : B -> R) (bs : list B) : R := sum_list (map (fun b => v b * INR (size b)) bs).
Definition wtot (bs : list B) : R := sum_list (map (fun b => INR (size b)) bs).
Definition nsum (bs : list B) : nat := list_sum (map size bs).
Lemma wtot_nsum bs : wtot bs = INR (nsum bs).
Proof.
  unfold wtot, nsum. induction bs as [|b bs IH]; [unfold sum_list; auto|]. cbn [map]. rewrite sum_cons, IH.
  simpl list_sum. rewrite plus_INR. auto.
Qed.
Lemma finish_val mean t n : (0 < n)%nat -> finish mean (Fin t) n = EValue (Fin (if mean then t / INR n else t)).
Proof.
  intros H. unfold finish. destruct (Nat.eqb_spec n 0); [lia|]. destruct mean; auto. simpl.
  unfold reqb. destruct (Req_EM_T (INR n) 0) as [E|]; auto. exfalso. apply not_0_INR in E; auto.
Qed.
Lemma cycle_value p v mean k : finite_at p v -> nonempty -> (forall b, (0 < size b)%nat) ->
  forall st i t n, at_pos st i -> (0 < n + k)%nat ->
  exists bs st', window i k bs /\ at_pos st' (i + k) /\
    loop_cycle P B size crit loader k p mean st (Fin t) n =
     (EValue (Fin (if mean then (t + wsum v bs) / INR (n + nsum bs) else t + wsum v bs)), st').
Proof.
  intros Hv Hn Hs. induction k as [|k IH]; intros st i t n Hp Hk.
  - exists [], st. split; [split; auto; intros [|j] b H; discriminate|]. split; [rewrite Nat.add_0_r; auto|].
    simpl loop_cycle. rewrite finish_val by lia. unfold wsum, nsum; simpl.
    unfold sum_list; simpl. rewrite Nat.add_0_r, Rplus_0_r. auto.
  - destruct (next_pos st i Hn Hp) as (b & st1 & E & Hb & Hp1).
    destruct (IH st1 (S i) (t + v b * INR (size b)) (n + size b)%nat Hp1) as (bs & st' & W & Hp' & EV).
    { specialize (Hs b). lia. }
    exists (b :: bs), st'. split; [apply window_S; auto|]. split; [replace (i + S k)%nat with (S i + k)%nat by lia; auto|].
    simpl loop_cycle. rewrite E, (Hv b). cbn [fl_mul fl_add]. rewrite EV.
    unfold wsum, nsum. cbn [map list_sum fold_right]. rewrite sum_cons.
    replace (t + v b * INR (size b) + sum_list (map (fun b0 => v b0 * INR (size b0)) bs))
      with (t + (v b * INR (size b) + sum_list (map (fun b0 => v b0 * INR (size b0)) bs))) by ring.
    fold (list_sum (map size bs)). rewrite Nat.add_assoc. auto.
Qed.
Definition mean_or_sum (mean : bool) (v : B -> R) (bs : list B) : R :=
  if mean then wsum v bs / wtot bs else wsum v bs.
Lemma eval_value numpy bpe mean p v st i : finite_at p v -> nonempty -> (forall b, (0 < size b)%nat) ->
  (0 < bpe)%nat -> at_pos st i ->
  exists bs st', window i bpe bs /\ at_pos st' (i + bpe) /\
    batch_eval P B size crit loader numpy bpe mean p st = (EValue (Fin (mean_or_sum mean v bs)), st').
Proof.
  intros Hv Hn Hs Hb Hp. unfold batch_eval. destruct (Nat.eqb_spec bpe 0); [lia|].
  destruct (cycle_value p v mean bpe Hv Hn Hs st i 0 0 Hp) as (bs & st' & W & Hp' & E); [lia|].
  exists bs, st'. split; auto. split; auto. rewrite E. unfold mean_or_sum. rewrite wtot_nsum, Rplus_0_l. auto.
Qed.
Lemma evals_value numpy bpe mean : nonempty -> (forall b, (0 < size b)%nat) -> (0 < bpe)%nat ->
  forall ps st i, at_pos st i -> (forall p, In p ps -> exists v, finite_at p v) ->
  forall k p v, nth_error ps k = Some p -> finite_at p v ->
  exists bs, window (i + k * bpe) bpe bs /\
    nth_error (fst (batch_evals P B size crit loader numpy bpe mean ps st)) k = Some (EValue (Fin (mean_or_sum mean v bs))).
Proof.
  intros Hn Hs Hb. induction ps as [|q ps IH]; intros st i Hp Hf [|k] p v Hk Hv; try discriminate.
  - injection Hk as ->. destruct (eval_value numpy bpe mean p v st i Hv Hn Hs Hb Hp) as (bs & st' & W & _ & E).
    exists bs. split; [rewrite Nat.mul_0_l, Nat.add_0_r; auto|]. simpl. rewrite E.
    destruct (batch_evals _ _ _ _ _ _ _ _ ps st'). auto.
  - destruct (Hf q (or_introl eq_refl)) as [w Hw].
    destruct (eval_value numpy bpe mean q w st i Hw Hn Hs Hb Hp) as (bs0 & st' & W0 & Hp' & E).
    destruct (IH st' (i + bpe)%nat Hp') with (k := k) (p := p) (v := v) as (bs & W & EV); auto.
    { intros; apply Hf; right; auto. }
    exists bs. split; [replace (i + S k * bpe)%nat with (i + bpe + k * bpe)%nat by (simpl; lia); auto|].
    simpl. rewrite E. destruct (batch_evals _ _ _ _ _ _ _ _ ps st') eqn:Q. simpl in EV. auto.
Qed.
(** a failing batch ends the evaluation: the batches up to and including it are consumed *)
Lemma cycle_fail p mean k : nonempty ->
  forall j st i t n bs b, at_pos st i -> (j < k)%nat -> window i j bs ->
  (forall c, In c bs -> exists x, crit p c = Value x) -> stream (i + j) = Some b ->
  (crit p b = LinalgError \/ crit p b = OtherError) ->
  exists st', loop_cycle P B size crit loader k p mean st t n =
     (match crit p b with LinalgError => ELinalg | _ => EOther end, st') /\ at_pos st' (i + S j).
Proof.
  intros Hn. induction k as [|k IH]; intros j st i t n bs b Hp Hj W Hv Hb Hc; [lia|].
  destruct (next_pos st i Hn Hp) as (c & st1 & E & Hc1 & Hp1). simpl loop_cycle. rewrite E.
  destruct j as [|j].
  - rewrite Nat.add_0_r in Hb. rewrite Hb in Hc1. injection Hc1 as <-. exists st1.
    split; [destruct Hc as [-> | ->]; auto|]. replace (i + 1)%nat with (S i) by lia. auto.
  - destruct bs as [|c' bs]; [destruct W; discriminate|]. destruct (window_inv _ _ _ _ W) as [W1 W2].
    rewrite Hc1 in W1. injection W1 as <-. destruct (Hv c (or_introl eq_refl)) as [x Hx]. rewrite Hx.
    replace (i + S j)%nat with (S i + j)%nat in Hb by lia.
    destruct (IH j st1 (S i) (fl_add t (fl_mul x (Fin (INR (size c))))) (n + size c)%nat bs b Hp1) as (st' & E' & Hp'); auto; try lia.
    { intros; apply Hv; right; auto. }
    exists st'. split; auto. replace (i + S (S j))%nat with (S i + S j)%nat by lia. auto.
Qed.
Lemma full_value p v mean : finite_at p v -> (forall b, (0 < size b)%nat) ->
  forall l t n, (0 < n + length l)%nat ->
    loop_full P B size crit l p mean (Fin t) n =
      EValue (Fin (if mean then (t + wsum v l) / INR (n + nsum l) else t + wsum v l)).
Proof.
  intros Hv Hs. induction l as [|b l IH]; intros t n H.
  - simpl in *. rewrite finish_val by lia. unfold wsum, nsum; simpl. unfold sum_list; simpl.
    rewrite Nat.add_0_r, Rplus_0_r. auto.
  - simpl loop_full. rewrite (Hv b). cbn [fl_mul fl_add]. rewrite IH by (specialize (Hs b); lia).
    unfold wsum, nsum. cbn [map list_sum fold_right]. rewrite sum_cons.
    replace (t + v b * INR (size b) + sum_list (map (fun b0 => v b0 * INR (size b0)) l))
      with (t + (v b * INR (size b) + sum_list (map (fun b0 => v b0 * INR (size b0)) l))) by ring.
    fold (list_sum (map size l)). rewrite Nat.add_assoc. auto.
Qed.
End C47.

(** ** a loader without shuffling *)
Section Fixed.
Variable B : Type.
Variable l : list B.
Lemma fixed_epochs e i : i < e * length l ->
  nth_error (epochs B (fun _ => l) e) i = nth_error l (i mod length l).
Proof.
  assert (L : forall e, length (epochs B (fun _ => l) e) = e * length l).
  { clear. intros e. induction e as [|e IH]; auto. rewrite epochs_S, app_length, IH. simpl. lia. }
  induction e as [|e IH]; intros H; [simpl in H; lia|]. rewrite epochs_S.
  destruct (lt_dec i (e * length l)) as [C|C].
  - rewrite nth_error_app1 by (rewrite L; auto). auto.
  - rewrite nth_error_app2 by (rewrite L; lia). rewrite L. f_equal.
    simpl in H. replace i with ((i - e * length l) + e * length l) at 2 by lia.
    rewrite Nat.mod_add by (destruct (length l); lia). rewrite Nat.mod_small by lia. auto.
Qed.
Lemma fixed_stream i : l <> [] -> stream B (fun _ => l) i = nth_error l (i mod length l).
Proof.
  intros H. unfold stream. apply (fixed_epochs (S i)). destruct l; [congruence|]. simpl. nia.
Qed.
Lemma fixed_window_shift g i k bs bs' : l <> [] -> k mod length l = 0 ->
  window B (fun _ => l) i k bs -> window B (fun _ => l) (S i) k bs' ->
  sum_list (map g bs) = sum_list (map g bs').
Proof.
  intros Hl Hk W W'. destruct k as [|k].
  - destruct W as [W _], W' as [W' _]. destruct bs, bs'; try discriminate. auto.
  - destruct bs as [|b bs]; [destruct W; discriminate|]. destruct (window_inv _ _ _ _ _ _ W) as [Wb W1].
    assert (exists bs1 b1, bs' = bs1 ++ [b1]) as (bs1 & b1 & ->).
    { destruct W' as [W' _]. destruct (@exists_last _ bs') as (x & y & ->); [destruct bs'; [discriminate|congruence]|]. eauto. }
    assert (L1 : length bs1 = k). { destruct W' as [W' _]. rewrite app_length in W'. simpl in W'. lia. }
    assert (W2 : window B (fun _ => l) (S i) k bs1).
    { split; auto. intros j c Hc. destruct W' as [_ W']. apply W'. rewrite nth_error_app1; auto.
      apply nth_error_Some. congruence. }
    assert (bs1 = bs) by (eapply window_unique; eauto). subst bs1.
    assert (b1 = b).
    { destruct W' as [_ W']. specialize (W' k b1). rewrite nth_error_app2, L1, Nat.sub_diag in W' by lia.
      specialize (W' eq_refl). rewrite fixed_stream in W' by auto. rewrite fixed_stream in Wb by auto.
      replace (S i + k) with (i + S k) in W' by lia.
      assert (Hm : length l <> 0) by (destruct l; simpl; [congruence|lia]).
      rewrite Nat.add_mod, Hk, Nat.add_0_r, Nat.mod_mod in W' by auto. congruence. }
    subst b1. cbn [map]. rewrite map_app, sum_app, sum_cons. cbn [map]. rewrite sum_cons.
    unfold sum_list at 3. simpl. lra.
Qed.
Lemma fixed_window_sum g i k bs bs' : l <> [] -> k mod length l = 0 ->
  window B (fun _ => l) 0 k bs -> window B (fun _ => l) i k bs' ->
  sum_list (map g bs) = sum_list (map g bs').
Proof.
  intros Hl Hk. revert bs'. induction i as [|i IH]; intros bs' W W'.
  - rewrite (window_unique _ _ _ _ _ _ W W'). auto.
  - destruct (window_exists B (fun _ => l) i k) as [bs1 W1]; [intros e; auto|].
    rewrite (IH bs1); auto. eapply fixed_window_shift; eauto.
Qed.
Lemma concat_repeat_window m : l <> [] -> window B (fun _ => l) 0 (m * length l) (concat (repeat l m)).
Proof.
  intros Hl. assert (L : forall m, length (concat (repeat l m)) = m * length l).
  { clear. induction m; simpl; auto. rewrite app_length, IHm. auto. }
  split; auto. intros j b Hb. rewrite fixed_stream by auto. simpl plus.
  assert (Hj : j < m * length l). { rewrite <- L. apply nth_error_Some. congruence. }
  rewrite <- Hb. symmetry. clear Hb. revert j Hj. induction m as [|m IH]; intros j Hj; [simpl in Hj; lia|].
  simpl. destruct (lt_dec j (length l)) as [C|C].
  - rewrite nth_error_app1, Nat.mod_small by auto. auto.
  - rewrite nth_error_app2 by lia. rewrite IH by (simpl in Hj; lia). f_equal.
    replace j with ((j - length l) + 1 * length l) at 2 by lia. rewrite Nat.mod_add; auto. intros Z; apply length_zero_iff_nil in Z; auto.
Qed.
Lemma sum_repeat (g : B -> R) m : sum_list (map g (concat (repeat l m))) = (INR m * sum_list (map g l))%R.
Proof.
  induction m as [|m IH]; [unfold sum_list; simpl; ring|]. simpl repeat. simpl concat.
  rewrite map_app, sum_app, IH, S_INR. ring.
Qed.
End Fixed.

Lemma window_app B ld i k k' a b : window B ld i k a -> window B ld (i + k) k' b -> window B ld i (k + k') (a ++ b).
Proof.
  intros [L W] [L' W']. split; [rewrite app_length; lia|]. intros j c Hc.
  destruct (lt_dec j k) as [C|C].
  - rewrite nth_error_app1 in Hc by lia. auto.
  - rewrite nth_error_app2 in Hc by lia. rewrite <- (W' (j - length a) c Hc). f_equal. lia.
Qed.
Lemma windows_const B ld k (g : B -> R) c : (forall e : nat, ld e <> []) ->
  forall m i, (forall t bs, t < m -> window B ld (i + t * k) k bs -> sum_list (map g bs) = c) ->
  exists bs, window B ld i (m * k) bs /\ sum_list (map g bs) = (INR m * c)%R.
Proof.
  intros Hn. induction m as [|m IH]; intros i H.
  - exists []. split; [split; auto; intros [|j] b Hb; discriminate|]. unfold sum_list; simpl. ring.
  - destruct (window_exists B ld i k Hn) as [a Wa].
    destruct (IH (i + k)) as (b & Wb & Sb).
    { intros t bs Ht W. apply (H (S t)); [lia|]. replace (i + S t * k) with (i + k + t * k) by (simpl; lia). auto. }
    exists (a ++ b). split; [apply window_app; auto|]. rewrite map_app, sum_app, Sb, S_INR.
    rewrite (H 0 a); [ring|lia|]. rewrite Nat.add_0_r. auto.
Qed.
(** indicator of the first batch of the loader 0, 1, ..., n-1 *)
Definition is_first (b : nat) : R := if b =? 0 then 1%R else 0%R.
Lemma sum_is_first n : 0 < n -> sum_list (map is_first (seq 0 n)) = 1%R.
Proof.
  intros H. destruct n as [|n]; [lia|]. cbn [seq map]. rewrite sum_cons.
  assert (Z : forall k s, 0 < s -> sum_list (map is_first (seq s k)) = 0%R).
  { clear. induction k as [|k IH]; intros s Hs; [reflexivity|]. cbn [seq map]. rewrite sum_cons, IH by lia.
    unfold is_first. destruct (Nat.eqb_spec s 0); [lia|ring]. }
  rewrite Z by lia. unfold is_first; simpl. ring.
Qed.
Lemma is_first_nat bs : exists c : nat, sum_list (map is_first bs) = INR c.
Proof.
  induction bs as [|b bs [c IH]]; [exists 0; reflexivity|]. cbn [map]. rewrite sum_cons, IH. unfold is_first.
  destruct (b =? 0); [exists (S c)|exists c]; rewrite ?S_INR; ring.
Qed.
Lemma not_constant n bpe : 0 < n -> bpe mod n <> 0 ->
  ~ exists c, forall k bs, k < n -> window nat (fun _ => seq 0 n) (k * bpe) bpe bs -> sum_list (map is_first bs) = c.
Proof.
  intros Hn Hm (c & H). assert (Hne : forall e : nat, seq 0 n <> []) by (intros _; destruct n; [lia|discriminate]).
  destruct (windows_const nat (fun _ => seq 0 n) bpe is_first c Hne n 0) as (bs & W & S); [auto|].
  destruct (window_exists nat (fun _ => seq 0 n) 0 bpe Hne) as [b0 W0].
  destruct (is_first_nat b0) as [c0 E0]. rewrite (H 0 b0) in E0; auto.
  assert (W' := concat_repeat_window nat (seq 0 n) bpe (Hne 0)). rewrite seq_length, (Nat.mul_comm bpe n) in W'.
  rewrite (window_unique _ _ _ _ _ _ W W') in S. rewrite sum_repeat, sum_is_first, E0 in S by auto.
  rewrite Rmult_1_r, <- mult_INR in S. apply INR_eq in S. apply Hm. rewrite S, Nat.mul_comm. apply Nat.mod_mul. lia.
Qed.

(** ** the observation-level reading of the size-weighted mean *)
Section Obs.
Variables B O : Type.
Variable obs : B -> list O.
Variable g : O -> R.
Local Open Scope R_scope.
Definition mean_of (l : list O) : R := sum_list (map g l) / INR (length l).
Lemma wmean_obs bs : (forall b, obs b <> []) ->
  wsum B (fun b => length (obs b)) (fun b => mean_of (obs b)) bs = sum_list (map g (concat (map obs bs))) /\
  wtot B (fun b => length (obs b)) bs = INR (length (concat (map obs bs))).
Proof.
  intros H. unfold wsum, wtot. induction bs as [|b bs [IH1 IH2]]; [split; reflexivity|].
  cbn [map concat]. rewrite !sum_cons, IH1, IH2, map_app, sum_app, app_length, plus_INR. split; auto.
  f_equal. unfold mean_of. field. apply not_0_INR. specialize (H b). destruct (obs b); [congruence|discriminate].
Qed.
End Obs.

(** * C76 *)
Section C76.
Variables P B : Type.
Variable size : B -> nat.
Variable crit : P -> B -> option (R * list R).
Variable loader : nat -> list B.
Variable d : nat.
Local Open Scope R_scope.
Definition comp (j : nat) (g : list R) : R := nth j g 0.
Lemma comp_vadd u v j : length u = d -> length v = d -> comp j (vadd u v) = comp j u + comp j v.
Proof.
  unfold comp, vadd. intros <-. revert v j. induction u as [|a u IH]; intros [|b v] j H; try discriminate.
  - destruct j; simpl; ring.
  - destruct j; simpl; auto.
Qed.
Lemma len_vadd u v : length u = d -> length v = d -> length (vadd u v) = d.
Proof. unfold vadd. intros <- H. rewrite map_length, combine_length. lia. Qed.
Lemma comp_vscale c u j : comp j (vscale c u) = c * comp j u.
Proof. unfold comp, vscale. rewrite <- (Rmult_0_r c) at 1. apply map_nth. Qed.
Lemma loop_grad_value p v g k : (forall b, crit p b = Some (v b, g b) /\ length (g b) = d) ->
  nonempty B loader -> forall st i t acc n, at_pos B loader st i ->
  (forall u, acc = Some u -> length u = d) ->
  exists bs st' acc' fl, window B loader i k bs /\ at_pos B loader st' (i + k) /\
    loop_grad P B size crit loader k p st t acc n = (Some (t + wsum B size v bs, acc', (n + nsum B size bs)%nat), st', fl) /\
    (k <> 0%nat -> acc' <> None) /\
    (forall u', acc' = Some u' -> length u' = d /\ forall j,
       comp j u' = match acc with Some u => comp j u | None => 0 end + wsum B size (fun b => comp j (g b)) bs).
Proof.
  intros Hv Hn. induction k as [|k IH]; intros st i t acc n Hp Ha.
  - exists [], st, acc, false. split; [split; auto; intros [|j] b H; discriminate|].
    split; [rewrite Nat.add_0_r; auto|]. unfold wsum, nsum, sum_list; simpl. rewrite Rplus_0_r, Nat.add_0_r.
    split; auto. split; [congruence|]. intros u' ->. split; auto. intros; ring.
  - destruct (next_pos B loader st i Hn Hp) as (b & st1 & E & Hb & Hp1). destruct (Hv b) as [Hc Hg].
    destruct (IH st1 (S i) (t + v b * INR (size b)) (Some (vacc acc (vscale (INR (size b)) (g b)))) (n + size b)%nat Hp1)
      as (bs & st' & acc' & fl & W & Hp' & EV & N & A).
    { intros u Hu. injection Hu as <-. destruct acc as [u|]; simpl.
      - apply len_vadd; auto. unfold vscale; rewrite map_length; auto.
      - unfold vscale; rewrite map_length; auto. }
    exists (b :: bs), st', acc', fl. split; [apply window_S; auto|].
    split; [replace (i + S k)%nat with (S i + k)%nat by lia; auto|].
    simpl loop_grad. rewrite E, Hc, EV. split; [|split].
    + unfold wsum, nsum. cbn [map list_sum fold_right]. rewrite sum_cons. fold (list_sum (map size bs)).
      rewrite Rplus_assoc, Nat.add_assoc. auto.
    + intros _. destruct k as [|k]; [|apply N; discriminate]. simpl in EV. injection EV as _ <- _ _ _. discriminate.
    + intros u' Hu'. destruct (A u' Hu') as [A1 A2]. split; auto. intros j. rewrite A2.
      unfold wsum. cbn [map]. rewrite sum_cons. destruct acc as [u|]; simpl vacc.
      * rewrite comp_vadd, comp_vscale; auto; [ring|unfold vscale; rewrite map_length; auto].
      * rewrite comp_vscale. ring.
Qed.
Lemma pre_grad_value bpe p v g st i cached : (forall b, crit p b = Some (v b, g b) /\ length (g b) = d) ->
  nonempty B loader -> (forall b, (0 < size b)%nat) -> (0 < bpe)%nat -> at_pos B loader st i ->
  exists bs st' u, window B loader i bpe bs /\ at_pos B loader st' (i + bpe) /\
    batch_pre_grad P B size crit loader bpe p (st, cached) =
      (PValue (wsum B size v bs / wtot B size bs), (st', Some u)) /\
    forall j, comp j u = wsum B size (fun b => comp j (g b)) bs / wtot B size bs.
Proof.
  intros Hv Hn Hs Hb Hp.
  destruct (loop_grad_value p v g bpe Hv Hn st i 0 None 0 Hp) as (bs & st' & acc & fl & W & Hp' & E & N & A); [discriminate|].
  destruct acc as [u|]; [|exfalso; apply N; auto; lia].
  exists bs, st', (vscale (/ INR (nsum B size bs)) u). split; auto. split; auto. unfold batch_pre_grad. rewrite E. simpl plus.
  assert (Hn0 : nsum B size bs <> 0%nat).
  { destruct W as [W _]. destruct bs as [|b bs]; [simpl in W; lia|]. unfold nsum. simpl. specialize (Hs b). lia. }
  destruct (Nat.eqb_spec (nsum B size bs) 0); [contradiction|]. rewrite wtot_nsum, Rplus_0_l. split; auto.
  intros j. rewrite comp_vscale. destruct (A u eq_refl) as [_ A2]. rewrite A2. field. apply not_0_INR; auto.
Qed.
End C76.
