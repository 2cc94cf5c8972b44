(** Spec vocabulary and lemmas for SmcModel. *)
From Coq Require Import List Arith ZArith Reals Bool Lia Lra Psatz.
From Verif Require Import ConfigModel FlModel PriorModel PriorProofs SelectProofs SmcModel.
Import ListNotations.

(** ** vocabulary *)
(** scipy.stats.multinomial.rvs(n, p): one count per category, n in total *)
Definition multinomial_draw (draw : nat -> list R -> list nat) : Prop :=
  forall n p, p <> [] -> length (draw n p) = length p /\ list_sum (draw n p) = n.
(** ... and, for a probability vector, categories of probability zero are not drawn *)
Definition draws_no_null (draw : nat -> list R -> list nat) : Prop :=
  forall n p i, sum_list p = 1%R -> nth i p 1%R = 0%R -> nth i (draw n p) 0 = 0.
(** n positions, cached values and weights *)
Definition well_shaped {X} (s : particles X) : Prop :=
  length (plogpx s) = length (px s) /\ length (pw s) = length (px s) /\ length (pw_tmp s) = length (px s).
(** the cached log density of every particle is the current density there *)
Definition consistent {X} (s : particles X) : Prop := plogpx s = map (plogpdf s) (px s).

(** ** lists *)
Lemma zip2_length {A B C} (g : A -> B -> C) l l' : length l = length l' -> length (zip2 g l l') = length l.
Proof. revert l'; induction l as [|a l IH]; intros [|b l']; simpl; intros; try lia. rewrite IH; lia. Qed.
Lemma zip2_nth {A B C} (g : A -> B -> C) l l' i da db : length l = length l' -> i < length l ->
  nth i (zip2 g l l') (g da db) = g (nth i l da) (nth i l' db).
Proof.
  revert l' i; induction l as [|a l IH]; intros [|b l'] [|i] H Hi; simpl in *; try lia; auto.
  apply IH; lia.
Qed.
Lemma fins_of_some l w : fins_of l = Some w -> l = map Fin w.
Proof.
  revert w; induction l as [|a l IH]; simpl; intros w H. injection H as <-; reflexivity.
  destruct a; try discriminate. destruct (fins_of l); try discriminate. simpl in H; injection H as <-. simpl. f_equal; auto.
Qed.
Lemma fins_of_map w : fins_of (map Fin w) = Some w.
Proof. induction w; simpl; auto. rewrite IHw; reflexivity. Qed.
Lemma all_written_some {V} (l : list V) : all_written (map Some l) = Some l.
Proof. induction l; simpl; auto. rewrite IHl; reflexivity. Qed.

(** the list of source indices of the copy loop *)
Fixpoint anc (k : nat) (counts : list nat) : list nat :=
  match counts with [] => [] | c :: cs => repeat k c ++ anc (S k) cs end.
Lemma anc_length counts : forall k, length (anc k counts) = list_sum counts.
Proof. induction counts as [|c cs IH]; intros k; simpl; auto. rewrite app_length, repeat_length, IH; reflexivity. Qed.
Lemma anc_range counts : forall k i, In i (anc k counts) -> k <= i < k + length counts.
Proof.
  induction counts as [|c cs IH]; simpl; intros k i H. contradiction.
  apply in_app_or in H as [H|H]. apply repeat_spec in H; lia. apply IH in H; lia.
Qed.
Lemma count_repeat_eq (k c : nat) : count_occ Nat.eq_dec (repeat k c) k = c.
Proof. induction c; simpl; auto. destruct (Nat.eq_dec k k); lia. Qed.
Lemma count_repeat_neq (k j c : nat) : k <> j -> count_occ Nat.eq_dec (repeat k c) j = 0.
Proof. intros. induction c; simpl; auto. destruct (Nat.eq_dec k j); [contradiction|auto]. Qed.
Lemma anc_count counts : forall k i, count_occ Nat.eq_dec (anc k counts) (k + i) = nth i counts 0.
Proof.
  induction counts as [|c cs IH]; simpl; intros k i. destruct i; reflexivity.
  rewrite count_occ_app. destruct i.
  - rewrite Nat.add_0_r, count_repeat_eq.
    assert (E : count_occ Nat.eq_dec (anc (S k) cs) k = 0).
    { apply count_occ_not_In. intros H. apply anc_range in H. lia. }
    rewrite E; lia.
  - rewrite count_repeat_neq by lia. replace (k + S i) with (S k + i) by lia. rewrite IH; reflexivity.
Qed.
Lemma copy_loop_anc {V} (d : V) l counts : length counts = length l ->
  forall pre, copy_loop l counts = map (fun i => nth i (pre ++ l) d) (anc (length pre) counts).
Proof.
  revert counts; induction l as [|a l IH]; intros [|c cs]; simpl; try lia; intros H pre; auto.
  rewrite map_app. f_equal.
  - clear. induction c; simpl; auto. f_equal; auto. rewrite app_nth2, Nat.sub_diag by lia. reflexivity.
  - rewrite (IH cs ltac:(lia) (pre ++ [a])). rewrite app_length. simpl. rewrite Nat.add_1_r.
    apply map_ext. intros i. rewrite <- app_assoc. reflexivity.
Qed.
Lemma combine_nth_fst {A B} (l : list A) (l' : list B) da db : length l = length l' ->
  forall i, nth i (combine l l') (da, db) = (nth i l da, nth i l' db).
Proof. intros H i. apply combine_nth. exact H. Qed.

(** resampling with counts that sum to n *)
Lemma resample_with_spec {X} (d : X) (counts : list nat) (s : particles X) :
  well_shaped s -> length counts = length (px s) -> list_sum counts = length (px s) ->
  exists s', resample_with X counts s = Some s'
    /\ px s' = map (fun i => nth i (px s) d) (anc 0 counts)
    /\ plogpx s' = map (fun i => nth i (plogpx s) NaN) (anc 0 counts)
    /\ pw s' = repeat (Fin (1 / INR (length (px s)))) (length (px s))
    /\ pw_tmp s' = repeat (Fin (1 / INR (length (px s)))) (length (px s))
    /\ plogpdf s' = plogpdf s.
Proof.
  intros (H1 & _) HL HS. unfold resample_with, into_rows.
  assert (E : copy_loop (combine (px s) (plogpx s)) counts
              = map (fun i => nth i (combine (px s) (plogpx s)) (d, NaN)) (anc 0 counts)).
  { apply (copy_loop_anc (d, NaN) (combine (px s) (plogpx s)) counts) with (pre := []). rewrite combine_length. lia. }
  rewrite E, map_length, anc_length, HS, Nat.leb_refl, Nat.sub_diag. simpl. rewrite app_nil_r, all_written_some.
  eexists. split; [reflexivity|]. simpl. repeat split; auto; rewrite map_map; apply map_ext; intros i; rewrite combine_nth_fst by auto; reflexivity.
Qed.

(** ** probabilities *)
Lemma sum_map_mul c l : sum_list (map (fun v => c * v)%R l) = (c * sum_list l)%R.
Proof. induction l as [|a l IH]. unfold sum_list; simpl; ring. simpl map. rewrite !sum_list_cons, IH; ring. Qed.
Lemma sum_map_div t l : sum_list (map (fun v => v / t)%R l) = (sum_list l / t)%R.
Proof. rewrite (map_ext _ (fun v => / t * v)%R) by (intros; unfold Rdiv; ring). rewrite sum_map_mul. unfold Rdiv; ring. Qed.
Lemma sum_repeat_const v n : sum_list (repeat v n) = (INR n * v)%R.
Proof. induction n. unfold sum_list; simpl; ring. rewrite S_INR. simpl repeat. rewrite sum_list_cons, IHn; ring. Qed.
Lemma probs_spec {X} (s : particles X) w : fins_of (pw_tmp s) = Some w -> length w = length (px s) ->
  Forall (fun v => 0 <= v)%R w -> px s <> [] ->
  exists p, probs X s = Some p /\ length p = length (px s) /\ Forall (fun v => 0 <= v)%R p /\ sum_list p = 1%R /\
    (sum_list w <> 0%R -> forall i, nth i p 0%R = (nth i w 0 / sum_list w)%R) /\
    (sum_list w = 0%R -> forall i, i < length (px s) -> nth i p 0%R = (1 / INR (length (px s)))%R).
Proof.
  intros H HL HP Hn. unfold probs. rewrite H. eexists. split; [reflexivity|].
  assert (N0 : (0 < INR (length (px s)))%R).
  { apply lt_0_INR. destruct (px s); simpl; [congruence|lia]. }
  unfold reqb. destruct (Req_EM_T (sum_list w) 0) as [E|E].
  - rewrite repeat_length. repeat split; auto.
    + apply Forall_forall. intros v Hv. apply repeat_spec in Hv. subst. unfold Rdiv. rewrite Rmult_1_l. left; apply Rinv_0_lt_compat; auto.
    + rewrite sum_repeat_const. field. lra.
    + intros; contradiction.
    + intros _ i Hi. apply nth_repeat_lt || (rewrite nth_indep with (d' := (1 / INR (length (px s)))%R) by (rewrite repeat_length; lia); apply nth_repeat).
  - destruct (sum_list_pos w (proj1 (Forall_forall _ _) HP)) as [S1 S2].
    rewrite map_length. repeat split; auto.
    + rewrite Forall_forall in *. intros v Hv. apply in_map_iff in Hv as (u & <- & Hu). specialize (HP u Hu).
      unfold Rdiv. apply Rmult_le_pos; auto. left. apply Rinv_0_lt_compat. lra.
    + rewrite sum_map_div. field; auto.
    + intros _ i. rewrite <- (map_nth (fun v => v / sum_list w)%R w 0%R i). f_equal. unfold Rdiv; ring.
    + intros; contradiction.
Qed.

(** ** floor *)
Lemma floor_nat_spec v : (0 <= v)%R -> (INR (floor_nat v) <= v)%R /\ forall k, (INR k <= v)%R -> k <= floor_nat v.
Proof.
  intros Hv. unfold floor_nat. destruct (base_Int_part v) as [H1 H2].
  assert (H0 : (0 <= Int_part v)%Z).
  { assert (IZR (-1) < IZR (Int_part v))%R by (simpl; lra). apply lt_IZR in H. lia. }
  split.
  - rewrite INR_IZR_INZ, Z2Nat.id by auto. exact H1.
  - intros k Hk. rewrite INR_IZR_INZ in Hk. assert (IZR (Z.of_nat k) < IZR (Int_part v + 1))%R by (rewrite plus_IZR; simpl; lra).
    apply lt_IZR in H. lia.
Qed.
Lemma det_sum_le (c : R) p : (0 <= c)%R -> Forall (fun v => 0 <= v)%R p ->
  (INR (list_sum (map (fun v => floor_nat (c * v)) p)) <= c * sum_list p)%R.
Proof.
  intros Hc; induction 1 as [|a l Ha _ IH]. unfold sum_list; simpl; lra.
  rewrite sum_list_cons. simpl map. simpl list_sum. rewrite plus_INR.
  destruct (floor_nat_spec (c * a)) as [F _]. apply Rmult_le_pos; auto. lra.
Qed.
Lemma list_sum_zip_add l l' : length l = length l' -> list_sum (zip2 Nat.add l l') = list_sum l + list_sum l'.
Proof. revert l'; induction l as [|a l IH]; intros [|b l']; simpl; try lia. intros; rewrite IH; lia. Qed.
Lemma list_sum_zero {A} (l : list A) : list_sum (map (fun _ => 0) l) = 0.
Proof. induction l; simpl; auto. Qed.
Lemma residual_counts_spec draw n p : multinomial_draw draw -> p <> [] ->
  Forall (fun v => 0 <= v)%R p -> sum_list p = 1%R ->
  length (residual_counts draw n p) = length p /\ list_sum (residual_counts draw n p) = n /\
  (forall i k, i < length p -> (INR k <= INR n * nth i p 0)%R -> k <= nth i (residual_counts draw n p) 0).
Proof.
  intros HD Hp HP HS. unfold residual_counts. cbv zeta.
  set (det := map (fun v => floor_nat (INR n * v)) p).
  set (pv := if reqb _ _ then _ else _). 
  assert (LD : length det = length p) by (unfold det; apply map_length).
  assert (LR : length (zip2 (fun v c => Rmax (INR n * v - INR c) 0) p det) = length p) by (apply zip2_length; lia).
  assert (LP : length pv = length p) by (unfold pv; destruct (reqb _ _); rewrite map_length; auto).
  assert (SD : list_sum det <= n).
  { apply INR_le. replace (INR n) with (INR n * sum_list p)%R by (rewrite HS; ring). apply det_sum_le; auto. apply pos_INR. }
  set (cres := if 0 <? n - list_sum det then draw (n - list_sum det) pv else map (fun _ => 0) det).
  assert (C : length cres = length p /\ list_sum cres = n - list_sum det).
  { unfold cres. destruct (Nat.ltb_spec 0 (n - list_sum det)).
    - destruct (HD (n - list_sum det) pv) as [A B]. intros E. rewrite E in LP. destruct p; simpl in *; [congruence|lia]. split; auto; lia.
    - rewrite map_length, list_sum_zero. lia. }
  destruct C as [C1 C2]. repeat split.
  - rewrite zip2_length; lia.
  - rewrite list_sum_zip_add by lia. lia.
  - intros i k Hi Hk. replace 0 with (0 + 0) at 1 by reflexivity. rewrite zip2_nth by lia.
    assert (k <= nth i det 0); [|lia]. unfold det.
    rewrite (nth_indep _ 0 (floor_nat (INR n * 0))) by (rewrite map_length; auto).
    rewrite (map_nth (fun v => floor_nat (INR n * v)) p 0%R i).
    apply floor_nat_spec; auto. apply Rmult_le_pos. apply pos_INR. rewrite Forall_forall in HP. apply HP. apply nth_In; auto.
Qed.

(** ** effective sample size *)
Lemma fl_sum_acc l : forall a, fold_left fl_add (map Fin l) (Fin a) = Fin (fold_left Rplus l a).
Proof. induction l as [|b l IH]; intros a; cbn [map fold_left]; auto. cbn [fl_add]. apply IH. Qed.
Lemma fl_sum_fin l : fl_sum (map Fin l) = Fin (sum_list l).
Proof. apply fl_sum_acc. Qed.
Definition sq_sum (w : list R) : R := sum_list (map (fun v => v * v)%R w).
Lemma sq_sum_cons a w : sq_sum (a :: w) = (a * a + sq_sum w)%R.
Proof. unfold sq_sum. simpl map. apply sum_list_cons. Qed.
Lemma sq_sum_pos w : (0 <= sq_sum w)%R.
Proof. induction w. unfold sq_sum, sum_list; simpl; lra. rewrite sq_sum_cons. nra. Qed.
Lemma sq_sum_zero w : sq_sum w = 0%R -> forall v, In v w -> v = 0%R.
Proof.
  induction w as [|a w IH]; simpl; intros H v Hv. contradiction.
  rewrite sq_sum_cons in H. pose proof (sq_sum_pos w). assert (a = 0)%R by nra.
  destruct Hv as [<-|Hv]; auto. apply IH; auto. nra.
Qed.
Lemma ess_fin {X} (s : particles X) w : pw_tmp s = map Fin w ->
  ess X s = Fin (if Req_EM_T (sq_sum w) 0 then 0 else sum_list w * sum_list w / sq_sum w).
Proof.
  intros E. unfold ess. rewrite E, map_map. simpl.
  rewrite <- (map_map (fun v => v * v)%R Fin), !fl_sum_fin. cbv zeta. fold (sq_sum w).
  unfold reqb. destruct (Req_EM_T (sq_sum w) 0); auto. cbn [fl_mul fl_div]. unfold reqb. destruct (Req_EM_T (sq_sum w) 0); [contradiction|reflexivity].
Qed.
Lemma dev_sum m w : sum_list (map (fun v => (v - m) * (v - m))%R w) = (sq_sum w - 2 * m * sum_list w + INR (length w) * (m * m))%R.
Proof.
  induction w as [|a w IH]. unfold sq_sum, sum_list; simpl; ring.
  change (length (a :: w)) with (S (length w)). rewrite S_INR. simpl map. rewrite !sum_list_cons, IH, sq_sum_cons; ring.
Qed.
Lemma dev_pos m w : (0 <= sum_list (map (fun v => (v - m) * (v - m))%R w))%R /\
  (sum_list (map (fun v => (v - m) * (v - m))%R w) = 0%R -> forall v, In v w -> v = m).
Proof.
  destruct (sum_list_pos (map (fun v => (v - m) * (v - m))%R w)) as [A B].
  { intros x Hx. apply in_map_iff in Hx as (v & <- & _). apply Rle_0_sqr. }
  split; auto. intros E v Hv. assert (G := proj1 B E ((v - m) * (v - m))%R (in_map (fun v => (v - m) * (v - m))%R w v Hv)).
  nra.
Qed.
Lemma sum_nonneg w : Forall (fun v => 0 <= v)%R w -> (0 <= sum_list w)%R.
Proof. induction 1 as [|a l Ha _ IH]. unfold sum_list; simpl; lra. rewrite sum_list_cons; lra. Qed.
Lemma sum_zero w : Forall (fun v => 0 <= v)%R w -> sum_list w = 0%R -> forall v, In v w -> v = 0%R.
Proof. intros H. apply sum_list_pos. apply Forall_forall; auto. Qed.
Lemma sum_all_zero w : (forall v, In v w -> v = 0%R) -> sum_list w = 0%R.
Proof. induction w as [|a w IH]; intros H. reflexivity. rewrite sum_list_cons, (H a), IH; simpl; auto. ring. intros; apply H; simpl; auto. Qed.
Lemma sq_sum_all_zero w : (forall v, In v w -> v = 0%R) -> sq_sum w = 0%R.
Proof. intros H. apply sum_all_zero. intros v Hv. apply in_map_iff in Hv as (u & <- & Hu). rewrite (H u Hu); ring. Qed.
Lemma sq_le w : Forall (fun v => 0 <= v)%R w -> (sq_sum w <= sum_list w * sum_list w)%R.
Proof.
  induction 1 as [|a l Ha Hl IH]. unfold sq_sum, sum_list; simpl; lra.
  rewrite sq_sum_cons, sum_list_cons. pose proof (sum_nonneg l Hl). nra.
Qed.
Lemma sq_eq w : Forall (fun v => 0 <= v)%R w -> sq_sum w <> 0%R ->
  ((sum_list w * sum_list w)%R = sq_sum w <-> exists i, (0 < nth i w 0)%R /\ forall j, j <> i -> nth j w 0%R = 0%R).
Proof.
  induction 1 as [|a l Ha Hl IH]; intros HN. unfold sq_sum, sum_list in HN; simpl in HN; lra.
  rewrite sq_sum_cons in *. rewrite sum_list_cons. pose proof (sum_nonneg l Hl) as P. pose proof (sq_le l Hl) as Q.
  assert (Z : sum_list l = 0%R -> forall j, nth j l 0%R = 0%R).
  { intros E j. destruct (nth_in_or_default j l 0%R) as [I|I]; auto. apply (sum_zero l Hl E); auto. }
  split.
  - intros E. assert (E1 : (a * sum_list l = 0)%R) by nra. apply Rmult_integral in E1 as [E1|E1].
    + subst a. destruct IH as [IH _]. intros G; apply HN; rewrite G; ring. destruct IH as (i & I1 & I2). lra.
      exists (S i). split; auto. intros [|j] Hj; auto. simpl. apply I2. lia.
    + exists 0. simpl. split. 2:{ intros [|j] Hj. contradiction. apply Z; auto. }
      assert (sq_sum l = 0)%R. { apply Rle_antisym. rewrite E1 in Q. lra. apply sq_sum_pos. }
      rewrite H in HN. destruct (Rle_lt_or_eq_dec _ _ Ha); auto. subst a. exfalso; apply HN; ring.
  - intros (i & I1 & I2). destruct i as [|i]; simpl in I1.
    + assert (L0 : forall v, In v l -> v = 0%R).
      { intros v Hv. apply In_nth with (d := 0%R) in Hv as (j & _ & <-). apply (I2 (S j)); auto. }
      rewrite (sum_all_zero l L0), (sq_sum_all_zero l L0). ring.
    + assert (a = 0%R) by (apply (I2 0); auto). subst a.
      assert (E : (sum_list l * sum_list l)%R = sq_sum l).
      { apply IH. intros G; apply HN; rewrite G; ring. exists i. split; auto. intros j Hj. apply (I2 (S j)). lia. }
      rewrite <- E. ring.
Qed.
Lemma sq_sum_scale c w : sq_sum (map (fun v => c * v)%R w) = (c * c * sq_sum w)%R.
Proof.
  unfold sq_sum. rewrite map_map. rewrite <- sum_map_mul, map_map. f_equal. apply map_ext. intros; ring.
Qed.

(** ** consistency of the cache *)
Section Cons.
Context {X : Type}.
Implicit Types s : particles X.
Lemma zip_exp_len (s : particles X) : well_shaped s -> length (zip2 (fun a b => fl_exp (fl_sub a b)) (map (plogpdf s) (px s)) (plogpx s)) = length (px s).
Proof. intros (H & _). rewrite zip2_length; rewrite map_length; auto. Qed.
Lemma reweight_shaped b s : well_shaped s -> well_shaped (reweight X b s) /\ px (reweight X b s) = px s /\ plogpdf (reweight X b s) = plogpdf s.
Proof.
  intros (H1 & H2 & H3). unfold well_shaped, reweight. cbv zeta. pose proof (zip_exp_len s (conj H1 (conj H2 H3))) as L.
  destruct b; simpl; repeat split; auto; try (rewrite zip2_length; lia); rewrite map_length; auto.
Qed.
Lemma reweight_consistent s : consistent (reweight X true s).
Proof. reflexivity. Qed.
Lemma probe_consistent s : consistent s -> consistent (reweight X false s).
Proof. auto. Qed.
Lemma resample_with_consistent counts s s' : consistent s -> well_shaped s -> resample_with X counts s = Some s' ->
  consistent s' /\ well_shaped s' /\ length (px s') = length (px s) /\ plogpdf s' = plogpdf s.
Proof.
  unfold resample_with, into_rows, consistent, well_shaped. intros C W. cbv zeta.
  set (l := copy_loop (combine (px s) (plogpx s)) counts).
  destruct (Nat.leb_spec (length l) (length (px s))) as [L|]; [|discriminate].
  assert (A : forall k l0, all_written (map Some l ++ repeat None k) = Some l0 -> k = 0 /\ l0 = l).
  { intros k. generalize l. induction l0 as [|a t IH]; simpl; intros l1. destruct k; simpl; [intros E; injection E as <-; auto|discriminate].
    destruct (all_written _) eqn:E; [|discriminate]. intros E1. simpl in E1; injection E1 as <-. destruct (IH _ eq_refl) as [-> ->]. auto. }
  destruct (all_written _) as [l0|] eqn:E; [|discriminate]. apply A in E as [E1 ->]. intros E2; injection E2 as <-. simpl.
  rewrite !map_length, !repeat_length. assert (HL : length l = length (px s)) by lia. rewrite HL. repeat split; auto.
  rewrite map_map. apply map_ext_in. intros [x lx] Hin. simpl.
  assert (I : forall (l1 : list (X * fl)) cs, In (x, lx) (copy_loop l1 cs) -> In (x, lx) l1).
  { clear. induction l1 as [|a t IH]; intros [|c cs] H; simpl in *; auto; try contradiction. apply in_app_or in H as [H|H].
    apply repeat_spec in H; auto. right; eauto. }
  apply I in Hin. rewrite C in Hin. clear -Hin. induction (px s) as [|a t IH]; simpl in *. contradiction.
  destruct Hin as [E|H]; [injection E as <- <-; reflexivity|auto].
Qed.
Lemma resample_consistent sch draw s s' : consistent s -> well_shaped s -> resample X sch draw s = Some s' ->
  consistent s' /\ well_shaped s' /\ length (px s') = length (px s) /\ plogpdf s' = plogpdf s.
Proof.
  intros C W. destruct sch; simpl; unfold multinomial_resample, residual_resample; try discriminate;
  destruct (probs X s); try discriminate; apply resample_with_consistent; auto.
Qed.
Lemma move_rows_length f xs : forall ls ys us, length ls = length xs -> length ys = length xs -> length us = length xs ->
  length (move_rows X f xs ls ys us) = length xs.
Proof. induction xs as [|x xs IH]; intros [|l ls] [|y ys] [|u us]; simpl; try lia. intros; rewrite IH; lia. Qed.
Lemma move_consistent ys us s : consistent s -> well_shaped s -> length ys = length (px s) -> length us = length (px s) ->
  let s' := fst (move X ys us s) in
  consistent s' /\ well_shaped s' /\ length (px s') = length (px s) /\ plogpdf s' = plogpdf s.
Proof.
  intros C (W1 & W2 & W3) Hy Hu. unfold consistent, well_shaped, move in *. simpl. rewrite !map_length, !move_rows_length by auto.
  repeat split; auto.
  rewrite map_map. rewrite C. apply map_ext_in. intros [[x l] b]. simpl. clear.
  revert ys us. induction (px s) as [|a t IH]; intros [|y ys] [|u us]; simpl; try contradiction.
  intros [E|H]; eauto. unfold move_one in E. destruct (accept _ _ _); injection E as <- <- <-; reflexivity.
Qed.
(** a valid mover proposes one point and one uniform per particle *)
Definition mover_ok (m : mover X) : Prop := forall s, length (fst (m s)) = length (px s) /\ length (snd (m s)) = length (px s).
Lemma apply_move_consistent m s : mover_ok m -> consistent s -> well_shaped s ->
  consistent (apply_move X m s) /\ well_shaped (apply_move X m s) /\ length (px (apply_move X m s)) = length (px s) /\ plogpdf (apply_move X m s) = plogpdf s.
Proof. intros M C W. unfold apply_move. destruct (M s) as [M1 M2]. destruct (m s) as [ys us]. apply move_consistent; auto. Qed.
Lemma moves_consistent ms : Forall mover_ok ms -> forall s, consistent s -> well_shaped s ->
  let s' := fold_left (fun s m => apply_move X m s) ms s in
  consistent s' /\ well_shaped s' /\ length (px s') = length (px s) /\ plogpdf s' = plogpdf s.
Proof.
  induction 1 as [|m ms M _ IH]; simpl; intros s C W. auto.
  destruct (apply_move_consistent m s M C W) as (A & B & L & D). destruct (IH _ A B) as (A' & B' & L' & D'). rewrite L', D'. auto.
Qed.
Lemma set_shaped f s : well_shaped s -> well_shaped (set_logpdf X f s).
Proof. auto. Qed.
Lemma step_consistent sch logpdf draw ms t s s' : Forall mover_ok ms -> well_shaped s -> step X sch logpdf draw ms t s = Some s' ->
  consistent s' /\ well_shaped s' /\ length (px s') = length (px s) /\ plogpdf s' = logpdf t.
Proof.
  intros M W. unfold step. cbv zeta. destruct (reweight_shaped true (set_logpdf X (logpdf t) s) (set_shaped (logpdf t) s W)) as (W1 & P1 & L1).
  destruct (resample X sch draw _) as [s2|] eqn:E; [|discriminate]. intros E'; injection E' as <-.
  apply resample_consistent in E as (C2 & W2 & N2 & F2); auto using reweight_consistent.
  destruct (moves_consistent ms M s2 C2 W2) as (C3 & W3 & N3 & F3). rewrite N3, F3, N2, F2, P1, L1. auto.
Qed.
Lemma init_shaped x f : well_shaped (particles_init X x f).
Proof. unfold well_shaped; simpl; rewrite !repeat_length; auto. Qed.
Lemma restart_loop_spec fuel sch logpdf draws mv next target : (forall k, Forall mover_ok (mv k)) ->
  forall cur k s path r s', well_shaped s -> restart_loop X fuel sch logpdf draws mv next target cur k s path = Some (r, s') ->
  well_shaped s' /\ length (px s') = length (px s) /\
  exists steps, r = path ++ steps /\ last (cur :: steps) cur = target /\
    (steps = [] -> s' = s) /\ (steps <> [] -> consistent s' /\ plogpdf s' = logpdf target).
Proof.
  intros HM. induction fuel as [|fuel IH]; intros cur k s path r s' W; simpl; unfold reqb; destruct (Req_EM_T cur target) as [E|E]; try discriminate.
  1,2: intros G; injection G as <- <-; split; [exact W|]; split; [reflexivity|]; exists []; rewrite app_nil_r; simpl; intuition congruence.
  destruct (next s cur) as [t|]; [|discriminate]. destruct (step X sch logpdf (draws k) (mv k) t s) as [s1|] eqn:ES; [|discriminate].
  apply step_consistent in ES as (C1 & W1 & N1 & F1); auto. intros G. apply IH in G; auto. destruct G as (W' & N' & steps & -> & HL & HE & HN).
  rewrite N', N1. split; auto. split; auto. exists (t :: steps). rewrite <- app_assoc. simpl app. split; auto. split; [|split].
  - destruct steps. exact HL. simpl in *. rewrite <- HL. clear. revert r. induction steps; simpl; auto.
  - discriminate.
  - intros _. destruct steps as [|t' steps]. rewrite (HE eq_refl). simpl in HL. subst t. auto. apply HN; discriminate.
Qed.
End Cons.

(** ** telescoping of weights *)
Section Tele.
Context {X : Type}.
Definition reweights (ops : list (bool * (X -> R))) (s : particles X) : particles X :=
  fold_left (fun s o => reweight X (fst o) (set_logpdf X (fun x => Fin (snd o x)) s)) ops s.
Lemma reweights_px ops : forall s, px (reweights ops s) = px s.
Proof. induction ops as [|[[] g] ops IH]; simpl; intros s; auto; unfold reweights in IH; rewrite IH; reflexivity. Qed.
Lemma weights_formula (g : X -> R) (xs : list X) : forall w l,
  zip2 fl_mul (map Fin w) (zip2 (fun a b => fl_exp (fl_sub a b)) (map (fun x => Fin (g x)) xs) (map Fin l))
  = map Fin (zip2 Rmult w (zip2 (fun x b => exp (g x - b)) xs l)).
Proof.
  induction xs as [|x xs IH]; intros [|v w] [|b l]; simpl; auto. rewrite IH. f_equal.
Qed.
Lemma reweights_probe ops : Forall (fun o => fst o = false) ops -> forall s, pw (reweights ops s) = pw s /\ plogpx (reweights ops s) = plogpx s.
Proof. induction 1 as [|[b g] ops H _ IH]; simpl; intros s; auto. simpl in H; subst b. unfold reweights in IH. rewrite !(proj1 (IH _)), !(proj2 (IH _)). auto. Qed.
Lemma zip_compose (h g : X -> R) (xs : list X) : forall w l, length w = length xs -> length l = length xs ->
  zip2 Rmult (zip2 Rmult w (zip2 (fun x b => exp (h x - b)) xs l)) (zip2 (fun x b => exp (g x - b)) xs (map h xs))
  = zip2 Rmult w (zip2 (fun x b => exp (g x - b)) xs l).
Proof.
  induction xs as [|x xs IH]; intros [|v w] [|b l] H1 H2; simpl in *; try lia; auto. f_equal; [|apply IH; lia].
  rewrite Rmult_assoc, <- exp_plus. f_equal. f_equal. ring.
Qed.
(** the weights depend only on the first cached values and on the last density used for an update *)
Lemma reweights_tele ops : forall s w l g ops2, pw s = map Fin w -> plogpx s = map Fin l -> length w = length (px s) -> length l = length (px s) ->
  Forall (fun o => fst o = false) ops2 ->
  pw (reweights (ops ++ (true, g) :: ops2) s) = map Fin (zip2 Rmult w (zip2 (fun x b => exp (g x - b)) (px s) l)).
Proof.
  induction ops as [|[b h] ops IH]; intros s w l g ops2 Hw Hl Lw Ll HF; cbn [app].
  - unfold reweights. cbn [fold_left fst snd]. fold (reweights ops2 (reweight X true (set_logpdf X (fun x => Fin (g x)) s))).
    rewrite (proj1 (reweights_probe ops2 HF _)). unfold reweight. simpl. rewrite Hw, Hl. apply weights_formula.
  - unfold reweights. cbn [fold_left fst snd]. fold (reweights (ops ++ (true, g) :: ops2) (reweight X b (set_logpdf X (fun x => Fin (h x)) s))).
    destruct b.
    + rewrite (IH _ (zip2 Rmult w (zip2 (fun x b => exp (h x - b)) (px s) l)) (map h (px s)) g ops2); auto.
      * cbn. f_equal. apply zip_compose; auto.
      * unfold reweight. simpl. rewrite Hw, Hl. apply weights_formula.
      * simpl. rewrite map_map. reflexivity.
      * rewrite !zip2_length; auto. rewrite zip2_length; auto.
      * apply map_length.
    + rewrite (IH _ w l g ops2); auto.
Qed.

(** ** the Metropolis test *)
Lemma accept_support u a b : accept u a b = true -> a <> NInf /\ a <> NaN /\ b <> NaN.
Proof. unfold accept. generalize (fl_ln (Fin u)). intros v. destruct a, b, v; simpl; intros H; try discriminate H; repeat split; discriminate. Qed.
Lemma accept_ratio u a b : (0 < u)%R -> (accept u (Fin a) (Fin b) = true <-> (u < exp (a - b))%R).
Proof.
  intros Hu. unfold accept. cbn [fl_ln fl_sub fl_opp fl_add]. unfold rltb. destruct (Rlt_dec 0 u); [|contradiction].
  cbn [fl_lt]. destruct (Rlt_dec (ln u) (a + - b)) as [H|H].
  - split; auto. intros _. rewrite <- (exp_ln u) by auto. apply exp_increasing. exact H.
  - split; [discriminate|]. intros G. exfalso. apply H. rewrite <- (ln_exp (a + - b)). apply ln_increasing; auto.
Qed.
(** predicates closed under accepted moves *)
Lemma move_invariant (P : X -> Prop) ys us (s : particles X) :
  (forall y, plogpdf s y <> NInf -> plogpdf s y <> NaN -> P y) -> Forall P (px s) ->
  Forall P (px (fst (move X ys us s))).
Proof.
  intros H. unfold move. simpl. generalize (plogpx s). revert ys us. induction (px s) as [|x xs IH]; intros ys us ls HP.
  - constructor.
  - inversion HP; subst. destruct ls as [|l ls], ys as [|y ys], us as [|u us]; simpl; try constructor.
    + unfold move_one. destruct (accept u (plogpdf s y) l) eqn:E; simpl; auto. apply accept_support in E as (A & B & _). auto.
    + apply IH; auto.
Qed.
Lemma move_weights ys us (s : particles X) : pw (fst (move X ys us s)) = pw s.
Proof. reflexivity. Qed.
Lemma moves_invariant (P : X -> Prop) ms : forall s : particles X,
  (forall y, plogpdf s y <> NInf -> plogpdf s y <> NaN -> P y) -> Forall P (px s) ->
  Forall P (px (fold_left (fun s m => apply_move X m s) ms s)).
Proof.
  induction ms as [|m ms IH]; simpl; intros s H HP; auto. apply IH.
  - unfold apply_move. destruct (m s). exact H.
  - unfold apply_move. destruct (m s). apply move_invariant; auto.
Qed.
Lemma moves_weights ms : forall s : particles X, pw (fold_left (fun s m => apply_move X m s) ms s) = pw s.
Proof. induction ms as [|m ms IH]; simpl; intros s; auto. rewrite IH. unfold apply_move. destruct (m s). reflexivity. Qed.
Lemma resample_incl sch draw (s s' : particles X) : resample X sch draw s = Some s' ->
  incl (px s') (px s) /\ pw s' = repeat (Fin (1 / INR (length (px s)))) (length (px s)) /\ plogpdf s' = plogpdf s.
Proof.
  assert (G : forall counts, resample_with X counts s = Some s' -> incl (px s') (px s) /\ pw s' = repeat (Fin (1 / INR (length (px s)))) (length (px s)) /\ plogpdf s' = plogpdf s).
  { intros counts. unfold resample_with, into_rows. cbv zeta. set (l := copy_loop (combine (px s) (plogpx s)) counts).
    destruct (length l <=? length (px s)); [|discriminate].
    assert (A : forall k l0, all_written (map Some l ++ repeat None k) = Some l0 -> l0 = l).
    { intros k. generalize l. induction l0 as [|a t IH]; simpl; intros l1. destruct k; simpl; [intros E; injection E as <-; auto|discriminate].
      destruct (all_written _) eqn:E; [|discriminate]. intros E1. simpl in E1; injection E1 as <-. rewrite (IH _ eq_refl). auto. }
    destruct (all_written _) as [l0|] eqn:E; [|discriminate]. apply A in E as ->. intros E2; injection E2 as <-. simpl. split; auto.
    intros x Hx. apply in_map_iff in Hx as ([a b] & <- & Hin). simpl.
    assert (I : forall (l1 : list (X * fl)) cs, In (a, b) (copy_loop l1 cs) -> In (a, b) l1).
    { clear. induction l1 as [|a' t IH]; intros [|c cs] H; simpl in *; auto; try contradiction. apply in_app_or in H as [H|H].
      apply repeat_spec in H; auto. right; eauto. }
    apply I in Hin. eapply in_combine_l; eauto. }
  destruct sch; simpl; unfold multinomial_resample, residual_resample; try discriminate; destruct (probs X s); try discriminate; apply G.
Qed.

(** ** subset simulation *)
Variable perf : X -> R.
Variable log_px : X -> fl.
Notation log_ind := (log_indicator X perf log_px).
(** weights after the first reweighting *)
Lemma first_stage (f : X -> fl) (h : X -> R) (x : list X) : (forall y, In y x -> f y = Fin (h y)) ->
  fl_sum (pw (reweight X true (set_logpdf X f (particles_init X x f)))) = Fin (sum_list (map (fun y => exp (h y)) x) / INR (length x)).
Proof.
  intros H. unfold reweight. simpl.
  assert (E : forall n c t, n = length t -> (forall y, In y t -> f y = Fin (h y)) ->
     zip2 fl_mul (repeat (Fin c) n) (zip2 (fun a b => fl_exp (fl_sub a b)) (map f t) (repeat (Fin 0) n)) = map Fin (map (fun y => c * exp (h y))%R t)).
  { clear. intros n c t; revert n. induction t as [|y t IH]; intros n -> H; simpl; auto. rewrite (H y) by (simpl; auto).
    rewrite IH; simpl; auto. do 4 f_equal. ring. intros; apply H; simpl; auto. }
  rewrite E by auto. rewrite fl_sum_fin, <- (map_map (fun y => exp (h y)) (Rmult (1 / INR (length x)))), sum_map_mul. f_equal. unfold Rdiv; ring.
Qed.
Lemma later_stage (f : X -> fl) (h : X -> R) (s : particles X) (g : X -> R) : px s <> [] ->
  pw s = repeat (Fin (1 / INR (length (px s)))) (length (px s)) ->
  plogpx s = map (fun y => Fin (g y)) (px s) -> (forall y, In y (px s) -> f y = Fin (h y)) ->
  fl_sum (pw (reweight X true (set_logpdf X f s))) = Fin (sum_list (map (fun y => exp (h y - g y)) (px s)) / INR (length (px s))).
Proof.
  intros Hn Hw Hl H. unfold reweight. simpl. rewrite Hw, Hl.
  assert (E : forall c t, (forall y, In y t -> f y = Fin (h y)) ->
     zip2 fl_mul (repeat (Fin c) (length t)) (zip2 (fun a b => fl_exp (fl_sub a b)) (map f t) (map (fun y => Fin (g y)) t)) = map Fin (map (fun y => c * exp (h y - g y))%R t)).
  { clear. intros c t. induction t as [|y t IH]; intros H; simpl; auto. rewrite (H y) by (simpl; auto).
    rewrite IH; simpl; auto. intros; apply H; simpl; auto. }
  rewrite E by auto. rewrite fl_sum_fin, <- (map_map (fun y => exp (h y - g y)) (Rmult (1 / INR (length (px s))))), sum_map_mul. f_equal. unfold Rdiv; ring.
Qed.
Variable inbox : X -> bool.
Variable V : R.
Hypothesis HV : (0 < V)%R.
Hypothesis Huni : forall x, log_px x = if inbox x then Fin (- ln V) else NInf.
Definition sure (upper : bool) (u : R) : Prop := forall x, (if upper then u < perf x else perf x < u)%R.
Lemma log_ind_sure upper u x : sure upper u -> log_ind upper u x = log_px x.
Proof. intros S. specialize (S x). unfold log_indicator, rltb. destruct upper; destruct Rlt_dec; auto; contradiction. Qed.
Lemma sum_const (c : R) (l : list X) : sum_list (map (fun _ => c) l) = (INR (length l) * c)%R.
Proof. induction l as [|a l IH]. unfold sum_list; simpl; ring. change (length (a :: l)) with (S (length l)). rewrite S_INR. simpl map. rewrite sum_list_cons, IH. ring. Qed.
Lemma map_in {A B} (f g : A -> B) l : (forall x, In x l -> f x = g x) -> map f l = map g l.
Proof. apply map_ext_in. Qed.
(** state kept between the stages for a sure event *)
Definition sub_ok (s : particles X) : Prop := px s <> [] /\ well_shaped s /\ Forall (fun x => inbox x = true) (px s) /\
  pw s = repeat (Fin (1 / INR (length (px s)))) (length (px s)) /\ plogpx s = map (fun _ => Fin (- ln V)) (px s).
Lemma stage_next sch upper draw ms u (s : particles X) p s' : sure upper u -> Forall mover_ok ms -> px s <> [] -> well_shaped s ->
  Forall (fun x => inbox x = true) (px s) ->
  subset_stage X perf log_px sch upper draw ms u s = (p, Some s') -> sub_ok s'.
Proof.
  intros S M Hn W HI. unfold subset_stage. cbv zeta.
  destruct (reweight_shaped true (set_logpdf X (log_ind upper u) s) (set_shaped _ s W)) as (W1 & P1 & L1).
  set (s1 := reweight X true (set_logpdf X (log_ind upper u) s)) in *.
  destruct (resample X sch draw s1) as [s2|] eqn:E; [|discriminate]. intros G; injection G as _ <-.
  destruct (resample_incl _ _ _ _ E) as (I2 & R2 & D2).
  destruct (resample_consistent sch draw s1 s2 (reweight_consistent _) W1 E) as (C2 & W2 & N2 & F2).
  destruct (moves_consistent ms M s2 C2 W2) as (C3 & W3 & N3 & F3).
  change (px s1 = px s) in P1. change (plogpdf s1 = log_ind upper u) in L1.
  set (s3 := fold_left (fun s m => apply_move X m s) ms s2) in *.
  assert (B3 : Forall (fun x => inbox x = true) (px s3)).
  { apply moves_invariant.
    - intros y. rewrite F2, L1. rewrite log_ind_sure by auto. rewrite Huni. destruct (inbox y); [reflexivity|]. intros Q; contradiction (Q eq_refl).
    - apply Forall_forall. intros x Hx. apply I2 in Hx. rewrite P1 in Hx. revert x Hx. apply Forall_forall; auto. }
  repeat split; auto.
  - intros E0. rewrite E0 in N3. simpl in N3. rewrite N2, P1 in N3. destruct (px s); [congruence|discriminate].
  - apply W3.
  - apply W3.
  - apply W3.
  - unfold s3. rewrite moves_weights. fold s3. rewrite R2, N3, N2. reflexivity.
  - rewrite C3. apply map_in. intros x Hx. rewrite F3, F2, L1, log_ind_sure, Huni by auto. rewrite Forall_forall in B3. rewrite (B3 x Hx). reflexivity.
Qed.
Lemma fl_prod_ones {A} (l : list A) a : fold_left fl_mul (map (fun _ => Fin 1) l) (Fin a) = Fin a.
Proof. revert a; induction l as [|c l IH]; intros a; cbn [map fold_left]; auto. cbn [fl_mul]. rewrite IH, Rmult_1_r. reflexivity. Qed.
Lemma later_run sch upper draws mv us : Forall (sure upper) us -> (forall k, Forall mover_ok (mv k)) -> forall k s ps, sub_ok s ->
  subset_run X perf log_px sch upper draws mv us k s = Some ps -> ps = map (fun _ => Fin 1) us.
Proof.
  intros HS HM. induction HS as [|u us S _ IH]; intros k s ps K; cbn [subset_run map]. intros E; injection E as <-; reflexivity.
  destruct (subset_stage X perf log_px sch upper (draws k) (mv k) u s) as [p [s'|]] eqn:E; [|discriminate].
  pose proof E as E'. destruct K as (K1 & K2 & K3 & K4 & K5).
  apply stage_next in E'; auto. destruct (subset_run X perf log_px sch upper draws mv us (Datatypes.S k) s') as [ps'|] eqn:ER; [|discriminate].
  simpl. intros G; injection G as <-. f_equal; [|apply (IH _ _ _ E' ER)].
  unfold subset_stage in E. cbv zeta in E. injection E as <- _.
  change (fl_sum (pw (reweight X true (set_logpdf X (log_ind upper u) s))) = Fin 1).
  rewrite (later_stage _ (fun _ => - ln V)%R s (fun _ => - ln V)%R); auto.
  - f_equal. rewrite sum_const. rewrite Rminus_diag_eq, exp_0 by reflexivity. field. apply not_0_INR. destruct (px s); simpl; [congruence|lia].
  - intros y Hy. rewrite log_ind_sure, Huni by auto. rewrite Forall_forall in K3. rewrite (K3 y Hy). reflexivity.
Qed.
Lemma sure_run sch upper draws mv us x f ps : us <> [] -> x <> [] -> Forall (fun y => inbox y = true) x -> Forall (sure upper) us -> (forall k, Forall mover_ok (mv k)) ->
  subset_run X perf log_px sch upper draws mv us 0 (particles_init X x f) = Some ps -> ps = Fin (1 / V) :: map (fun _ => Fin 1) (tl us).
Proof.
  intros Hu Hx HI HS HM. destruct us as [|u us]; [congruence|]. inversion HS as [|? ? S HS']; subst. cbn [subset_run tl].
  destruct (subset_stage X perf log_px sch upper (draws 0) (mv 0) u (particles_init X x f)) as [p [s'|]] eqn:E; [|discriminate].
  pose proof E as E'. apply stage_next in E'; auto using init_shaped.
  destruct (subset_run X perf log_px sch upper draws mv us 1 s') as [ps'|] eqn:ER; [|discriminate]. simpl. intros G; injection G as <-.
  rewrite (later_run _ _ _ _ _ HS' HM _ _ _ E' ER). f_equal.
  unfold subset_stage in E. cbv zeta in E. injection E as <- _.
  pose proof (first_stage (log_ind upper u) (fun _ => - ln V)%R x) as F. unfold reweight in *. simpl in *. rewrite F.
  - f_equal. rewrite sum_const, exp_Ropp, exp_ln by auto. field. split; [lra|]. apply not_0_INR. destruct x; simpl; [congruence|lia].
  - intros y Hy. rewrite log_ind_sure, Huni by auto. rewrite Forall_forall in HI. rewrite (HI y Hy). reflexivity.
Qed.
End Tele.
