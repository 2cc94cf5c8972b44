(** C110: the wrappers for a constant mean, and the split between mean and covariance parameters *)
From Coq Require Import List Arith Reals Bool Lia Lra.
From Verif Require Import ConfigModel FlModel SelectModel SelectProofs SelectThms MlModel.
Import ListNotations.

(** every point asked or returned has n coordinates *)
Fixpoint shaped (n : nat) (s : strat (list R)) : Prop :=
  match s with
  | Done x _ => length x = n
  | Raise => True
  | Ask p k => length p = n /\ forall J, shaped n (k J)
  end.
Lemma run_shaped crit pm k n s l e : shaped n s -> run _ _ (crit_ crit pm k) s tt l e ->
  (forall p J, In (p, J) l -> length p = n) /\ (forall x f, e = Some (x, f) -> length x = n).
Proof.
  revert l e. induction s as [x f|p K IH|]; intros l e H R; inversion R; subst; simpl in H.
  - split; [intros ? ? []|intros x' f' E; injection E as <- <-; auto].
  - destruct H as [G1 G2]. destruct st'. destruct (IH J l0 e (G2 J)) as [I1 I2]; [auto|]. split; auto.
    intros q J' [E|HI]; [injection E as <- <-; auto|eauto].
  - split; [intros ? ? []|discriminate].
  - split; [intros ? ? []|discriminate].
Qed.
Lemma result_shaped crit pm k n s r x : shaped n s -> autoselect _ _ (crit_ crit pm k) s tt = Some r -> r_x _ r = Some x -> length x = n.
Proof.
  intros S A X. destruct (autoselect_some _ _ _ _ _ _ A) as (x' & f & Rn & _ & D & _).
  destruct (run_shaped _ _ _ _ _ _ _ S Rn) as [H1 H2].
  destruct D as [(_ & X' & _)|(_ & _ & p & X' & I)]; rewrite X in X'; injection X' as <-; eauto.
Qed.

(** the vector [meanparam, covparam] is cut at meanparam_len whatever the length of the mean parameters *)
Theorem C110_split crit guess opt m mu c k m' r : m_meanparam m = Some mu -> m_covparam m = Some c ->
  (forall p0, shaped (length p0) (opt p0)) ->
  update_with crit guess opt m true k = Some (m', r) ->
  exists mu' c', m_meanparam m' = Some mu' /\ m_covparam m' = Some c' /\
    length mu' = Nat.min k (length mu + length c) /\ length mu' + length c' = length mu + length c /\
    (length mu' = length mu /\ length c' = length c <-> k = length mu \/ (length mu + length c <= k /\ c = [])).
Proof.
  intros Em Ec Hs E. unfold update_with in E. rewrite Em, Ec in E.
  destruct (select_some _ _ _ _ _ _ _ _ _ _ E) as (p0 & x & A & X & (mu0 & M1 & M2) & ->).
  injection M1 as <-. assert (L : length x = length mu + length c).
  { rewrite <- app_length, <- M2. eapply result_shaped; eauto. }
  exists (firstn k x), (skipn k x). simpl. rewrite firstn_length, skipn_length, L. repeat split; auto; try lia.
  - intros [H1 H2]. destruct (Nat.le_gt_cases k (length mu + length c)) as [Hk|Hk]; [left; lia|right]. split; [lia|].
    destruct c; [auto|simpl in *; lia].
  - destruct H as [->|[Hk ->]]; simpl in *; lia.
  - destruct H as [->|[Hk ->]]; simpl in *; lia.
Qed.
Print Assumptions C110_split.

(** when the wrapper for a constant mean refuses, before any evaluation *)
Theorem C110_refused crit guess opt par m mp0 cp0 :
  let mean0 := match mp0 with Some a => Some a | None => option_map fst guess end in
  par = false \/ (guess = None /\ (mp0 = None \/ cp0 = None)) \/ (exists a, mean0 = Some a /\ length a <> 1) ->
  select_ml_constant_mean crit guess opt par m mp0 cp0 = None.
Proof.
  intros mean0 [->|[[-> H]|(a & H & La)]]; [reflexivity| |].
  - unfold select_ml_constant_mean. destruct par; [|reflexivity]. simpl. destruct mp0, cp0; auto. destruct H; discriminate.
  - subst mean0. unfold select_ml_constant_mean. destruct par; [|reflexivity]. simpl.
    assert (N : Nat.eqb (length a) 1 = false) by (apply Nat.eqb_neq; auto).
    destruct mp0, cp0, guess as [[? ?]|]; simpl in H; try discriminate; injection H as <-; try rewrite N; auto.
Qed.
Print Assumptions C110_refused.

(** an accepted call: one mean parameter, explicit values kept (the guess is used for the missing ones only), the model receives
    one mean parameter and as many covariance parameters as the start has, and realises the reported value; after an evaluation of
    the start the criterion has not increased *)
Theorem C110_accepted crit guess opt m mp0 cp0 m' r :
  (forall p0, shaped (length p0) (opt p0)) -> (forall p0, honest crit true 1 (opt p0)) ->
  select_ml_constant_mean crit guess opt true m mp0 cp0 = Some (m', r) ->
  exists mu c mu' c', (mp0 = Some [mu] \/ mp0 = None /\ option_map fst guess = Some [mu]) /\
    (cp0 = Some c \/ cp0 = None /\ option_map snd guess = Some c) /\
    m_meanparam m' = Some [mu'] /\ m_covparam m' = Some c' /\ length c' = length c /\
    answers (crit (Some [mu']) c') (r_fun _ r) /\
    (forall J0, answers (crit (Some [mu]) c) J0 -> J0 <> NaN -> r_fun _ r <> NaN ->
       (forall p0, exists k, opt p0 = Ask p0 k) -> fl_le (r_fun _ r) J0 = true).
Proof.
  intros Hs Hh E.
  assert (F : exists a c, (mp0 = Some a \/ mp0 = None /\ option_map fst guess = Some a) /\
    (cp0 = Some c \/ cp0 = None /\ option_map snd guess = Some c) /\ length a = 1 /\ select_with crit c opt m (Some a) (Some c) true 1 = Some (m', r)).
  { unfold select_ml_constant_mean in E. simpl in E.
    destruct mp0 as [a|], cp0 as [c|], guess as [[ga gc]|]; try discriminate;
    match type of E with (if Nat.eqb (length ?u) 1 then select_with _ ?v _ _ _ _ _ _ else _) = _ =>
      exists u, v; destruct (Nat.eqb (length u) 1) eqn:N; [|discriminate]; apply Nat.eqb_eq in N end; simpl; auto 10. }
  destruct F as (a & c & F1 & F2 & La & F3).
  destruct a as [|mu [|? ?]]; try discriminate La.
  destruct (C45_model_improved crit c opt m (Some [mu]) (Some c) true 1 m' r (mkModel (Some [mu]) (Some c)) NaN Hh F3) as (V & _ & _).
  destruct (select_some _ _ _ _ _ _ _ _ _ _ F3) as (p0 & x & A & X & (mu0 & M1 & M2) & Em). injection M1 as <-. subst p0 m'.
  assert (L := result_shaped _ _ _ _ _ _ _ (Hs _) A X). simpl in L. destruct x as [|mu' c']; [discriminate|]. injection L as L.
  exists mu, c, mu', c'. simpl. split; [exact F1|]. split; [exact F2|]. split; [reflexivity|]. split; [reflexivity|]. split; [exact L|]. split.
  - destruct V as (c1 & C1 & mu1 & C2 & V). simpl in C1, C2. injection C1 as <-. injection C2 as <-. exact V.
  - intros J0 HJ HN HR Hf.
    destruct (C45_model_improved crit c opt m (Some [mu]) (Some c) true 1 _ r (mkModel (Some [mu]) (Some c)) J0 Hh F3) as (_ & _ & I).
    apply I; auto; simpl; [exists [mu]; auto|exists c; split; auto; exists [mu]; auto].
Qed.
Print Assumptions C110_accepted.
(** an update never looks at the guess when the model has both vectors *)
Theorem C110_update_guess crit guess guess' opt par m mu c : m_meanparam m = Some mu -> m_covparam m = Some c ->
  update_ml_constant_mean crit guess opt par m = update_ml_constant_mean crit guess' opt par m.
Proof. intros Hm Hc. unfold update_ml_constant_mean, select_ml_constant_mean. rewrite Hm, Hc. reflexivity. Qed.
Print Assumptions C110_update_guess.

(** an optimiser that evaluates its start and the origin; a model with two mean parameters cut at one *)
Example C110_case :
  let crit (mu : option (list R)) (c : list R) := Value (Fin (match mu with Some [a] => a * a | _ => 0 end + match c with b :: _ => b * b | [] => 0 end)%R) in
  let opt p0 := Ask p0 (fun _ => Ask (map (fun _ => 0%R) p0) (fun J => Done (map (fun _ => 0%R) p0) J)) in
  (forall p0, shaped (length p0) (opt p0)) /\ (forall p0, honest crit true 1 (opt p0)) /\
  (exists r, select_ml_constant_mean crit None opt true (mkModel None None) (Some [1%R]) (Some [2%R; 3%R]) = Some (mkModel (Some [0%R]) (Some [0%R; 0%R]), r)) /\
  (exists r, update_with crit [] opt (mkModel (Some [1%R; 1%R]) (Some [2%R; 3%R])) true 1 = Some (mkModel (Some [0%R]) (Some [0%R; 0%R; 0%R]), r)) /\
  select_ml_constant_mean crit None opt true (mkModel None None) (Some [1%R; 1%R]) (Some [2%R]) = None.
Proof.
  split; [intros p0; simpl; rewrite map_length; auto|]. split; [|split; [|split; [|reflexivity]]].
  - intros p0 l x f H. inversion H as [|? |? ? ? o s1 J l1 e1 C1 A1 R1|? ? ? s1 C1]; subst.
    inversion R1 as [|? |? ? ? o2 s2 J2 l2 e2 C2 A2 R2|? ? ? s2 C2]; subst.
    inversion R2; subst. simpl. unfold crit_ in C2. injection C2 as <- _. exact A2.
  - eexists. cbv -[IZR fl_lt fl_le Rmult Rplus]. unfold fl_lt. repeat (destruct (Rlt_dec _ _); try lra); reflexivity.
  - eexists. cbv -[IZR fl_lt fl_le Rmult Rplus]. unfold fl_lt. repeat (destruct (Rlt_dec _ _); try lra); reflexivity.
Qed.
