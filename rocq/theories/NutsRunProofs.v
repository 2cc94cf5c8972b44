(** Lemmas for NutsRunModel: a run is a sequence of transitions, each started where the previous one ended. *)
From Coq Require Import List Arith ZArith Reals Bool Lra Lia.
From Verif Require Import ConfigModel FlModel PriorModel SmcModel MhModel DesignModel PostModel NutsModel NutsProofs NutsRunModel.
Import ListNotations.
Local Open Scope R_scope.

(** some values of the uniform draws make the program [m] return [a] *)
Fixpoint possible {A} (m : rnd A) (a : A) : Prop :=
  match m with Ret b => b = a | Draw k => exists u, 0 <= u < 1 /\ possible (k u) a end.
Lemma always_possible {A} (m : rnd A) : always m (possible m).
Proof.
  induction m as [a | k ih]; cbn [always possible]; [reflexivity |]. intros u hu.
  eapply always_mono; [| apply ih]. intros a h. now exists u.
Qed.
Lemma possible_always {A} (m : rnd A) P a : always m P -> possible m a -> P a.
Proof.
  induction m as [b | k ih]; cbn [always possible]; [now intros h <- |]. intros h [u [hu hp]]. exact (ih u (h u hu) hp).
Qed.

Section Run.
Variables (d : nat) (lp : vec -> fl) (grad : vec -> option vec) (xi : nat -> nat -> vec).
Variables (max_depth : nat) (delta_max : R).
Notation pot := (pot_of lp grad).
Notation vfin := (vfin_of lp).

(** a row written by one transition from [q] at iteration t, chain c, with step size and mass [em] *)
Definition row_ok (em : R * vec) (t c : nat) (q : vec) (r : rowc) : Prop :=
  possible (nuts_transition d pot (fun i => 1 / snd em i) (fst em) delta_max vfin max_depth q (fun i => xi t c i * sqrt (snd em i))) (c_out r) /\
  c_lp r = lp (o_q (c_out r)).
Fixpoint rows_ok (em : R * vec) (t c : nat) (qs : list vec) (rows : list rowc) : Prop :=
  match qs, rows with
  | [], [] => True
  | q :: qs, r :: rows => row_ok em t c q r /\ rows_ok em t (S c) qs rows
  | _, _ => False
  end.
Fixpoint linked (t : nat) (qs : list vec) (ems : list (R * vec)) (tr : list (list rowc)) : Prop :=
  match ems, tr with
  | [], [] => True
  | em :: ems, rows :: tr => rows_ok em t 0 qs rows /\ linked (S t) (positions rows) ems tr
  | _, _ => False
  end.
Fixpoint final_positions (qs : list vec) (tr : list (list rowc)) : list vec :=
  match tr with [] => qs | rows :: tr => final_positions (positions rows) tr end.

Lemma chains_iter_ok step mass t : forall qs c, always (chains_iter d lp grad xi max_depth delta_max step mass t c qs) (rows_ok (step, mass) t c qs).
Proof.
  induction qs as [| q qs ih]; intro c; cbn [chains_iter always]; [exact I |].
  eapply always_bind; [apply always_possible |]. intros o ho. eapply always_bind; [apply (ih (S c)) |]. intros rest hr.
  cbn [always rows_ok]. split; [| exact hr]. split; [exact ho | reflexivity].
Qed.
Lemma warm_iter_used o ws t s outs s' : warm_iter o ws t s outs = Some s' -> m_used s' = m_used s ++ [(m_step s, m_mass s)].
Proof.
  unfold warm_iter. destruct (math_exp _); [| discriminate]. cbv zeta. destruct (at_end ws (t + 1)); intro h; injection h as <-; reflexivity.
Qed.
Lemma warm_phase_ok o ws : forall n t s qs, always (warm_phase d lp grad xi max_depth delta_max o ws n t s qs) (fun r =>
  forall s' qs' tr, r = Some (s', qs', tr) -> exists ems, m_used s' = m_used s ++ ems /\ length tr = n /\ linked t qs ems tr /\
    qs' = final_positions qs tr /\ warm_loop o ws (Z.of_nat t) s (map (map (fun r => (o_q (c_out r), o_accept (c_out r)))) tr) = Some s').
Proof.
  induction n as [| n ih]; intros t s qs; cbn [warm_phase always].
  - intros s' qs' tr h. injection h as <- <- <-. exists []. rewrite app_nil_r. now repeat split.
  - eapply always_bind; [apply chains_iter_ok |]. intros rows hrows. destruct (warm_iter o ws (Z.of_nat t) s (stats rows)) as [s1 |] eqn:e; [| cbn [always]; discriminate].
    eapply always_bind; [apply (ih (S t) s1 (positions rows)) |]. intros [[[s2 q2] tr] |] h; cbn [always]; [| discriminate].
    intros s' qs' tr' e'. injection e' as <- <- <-. destruct (h s2 q2 tr eq_refl) as [ems [h1 [h2 [h3 [h4 h5]]]]].
    exists ((m_step s, m_mass s) :: ems). split; [rewrite h1, (warm_iter_used _ _ _ _ _ _ e), <- app_assoc; reflexivity |].
    split; [cbn [length]; congruence |]. split; [split; assumption |]. split; [exact h4 |].
    cbn [map warm_loop]. fold (stats rows). rewrite e. replace (Z.of_nat t + 1)%Z with (Z.of_nat (S t)) by lia. exact h5.
Qed.
Lemma sample_phase_ok step mass : forall n t qs, always (sample_phase d lp grad xi max_depth delta_max step mass n t qs) (fun tr =>
  length tr = n /\ linked t qs (repeat (step, mass) n) tr).
Proof.
  induction n as [| n ih]; intros t qs; cbn [sample_phase always]; [now split |].
  eapply always_bind; [apply chains_iter_ok |]. intros rows hrows. eapply always_bind; [apply ih |]. intros tr [h1 h2]. cbn [always repeat].
  split; [cbn [length]; congruence |]. now split.
Qed.
Lemma linked_app ems2 tr2 : forall tr1 ems1 t qs, linked t qs ems1 tr1 -> linked (t + length tr1) (final_positions qs tr1) ems2 tr2 ->
  linked t qs (ems1 ++ ems2) (tr1 ++ tr2).
Proof.
  induction tr1 as [| rows tr1 ih]; intros [| em ems1] t qs h1 h2; try easy.
  - cbn in *. now rewrite Nat.add_0_r in h2.
  - cbn [app linked] in *. split; [easy |]. apply ih; [easy |]. cbn [length] in h2. now replace (S t + length tr1)%nat with (t + S (length tr1))%nat by lia.
Qed.
Lemma rows_ok_length em t : forall qs rows c, rows_ok em t c qs rows -> length rows = length qs.
Proof. induction qs as [| q qs ih]; intros [| r rows] c h; try easy. cbn in *. f_equal. eapply ih. exact (proj2 h). Qed.
Lemma rows_ok_nth em t : forall qs rows c i r, rows_ok em t c qs rows -> nth_error rows i = Some r ->
  exists q, nth_error qs i = Some q /\ row_ok em t (c + i) q r.
Proof.
  induction qs as [| q qs ih]; intros [| r0 rows] c i r h hi; try easy.
  - now destruct i.
  - destruct i as [| i]; cbn in hi.
    + injection hi as <-. exists q. rewrite Nat.add_0_r. split; [reflexivity | exact (proj1 h)].
    + destruct (ih rows (S c) i r (proj2 h) hi) as [q' [e1 e2]]. exists q'. split; [exact e1 |]. now replace (c + S i)%nat with (S c + i)%nat by lia.
Qed.
(** positions before iteration t of the trace *)
Definition before (qs : list vec) (tr : list (list rowc)) (t : nat) : option (list vec) :=
  match t with O => Some qs | S t => option_map positions (nth_error tr t) end.
Lemma linked_length : forall tr t qs ems, linked t qs ems tr -> length ems = length tr.
Proof. induction tr as [| rows tr ih]; intros t qs [| em ems] h; try easy. cbn. f_equal. eapply ih. exact (proj2 h). Qed.
Lemma linked_nth : forall tr t0 qs ems, linked t0 qs ems tr -> forall t rows, nth_error tr t = Some rows ->
  exists em qs', nth_error ems t = Some em /\ before qs tr t = Some qs' /\ rows_ok em (t0 + t) 0 qs' rows.
Proof.
  induction tr as [| rows0 tr ih]; intros t0 qs [| em ems] h t rows ht; try easy.
  - now destruct t.
  - destruct t as [| t]; cbn in ht.
    + injection ht as <-. exists em, qs. rewrite Nat.add_0_r. split; [reflexivity |]. split; [reflexivity | exact (proj1 h)].
    + destruct (ih (S t0) (positions rows0) ems (proj2 h) t rows ht) as [em' [qs' [e1 [e2 e3]]]]. exists em', qs'. split; [exact e1 |]. split.
      * destruct t; exact e2.
      * now replace (t0 + S t)%nat with (S t0 + t)%nat by lia.
Qed.
Lemma linked_rows_length : forall tr t0 qs ems, linked t0 qs ems tr -> forall rows, In rows tr -> length rows = length qs.
Proof.
  induction tr as [| rows0 tr ih]; intros t0 qs [| em ems] h rows hin; try easy.
  destruct hin as [<- | hin]; [exact (rows_ok_length _ _ _ _ _ (proj1 h)) |].
  rewrite (ih _ _ _ (proj2 h) rows hin). unfold positions. rewrite map_length. exact (rows_ok_length _ _ _ _ _ (proj1 h)).
Qed.
End Run.
