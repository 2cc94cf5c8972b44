(** C48-C52, C77, C78: sequential Monte Carlo (gpmp/mcmc/smc.py). *)
From Coq Require Import List Arith ZArith Reals Bool Lia Lra Psatz.
From Verif Require Import ConfigModel FlModel PriorModel PriorProofs SelectProofs SmcModel SmcProofs SmcProofs2.
Import ListNotations.
Local Open Scope R_scope.

(** ** C48 *)
(** normalised weight of particle i; uniform when all weights vanish *)
Definition share (w : list R) (i : nat) : R :=
  if Req_EM_T (sum_list w) 0 then 1 / INR (length w) else nth i w 0 / sum_list w.
Theorem C48_resample {X} (d : X) sch draw (s : particles X) w :
  sch <> Unknown -> multinomial_draw draw -> well_shaped s -> px s <> [] -> pw_tmp s = map Fin w -> Forall (fun v => 0 <= v) w ->
  exists s' src, resample X sch draw s = Some s' /\ length src = length (px s) /\ (forall i, In i src -> (i < length (px s))%nat) /\
    px s' = map (fun i => nth i (px s) d) src /\ plogpx s' = map (fun i => nth i (plogpx s) NaN) src /\
    pw s' = repeat (Fin (1 / INR (length (px s)))) (length (px s)) /\ pw_tmp s' = pw s' /\ plogpdf s' = plogpdf s /\
    (sch = Residual -> forall i k, (i < length (px s))%nat -> INR k <= INR (length (px s)) * share w i -> (k <= count_occ Nat.eq_dec src i)%nat) /\
    (draws_no_null draw -> forall i, nth i w 1 = 0 -> (exists j, nth j w 0 <> 0) -> ~ In i src).
Proof.
  intros HS HD W Hn Hw HP.
  assert (LW : length w = length (px s)). { destruct W as (_ & _ & E). rewrite Hw, map_length in E. auto. }
  destruct (probs_spec s w) as (p & E & Lp & Pp & Sp & P1 & P2); auto. rewrite Hw; apply fins_of_map.
  assert (Hp : p <> []) by (intros ->; destruct (px s); simpl in *; congruence || lia).
  assert (SH : forall i, (i < length (px s))%nat -> nth i p 0 = share w i).
  { intros i Hi. unfold share. destruct (Req_EM_T (sum_list w) 0); [rewrite LW; auto|auto]. }
  assert (Z : forall i, nth i w 1 = 0 -> (exists j, nth j w 0 <> 0) -> (i < length (px s))%nat /\ nth i p 1 = 0 /\ nth i p 0 = 0).
  { intros i Hi (j & Hj). assert (i < length w)%nat.
    { destruct (le_lt_dec (length w) i) as [L|L]; auto. rewrite nth_overflow in Hi by auto. lra. }
    assert (SN : sum_list w <> 0). { intros SZ. apply Hj. destruct (nth_in_or_default j w 0) as [I|I]; auto. apply (sum_zero w); auto. }
    assert (nth i p 0 = 0). { rewrite P1 by auto. rewrite (nth_indep w 0 1) by auto. rewrite Hi. unfold Rdiv; ring. }
    split; [lia|]. split; auto. rewrite (nth_indep p 1 0) by lia. auto. }
  assert (G : forall counts, length counts = length (px s) -> list_sum counts = length (px s) ->
    (sch = Residual -> forall i k, (i < length (px s))%nat -> INR k <= INR (length (px s)) * share w i -> (k <= nth i counts 0)%nat) ->
    (draws_no_null draw -> forall i, nth i w 1 = 0 -> (exists j, nth j w 0 <> 0) -> nth i counts 0%nat = 0%nat) ->
    resample X sch draw s = resample_with X counts s -> exists s' src, resample X sch draw s = Some s' /\ length src = length (px s) /\ (forall i, In i src -> (i < length (px s))%nat) /\
    px s' = map (fun i => nth i (px s) d) src /\ plogpx s' = map (fun i => nth i (plogpx s) NaN) src /\
    pw s' = repeat (Fin (1 / INR (length (px s)))) (length (px s)) /\ pw_tmp s' = pw s' /\ plogpdf s' = plogpdf s /\
    (sch = Residual -> forall i k, (i < length (px s))%nat -> INR k <= INR (length (px s)) * share w i -> (k <= count_occ Nat.eq_dec src i)%nat) /\
    (draws_no_null draw -> forall i, nth i w 1 = 0 -> (exists j, nth j w 0 <> 0) -> ~ In i src)).
  { intros counts L1 L2 R1 R2 ER. destruct (resample_with_spec d counts s W L1 L2) as (s' & A1 & A2 & A3 & A4 & A5 & A6).
    exists s', (anc 0 counts). rewrite ER, A1, A4, A5, anc_length. repeat split; auto.
    - intros i Hi. apply anc_range in Hi. lia.
    - intros Q i k Hi Hk. change i with (0 + i)%nat. rewrite anc_count. auto.
    - intros Q i Hi Hj Hin. specialize (R2 Q i Hi Hj). apply (count_occ_In Nat.eq_dec) in Hin. change i with (0 + i)%nat in Hin. rewrite anc_count in Hin. lia. }
  destruct sch; [| |congruence].
  - apply (G (draw (length (px s)) p)).
    + destruct (HD (length (px s)) p Hp); lia.
    + destruct (HD (length (px s)) p Hp); auto.
    + discriminate.
    + intros Q i Hi Hj. apply Q; [exact Sp|]. apply Z; auto.
    + simpl. unfold multinomial_resample. rewrite E. reflexivity.
  - destruct (residual_counts_spec draw (length (px s)) p HD Hp Pp Sp) as (R1 & R2 & R3).
    apply (G (residual_counts draw (length (px s)) p)); auto.
    + lia.
    + intros _ i k Hi Hk. apply R3. lia. rewrite SH; auto.
    + intros Q i Hi Hj. destruct (Z i Hi Hj) as (Z1 & Z2 & Z3).
      destruct (residual_parts draw (length (px s)) p i Pp Sp ltac:(lia) HD Hp) as (V0 & V3 & V1 & V2). rewrite V1. rewrite Z3 in *. clear V1.
      assert (F0 : floor_nat (INR (length (px s)) * 0) = 0%nat).
      { destruct (floor_nat_spec (INR (length (px s)) * 0)) as [F _]; [lra|]. rewrite Rmult_0_r in *. apply INR_eq. apply Rle_antisym; auto. apply pos_INR. }
      rewrite F0 in *. destruct (Nat.ltb_spec 0 (residual_n (length (px s)) p)) as [L|L]; auto.
      simpl. apply Q. { apply residual_pv_sum. destruct p; simpl in *; congruence || lia. } apply lt_INR in L. simpl in L. simpl in V2.
      assert (nth i (residual_pv (length (px s)) p) 0 = 0). { apply Rmult_eq_reg_l with (INR (residual_n (length (px s)) p)); lra. }
      rewrite (nth_indep (residual_pv (length (px s)) p) 1 0) by lia. auto.
    + simpl. unfold residual_resample. rewrite E. reflexivity.
Qed.
Print Assumptions C48_resample.
(** an unknown scheme or a non-finite weight never yields a particle set *)
Theorem C48_refusals {X} sch draw (s : particles X) : sch = Unknown \/ Exists (fun a => fl_is_finite a = false) (pw_tmp s) ->
  resample X sch draw s = None.
Proof.
  intros [->|H]; auto. assert (E : probs X s = None).
  { unfold probs. assert (F : fins_of (pw_tmp s) = None); [|rewrite F; auto]. induction H as [a l H|a l _ IH]; simpl. destruct a; auto; discriminate. destruct a; auto. rewrite IH; auto. }
  destruct sch; simpl; unfold multinomial_resample, residual_resample; rewrite ?E; auto.
Qed.
Print Assumptions C48_refusals.
(** both schemes give particle i exactly n * share i copies on average *)
Definition mean_of (law : list (R * (nat -> list R -> list nat))) (g : (nat -> list R -> list nat) -> R) : R :=
  sum_list (map (fun a => fst a * g (snd a)) law).
Theorem C48_residual_unbiased law n p i :
  sum_list (map fst law) = 1 -> Forall (fun a => multinomial_draw (snd a)) law ->
  (forall m pv j, pv <> [] -> (j < length pv)%nat -> mean_of law (fun draw => INR (nth j (draw m pv) 0%nat)) = INR m * nth j pv 0) ->
  p <> [] -> Forall (fun v => 0 <= v) p -> sum_list p = 1 -> (i < length p)%nat ->
  mean_of law (fun draw => INR (nth i (residual_counts draw n p) 0%nat)) = INR n * nth i p 0.
Proof.
  intros HL HD HM Hp HP HS Hi.
  assert (ND : exists draw0, multinomial_draw draw0). { destruct law as [|[a d0] law]. unfold sum_list in HL; simpl in HL; lra. inversion HD; eauto. }
  destruct ND as (draw0 & D0). destruct (residual_parts draw0 n p i HP HS Hi D0 Hp) as (V0 & V1 & _ & V2).
  set (k := floor_nat (INR n * nth i p 0)) in *. set (m := residual_n n p) in *. set (pv := residual_pv n p) in *.
  assert (EQ : mean_of law (fun draw => INR (nth i (residual_counts draw n p) 0%nat)) = mean_of law (fun draw => INR k + if (0 <? m)%nat then INR (nth i (draw m pv) 0%nat) else 0)).
  { unfold mean_of. f_equal. apply map_ext_in. intros [a dr] Ha. simpl. rewrite Forall_forall in HD. destruct (residual_parts dr n p i HP HS Hi (HD _ Ha) Hp) as (_ & _ & F & _).
    rewrite F. fold k m pv. rewrite plus_INR. f_equal. f_equal. destruct (0 <? m)%nat; auto. }
  assert (LN : forall c g, mean_of law (fun d => c + g d) = c + mean_of law g).
  { intros c g. transitivity (c * sum_list (map fst law) + mean_of law g); [|rewrite HL; ring]. unfold mean_of. clear.
    induction law as [|[a dr] l IH]. unfold sum_list; simpl; ring. simpl map. rewrite !sum_list_cons, IH. simpl. ring. }
  rewrite EQ, V2, LN. f_equal. destruct (Nat.ltb_spec 0 m) as [L|L].
  - apply HM; auto. lia.
  - assert (m = 0)%nat as -> by lia. simpl INR. rewrite Rmult_0_l. unfold mean_of. apply sum_all_zero. intros v Hv. apply in_map_iff in Hv as (a & <- & _). ring.
Qed.
Print Assumptions C48_residual_unbiased.
(** three particles, weights 1, 0, 3: the third gets at least two of the three places, the second none *)
(** both contracts on the draw are met, for instance, by the draw that puts everything on the first category of non-zero probability *)
Fixpoint support_draw (n : nat) (p : list R) : list nat :=
  match p with
  | [] => []
  | [_] => [n]
  | a :: p' => if Req_EM_T a 0 then 0%nat :: support_draw n p' else n :: map (fun _ => 0%nat) p'
  end.
Lemma support_draw_ok : multinomial_draw support_draw /\ draws_no_null support_draw.
Proof.
  split.
  - intros n p. induction p as [|a p IH]; [congruence|]. intros _. destruct p as [|b p]; [simpl; lia|].
    change (support_draw n (a :: b :: p)) with (if Req_EM_T a 0 then 0%nat :: support_draw n (b :: p) else n :: map (fun _ => 0%nat) (b :: p)).
    destruct IH as [L S]; [discriminate|]. destruct (Req_EM_T a 0).
    + cbn [length list_sum fold_right]. unfold list_sum in S. rewrite L, S. split; reflexivity.
    + cbn [length]. rewrite map_length. split; [reflexivity|]. change (n + list_sum (map (fun _ => 0%nat) (b :: p)) = n)%nat. rewrite list_sum_zero. lia.
  - intros n p. induction p as [|a p IH]; intros i HS Hi; [destruct i; reflexivity|]. destruct p as [|b p].
    + destruct i as [|i]; simpl in *; [|destruct i; reflexivity]. subst a. unfold sum_list in HS; simpl in HS. lra.
    + change (support_draw n (a :: b :: p)) with (if Req_EM_T a 0 then 0%nat :: support_draw n (b :: p) else n :: map (fun _ => 0%nat) (b :: p)).
      destruct (Req_EM_T a 0) as [->|N].
      * destruct i as [|i]; [reflexivity|]. apply IH; auto. rewrite sum_cons in HS. lra.
      * destruct i as [|i]; [simpl in Hi; contradiction|]. cbn [nth]. destruct (nth_in_or_default i (map (fun _ => 0%nat) (b :: p)) 0%nat) as [I|I]; [|exact I]. apply in_map_iff in I as (x & <- & _). reflexivity.
Qed.
Definition last_draw (n : nat) (p : list R) : list nat := repeat 0%nat (length p - 1) ++ (match p with [] => [] | _ => [n] end).
Lemma last_draw_ok : multinomial_draw last_draw.
Proof.
  intros n [|a p] H. congruence. unfold last_draw. rewrite app_length, repeat_length. simpl length. split. lia.
  rewrite list_sum_app. simpl. assert (E : forall k, list_sum (repeat 0%nat k) = 0%nat) by (induction k; simpl; auto). rewrite E. lia.
Qed.
Example C48_example : exists s' src,
  resample nat Residual last_draw (mkPart nat [10; 20; 30]%nat [Fin (-1); Fin (-2); Fin (-3)] [Fin 1; Fin 0; Fin 3] [Fin 1; Fin 0; Fin 3] (fun _ => Fin 0)) = Some s' /\
  px s' = map (fun i => nth i [10; 20; 30]%nat 0%nat) src /\ (2 <= count_occ Nat.eq_dec src 2)%nat /\ length (px s') = 3%nat.
Proof.
  destruct (C48_resample 0%nat Residual last_draw (mkPart nat [10; 20; 30]%nat [Fin (-1); Fin (-2); Fin (-3)] [Fin 1; Fin 0; Fin 3] [Fin 1; Fin 0; Fin 3] (fun _ => Fin 0)) [1; 0; 3])
    as (s' & src & E & L & _ & P & _ & _ & _ & _ & C & _); try discriminate; auto using last_draw_ok.
  - repeat split.
  - repeat constructor; lra.
  - exists s', src. repeat split; auto.
    + apply C; auto. unfold share, sum_list. simpl. destruct (Req_EM_T _ _); lra.
    + rewrite P, map_length, L. reflexivity.
Qed.
Example C48_null_weight_example : exists s',
  resample nat Residual support_draw (mkPart nat [10; 20]%nat [Fin (-1); Fin (-2)] [Fin 0; Fin 3] [Fin 0; Fin 3] (fun _ => Fin 0)) = Some s' /\ px s' = [20; 20]%nat.
Proof.
  destruct (C48_resample 0%nat Residual support_draw (mkPart nat [10; 20]%nat [Fin (-1); Fin (-2)] [Fin 0; Fin 3] [Fin 0; Fin 3] (fun _ => Fin 0)) [0; 3])
    as (s' & src & E & L & G & P & _ & _ & _ & _ & _ & C); try discriminate; auto; try apply support_draw_ok.
  - repeat split.
  - repeat constructor; lra.
  - exists s'. split; [exact E|]. assert (N : ~ In 0%nat src) by (apply C; [apply support_draw_ok | reflexivity | exists 1%nat; simpl; lra]). clear C. rename N into C.
    simpl in L, G. destruct src as [|a [|b [|]]]; try discriminate. rewrite P.
    assert (a = 1%nat) as -> by (specialize (G a (or_introl eq_refl)); destruct a as [|[|]]; [exfalso; apply C; now left|reflexivity|lia]).
    assert (b = 1%nat) as -> by (specialize (G b (or_intror (or_introl eq_refl))); destruct b as [|[|]]; [exfalso; apply C; right; now left|reflexivity|lia]).
    reflexivity.
Qed.

(** ** C49 *)
Theorem C49_ess {X} (s : particles X) w : pw_tmp s = map Fin w -> Forall (fun v => 0 <= v) w ->
  ((forall v, In v w -> v = 0) -> ess X s = Fin 0) /\
  ((exists v, In v w /\ v <> 0) -> exists e, ess X s = Fin e /\ 1 <= e <= INR (length w) /\
     (e = INR (length w) <-> forall u v, In u w -> In v w -> u = v) /\
     (e = 1 <-> exists i, 0 < nth i w 0 /\ forall j, j <> i -> nth j w 0 = 0)).
Proof.
  intros E HP. rewrite (ess_fin s w E). split.
  - intros Z. rewrite (sq_sum_all_zero w Z). destruct (Req_EM_T 0 0); congruence.
  - intros (v0 & Hv & Nv). destruct (Req_EM_T (sq_sum w) 0) as [Q|Q]. { exfalso. apply Nv. apply (sq_sum_zero w Q); auto. }
    pose proof (sq_sum_pos w) as QP. assert (Q0 : 0 < sq_sum w) by lra.
    assert (N0 : 0 < INR (length w)) by (apply lt_0_INR; destruct w; simpl in *; [contradiction|lia]).
    set (m := sum_list w / INR (length w)). pose proof (dev_sum m w) as DS. destruct (dev_pos m w) as [D1 D2].
    assert (DE : sum_list (map (fun v => (v - m) * (v - m)) w) = sq_sum w - sum_list w * sum_list w / INR (length w)).
    { rewrite DS. unfold m. field. lra. }
    rewrite DE in D1, D2. eexists. split; [reflexivity|].
    assert (X0 : forall a, sum_list w * sum_list w / sq_sum w = a <-> sum_list w * sum_list w = a * sq_sum w).
    { intros a. split; intros H. rewrite <- H. field; lra. rewrite H. field; lra. }
    split; [split|split].
    + apply Rmult_le_reg_r with (sq_sum w); auto. replace (sum_list w * sum_list w / sq_sum w * sq_sum w) with (sum_list w * sum_list w) by (field; lra). pose proof (sq_le w HP). lra.
    + apply Rmult_le_reg_r with (sq_sum w); auto. replace (sum_list w * sum_list w / sq_sum w * sq_sum w) with (sum_list w * sum_list w) by (field; lra).
      apply Rmult_le_compat_l with (r := INR (length w)) in D1; [|lra]. replace (INR (length w) * (sq_sum w - sum_list w * sum_list w / INR (length w))) with (INR (length w) * sq_sum w - sum_list w * sum_list w) in D1 by (field; lra). lra.
    + rewrite X0. split.
      * intros H u v Hu Hv'. assert (Z : sq_sum w - sum_list w * sum_list w / INR (length w) = 0) by (rewrite H; field; lra). rewrite (D2 Z u Hu), (D2 Z v Hv'). reflexivity.
      * intros H. assert (C : forall l, (forall u, In u l -> u = v0) -> sum_list l = INR (length l) * v0 /\ sq_sum l = INR (length l) * (v0 * v0)).
        { clear. induction l as [|a l IH]; intros H. unfold sq_sum, sum_list; simpl; split; ring. destruct IH as [I1 I2]. intros; apply H; simpl; auto.
          change (length (a :: l)) with (S (length l)). rewrite sq_sum_cons, sum_list_cons, I1, I2, (H a), S_INR by (simpl; auto). split; ring. }
        destruct (C w) as [C1 C2]. intros u Hu. apply H; auto. rewrite C1, C2. ring.
    + rewrite X0, Rmult_1_l. apply sq_eq; auto.
Qed.
Print Assumptions C49_ess.
Theorem C49_scale_invariant {X} (s s' : particles X) w c : pw_tmp s = map Fin w -> pw_tmp s' = map Fin (map (fun v => c * v) w) -> c <> 0 ->
  ess X s' = ess X s.
Proof.
  intros E E' Hc. rewrite (ess_fin s w E), (ess_fin s' _ E'), sq_sum_scale, sum_map_mul. f_equal.
  destruct (Req_EM_T (sq_sum w) 0) as [Q|Q], (Req_EM_T (c * c * sq_sum w) 0) as [Q'|Q']; auto.
  - exfalso. apply Q'. rewrite Q; ring.
  - exfalso. apply Rmult_integral in Q' as [Q'|Q']; auto. apply Rmult_integral in Q' as [Q'|Q']; auto.
  - field. auto.
Qed.
Print Assumptions C49_scale_invariant.
Example C49_example : ess nat (mkPart nat [1; 2; 3]%nat [] [] [Fin 1; Fin 0; Fin 1] (fun _ => Fin 0)) = Fin 2.
Proof. rewrite (ess_fin _ [1; 0; 1]) by reflexivity. unfold sq_sum, sum_list. simpl. destruct (Req_EM_T _ _); f_equal; lra. Qed.

(** ** C50 *)
(** operations between two changes of density *)
Inductive op (X : Type) := OResample (sch : scheme) (draw : nat -> list R -> list nat) | OMove (m : mover X) | OProbe.
Arguments OResample {X}. Arguments OMove {X}. Arguments OProbe {X}.
Definition exec {X} (o : op X) (s : particles X) : option (particles X) :=
  match o with OResample sch draw => resample X sch draw s | OMove m => Some (apply_move X m s) | OProbe => Some (reweight X false s) end.
Fixpoint exec_all {X} (os : list (op X)) (s : particles X) : option (particles X) :=
  match os with [] => Some s | o :: os => match exec o s with None => None | Some s' => exec_all os s' end end.
Definition op_ok {X} (o : op X) : Prop := match o with OMove m => mover_ok m | _ => True end.
Theorem C50_cache_consistent {X} (f : X -> fl) (os : list (op X)) s s' : well_shaped s -> Forall op_ok os ->
  exec_all os (reweight X true (set_logpdf X f s)) = Some s' ->
  length (px s') = length (px s) /\ plogpx s' = map f (px s').
Proof.
  intros W HO. destruct (reweight_shaped true (set_logpdf X f s) (set_shaped f s W)) as (W1 & P1 & F1).
  pose proof (reweight_consistent (set_logpdf X f s)) as C1. set (s1 := reweight X true (set_logpdf X f s)) in *.
  change (px s1 = px s) in P1. change (plogpdf s1 = f) in F1. rewrite <- P1, <- F1. clearbody s1. clear P1 F1 W s f.
  revert s1 W1 C1. induction HO as [|o os H _ IH]; simpl; intros s W C E.
  - injection E as <-. auto.
  - destruct (exec o s) as [s2|] eqn:EO; [|discriminate]. assert (G : consistent s2 /\ well_shaped s2 /\ length (px s2) = length (px s) /\ plogpdf s2 = plogpdf s).
    { destruct o; simpl in EO. eapply resample_consistent; eauto. injection EO as <-. apply apply_move_consistent; auto.
      injection EO as <-. destruct (reweight_shaped false s W) as (A & B & D). split; auto. }
    destruct G as (G1 & G2 & G3 & G4). destruct (IH s2 G2 G1 E) as [I1 I2]. rewrite <- G3, <- G4. auto.
Qed.
Print Assumptions C50_cache_consistent.
(** ... and so after one full SMC step *)
Theorem C50_step_consistent {X} sch (logpdf : R -> X -> fl) draw ms t s s' : Forall mover_ok ms -> well_shaped s ->
  step X sch logpdf draw ms t s = Some s' -> length (px s') = length (px s) /\ plogpx s' = map (logpdf t) (px s').
Proof. intros M W E. apply step_consistent in E as (C & _ & L & F); auto. split; auto. rewrite C, F. reflexivity. Qed.
Print Assumptions C50_step_consistent.
(** the weights after any sequence of reweightings: initial weight times the ratio of the density of the last update to the
    density first cached, whatever the densities in between and the probing reweightings *)
Theorem C50_weights_telescope {X} ops ops2 (g : X -> R) (s : particles X) w l i d : pw s = map Fin w -> plogpx s = map Fin l ->
  length w = length (px s) -> length l = length (px s) -> Forall (fun o => fst o = false) ops2 -> (i < length (px s))%nat ->
  nth i (pw (reweights (ops ++ (true, g) :: ops2) s)) NaN = Fin (nth i w 0 * exp (g (nth i (px s) d) - nth i l 0)).
Proof.
  intros Hw Hl Lw Ll HF Hi. rewrite (reweights_tele ops s w l g ops2) by auto.
  assert (L : length (zip2 (fun x b => exp (g x - b)) (px s) l) = length (px s)) by (apply zip2_length; auto).
  rewrite (nth_indep _ NaN (Fin (0 * exp (g d - 0)))) by (rewrite map_length, zip2_length; lia). rewrite map_nth.
  rewrite (zip2_nth Rmult w _ i 0 (exp (g d - 0))) by lia. rewrite (zip2_nth (fun x b => exp (g x - b)) (px s) l i d 0) by lia. reflexivity.
Qed.
Print Assumptions C50_weights_telescope.
(** a move keeps each particle or takes its proposal; for finite log densities and u > 0 it takes it exactly when
    u < p(y)/p(x); proposals of density zero or of undefined density are never taken *)
Theorem C50_move_rule {X} ys us (s : particles X) i d : length (plogpx s) = length (px s) -> length ys = length (px s) -> length us = length (px s) ->
  (i < length (px s))%nat ->
  let s' := fst (move X ys us s) in let x := nth i (px s) d in let y := nth i ys d in let lx := nth i (plogpx s) NaN in let u := nth i us 0 in
  ((nth i (px s') d = y /\ nth i (plogpx s') NaN = plogpdf s y /\ plogpdf s y <> NInf /\ plogpdf s y <> NaN) \/ (nth i (px s') d = x /\ nth i (plogpx s') NaN = lx)) /\
  (forall a b, lx = Fin a -> plogpdf s y = Fin b -> 0 < u -> (u < exp (b - a) -> nth i (px s') d = y) /\ (exp (b - a) <= u -> nth i (px s') d = x)).
Proof.
  cbv zeta. unfold move. simpl. set (f := plogpdf s). generalize (plogpx s) as ls. generalize (px s) as xs. clearbody f. clear s.
  intros xs ls H1 H2 H3 Hi.
  assert (E : nth i (move_rows X f xs ls ys us) (d, NaN, false) = move_one X f (nth i xs d) (nth i ls NaN) (nth i ys d) (nth i us 0)).
  { revert i ls ys us H1 H2 H3 Hi. induction xs as [|x xs IH]; intros [|i] [|l ls] [|y ys] [|u us]; simpl; try lia; auto. intros; apply IH; lia. }
  assert (L : length (move_rows X f xs ls ys us) = length xs) by (apply move_rows_length; auto).
  rewrite (nth_indep (map _ _) d (fst (fst (d, NaN, false)))) by (rewrite map_length; lia). rewrite (map_nth (fun r => fst (fst r))).
  rewrite (nth_indep (map (fun r => snd (fst r)) _) NaN (snd (fst (d, NaN, false)))) by (rewrite map_length; lia). rewrite (map_nth (fun r => snd (fst r))).
  rewrite E. unfold move_one. split.
  - destruct (accept _ _ _) eqn:A; simpl; auto. left. apply accept_support in A. tauto.
  - intros a b -> -> Hu. destruct (accept (nth i us 0) (Fin b) (Fin a)) eqn:A; simpl.
    + apply accept_ratio in A; auto. split; auto. lra.
    + split; auto. intros G. apply accept_ratio in G; auto. congruence.
Qed.
Print Assumptions C50_move_rule.
Example C50_example : exists s', exec_all [OMove (fun _ => ([5]%nat, [1 / 2]))] (reweight nat true (set_logpdf nat (fun x => Fin (INR x)) (particles_init nat [3]%nat (fun _ => NaN)))) = Some s'
  /\ px s' = [5]%nat /\ plogpx s' = [Fin (INR 5)].
Proof.
  eexists. split; [reflexivity|]. simpl. unfold move_one.
  assert (A : accept (1 / 2) (Fin (INR 5)) (Fin (INR 3)) = true).
  { apply accept_ratio. lra. apply Rlt_trans with 1. lra. rewrite <- exp_0. apply exp_increasing. simpl. lra. }
  change (accept (1 / 2) (Fin (INR 5)) (Fin (1 + 1 + 1))) with (accept (1 / 2) (Fin (INR 5)) (Fin (INR 3))). rewrite A. split; reflexivity.
Qed.

(** ** C51 *)
(** one stage's estimate: the first stage averages the target density itself over the initial cloud ... *)
Theorem C51_first_stage {X} perf (log_px : X -> fl) sch upper draw ms u (x : list X) f (h : X -> R) :
  (forall y, In y x -> log_px y = Fin (h y)) ->
  fst (subset_stage X perf log_px sch upper draw ms u (particles_init X x f)) =
  Fin (sum_list (map (fun y => if (if upper then rltb u (perf y) else rltb (perf y) u) then exp (h y) else exp (- 10 ^ 100)) x) / INR (length x)).
Proof.
  intros H. unfold subset_stage. cbv zeta. cbn [fst].
  change (fl_sum (pw (reweight X true (set_logpdf X (log_indicator X perf log_px upper u) (particles_init X x (log_indicator X perf log_px upper u))))) =
    Fin (sum_list (map (fun y => if (if upper then rltb u (perf y) else rltb (perf y) u) then exp (h y) else exp (- 10 ^ 100)) x) / INR (length x))).
  rewrite (first_stage _ (fun y => if (if upper then rltb u (perf y) else rltb (perf y) u) then h y else far)).
  - f_equal. f_equal. f_equal. apply map_ext. intros y. destruct (if upper then _ else _); reflexivity.
  - intros y Hy. unfold log_indicator. destruct (if upper then _ else _); auto.
Qed.
Print Assumptions C51_first_stage.
(** ... so that, for the uniform density on a box of volume V and an event that holds everywhere, the estimate is 1/V whatever the
    thresholds, the particles and the random draws *)
Theorem C51_sure_event_gives_inverse_volume {X} (perf : X -> R) (inbox : X -> bool) V sch (upper : bool) draws mv us x f ps : 0 < V ->
  us <> [] -> x <> [] -> Forall (fun y => inbox y = true) x ->
  Forall (fun u => forall y, if upper then u < perf y else perf y < u) us -> (forall k, Forall mover_ok (mv k)) ->
  subset_run X perf (fun y => if inbox y then Fin (- ln V) else NInf) sch upper draws mv us 0 (particles_init X x f) = Some ps ->
  fl_prod ps = Fin (1 / V).
Proof.
  intros HV Hu Hx HI HS HM E.
  rewrite (sure_run perf _ inbox V HV (fun _ => eq_refl) sch upper draws mv us x f ps Hu Hx HI HS HM E).
  unfold fl_prod. cbn [fold_left fl_mul]. rewrite Rmult_1_l. apply fl_prod_ones.
Qed.
Print Assumptions C51_sure_event_gives_inverse_volume.
(** from the second stage on, the estimate is the proportion of particles in the next event, up to exp(-1e100) terms *)
Theorem C51_later_stage {X} perf (log_px : X -> fl) sch (upper : bool) draw ms u u' (s : particles X) (h : X -> R) : px s <> [] ->
  pw s = repeat (Fin (1 / INR (length (px s)))) (length (px s)) -> plogpx s = map (log_indicator X perf log_px upper u) (px s) ->
  (forall y, In y (px s) -> log_px y = Fin (h y) /\ if upper then u < perf y else perf y < u) ->
  fst (subset_stage X perf log_px sch upper draw ms u' s) =
  Fin (sum_list (map (fun y => if (if upper then rltb u' (perf y) else rltb (perf y) u') then 1 else exp (- 10 ^ 100 - h y)) (px s)) / INR (length (px s))).
Proof.
  intros Hn Hw Hl H. unfold subset_stage. cbv zeta. cbn [fst].
  rewrite (later_stage _ (fun y => if (if upper then rltb u' (perf y) else rltb (perf y) u') then h y else far) s h); auto.
  - f_equal. f_equal. f_equal. apply map_ext. intros y. destruct (if upper then _ else _); auto. rewrite Rminus_diag_eq, exp_0; auto.
  - rewrite Hl. apply map_ext_in. intros y Hy. destruct (H y Hy) as [A B]. unfold log_indicator, rltb. destruct upper; destruct Rlt_dec; auto; contradiction.
  - intros y Hy. destruct (H y Hy) as [A _]. unfold log_indicator. destruct (if upper then _ else _); auto.
Qed.
Print Assumptions C51_later_stage.
(** the sure event on a box of volume 4 is given probability 1/4 *)
Example C51_example : exists ps, subset_run nat (fun _ => 1) (fun y => if Nat.ltb y 4 then Fin (- ln 4) else NInf) Residual true (fun _ => last_draw) (fun _ => []) [0] 0
  (particles_init nat [1; 2]%nat (fun _ => NaN)) = Some ps /\ fl_prod ps = Fin (1 / 4).
Proof.
  destruct (subset_run nat (fun _ => 1) (fun y => if Nat.ltb y 4 then Fin (- ln 4) else NInf) Residual true (fun _ => last_draw) (fun _ => []) [0] 0 (particles_init nat [1; 2]%nat (fun _ => NaN))) as [ps|] eqn:E.
  - exists ps. split; auto.
    apply (C51_sure_event_gives_inverse_volume (fun _ : nat => 1) (fun y => Nat.ltb y 4) 4 Residual true (fun _ => last_draw) (fun _ => []) [0] [1; 2]%nat (fun _ => NaN)); try discriminate; auto.
    + lra.
    + repeat constructor; intros; lra.
  - exfalso. revert E. cbn [subset_run]. unfold subset_stage. cbv zeta.
    set (s1 := reweight nat true _).
    destruct (C48_resample 0%nat Residual last_draw s1 [1 / INR 2 * exp (- ln 4 + - 0); 1 / INR 2 * exp (- ln 4 + - 0)]) as (s' & src & E' & _); try discriminate; auto using last_draw_ok.
    + repeat split.
    + unfold s1, reweight. simpl. unfold log_indicator, rltb. destruct (Rlt_dec 0 1); [|lra]. reflexivity.
    + assert (P : 0 <= 1 / INR 2 * exp (- ln 4 + - 0)). { apply Rmult_le_pos. simpl. lra. left. apply exp_pos. } constructor; [exact P|constructor; [exact P|constructor]].
    + rewrite E'. simpl. discriminate.
Qed.

(** ** C52 *)
(** when the search returns, the level is the target or strictly between current and target, and its p value is at least p0 (target)
    or within 0.05 of p0 *)
Theorem C52_level_correct {X} (logpdf : R -> X -> fl) (s : particles X) fuel cur target p0 t : cur <> target ->
  next_param_p0 fuel (fun t => p_value X logpdf s t cur) cur target p0 = Some t ->
  ((cur < t <= target) \/ (target <= t < cur)) /\
  ((t = target /\ fl_le (Fin p0) (p_value X logpdf s t cur) = true) \/ exists v, p_value X logpdf s t cur = Fin v /\ Rabs (v - p0) < 1 / 20).
Proof. intros H E. apply next_p0_sound in E; auto. Qed.
Print Assumptions C52_level_correct.
(** for log densities that vary continuously with the level the search returns *)
Theorem C52_continuous_terminates {X} (g : R -> X -> R) (s : particles X) cur target p0 : px s <> [] -> p0 <= 1 ->
  (forall x t, In x (px s) -> Rmin cur target <= t <= Rmax cur target -> continuity_pt (fun t => g t x) t) ->
  exists fuel t, next_param_p0 fuel (fun t => p_value X (fun t x => Fin (g t x)) s t cur) cur target p0 = Some t.
Proof.
  intros Hn Hp Hc. unfold next_param_p0. destruct (fl_le _ _) eqn:E. { exists 0%nat. eauto. }
  apply (bisect_terminates (fun t => sum_list (map (fun x => exp (g t x - g cur x)) (px s)) / INR (length (px s))) _ p0 (Rmin cur target) (Rmax cur target)).
  - apply Rle_trans with cur. apply Rmin_l. apply Rmax_l.
  - intros t _. apply p_value_fin; auto.
  - intros t Ht. apply p_continuous. intros x Hx. apply Hc; auto.
  - split. apply Rmin_l. apply Rmax_l.
  - split. apply Rmin_r. apply Rmax_r.
  - rewrite p_value_cur; auto.
  - rewrite p_value_fin in E by auto. cbn [fl_le] in E. destruct (Rle_dec _ _) in E; [discriminate|]. lra.
Qed.
Print Assumptions C52_continuous_terminates.
(** it never returns when no level strictly between current and target is within tolerance ... *)
Theorem C52_loops_when_no_level_is_close {X} (logpdf : R -> X -> fl) (s : particles X) cur target p0 : cur <> target ->
  fl_le (Fin p0) (p_value X logpdf s target cur) = false ->
  (forall t v, (cur < t < target \/ target < t < cur) -> p_value X logpdf s t cur = Fin v -> 1 / 20 <= Rabs (v - p0)) ->
  forall fuel, next_param_p0 fuel (fun t => p_value X logpdf s t cur) cur target p0 = None.
Proof. intros Hne E H fuel. unfold next_param_p0. rewrite E. apply bisect_loops_between; auto. Qed.
Print Assumptions C52_loops_when_no_level_is_close.
(** ... in particular when one particle has density zero at every level (0/0 is NaN) ... *)
Theorem C52_loops_on_zero_density {X} (logpdf : R -> X -> fl) (s : particles X) cur target p0 x : cur <> target ->
  In x (px s) -> (forall t, logpdf t x = NInf) ->
  forall fuel, next_param_p0 fuel (fun t => p_value X logpdf s t cur) cur target p0 = None.
Proof.
  intros Hne Hx HN. apply C52_loops_when_no_level_is_close; auto.
  - rewrite (p_value_nan _ _ _ _ x); auto.
  - intros t v _. rewrite (p_value_nan _ _ _ _ x); auto. discriminate.
Qed.
Print Assumptions C52_loops_on_zero_density.
(** ... and for an indicator family seen through a single particle with p0 = 1/2 *)
Theorem C52_loops_for_a_step_family : exists (logpdf : R -> R -> fl) (s : particles R), px s = [1] /\
  forall fuel, next_param_p0 fuel (fun t => p_value R logpdf s t 0) 0 2 (1 / 2) = None.
Proof.
  exists (fun t x => Fin (if Rlt_dec t x then 0 else - 10)), (particles_init R [1] (fun _ => Fin 0)). split; auto.
  assert (E10 : exp (-10) < 1 / 10).
  { assert (exp (-10) < / 11). { replace (-10) with (- (10)) by ring. rewrite exp_Ropp. apply Rinv_lt_contravar. pose proof (exp_pos 10). nra. pose proof (exp_ineq1 10 ltac:(lra)). lra. } lra. }
  pose proof (exp_pos (-10)) as EP.
  assert (V : forall t, p_value R (fun t x => Fin (if Rlt_dec t x then 0 else - 10)) (particles_init R [1] (fun _ => Fin 0)) t 0 = Fin (if Rlt_dec t 1 then 1 else exp (-10))).
  { intros t. rewrite p_value_fin by discriminate. unfold sum_list. simpl. destruct (Rlt_dec 0 1); [|lra]. f_equal. destruct (Rlt_dec t 1).
    replace (0 - 0) with 0 by ring. rewrite exp_0. field. replace (-10 - 0) with (-10) by ring. field. }
  apply C52_loops_when_no_level_is_close. lra.
  - rewrite V. cbn [fl_le]. destruct (Rlt_dec 2 1); [lra|]. destruct (Rle_dec (1 / 2) (exp (-10))); auto. lra.
  - intros t v _. rewrite V. intros G; injection G as <-. destruct (Rlt_dec t 1). rewrite Rabs_pos_eq; lra. rewrite Rabs_left1; lra.
Qed.
Print Assumptions C52_loops_for_a_step_family.
(** tempering exp(-t) on one particle: the search finds a level for p0 = 1/2 *)
Example C52_example : exists fuel t, next_param_p0 fuel (fun t => p_value R (fun t x => Fin (- t * x)) (particles_init R [1] (fun _ => Fin 0)) t 0) 0 5 (1 / 2) = Some t /\ 0 < t < 5.
Proof.
  destruct (C52_continuous_terminates (fun t x => - t * x) (particles_init R [1] (fun _ => Fin 0)) 0 5 (1 / 2)) as (fuel & t & E).
  - discriminate. - lra.
  - intros x t _ _. apply derivable_continuous_pt. reg.
  - exists fuel, t. split; auto. apply C52_level_correct in E; [|lra]. destruct E as [[H|H] E]; [|lra]. destruct (Req_dec t 5) as [->|]; [|lra]. exfalso.
    rewrite p_value_fin in E by discriminate. unfold sum_list in E. simpl in E. replace ((0 + exp (- (5) * 1 - - 0 * 1)) / 1) with (exp (- 5)) in E by (replace (- (5) * 1 - - 0 * 1) with (- 5) by ring; field).
    assert (E5 : exp (-5) < / 6). { replace (-5) with (- (5)) by ring. rewrite exp_Ropp. apply Rinv_lt_contravar. pose proof (exp_pos 5). nra. pose proof (exp_ineq1 5 ltac:(lra)). lra. }
    pose proof (exp_pos (-5)). destruct E as [[_ E]|(v & E & G)]. destruct (Rle_dec _ _) in E; [lra|discriminate]. injection E as <-. apply Rabs_def2 in G. lra.
Qed.

(** ** C77: the path of a restart *)
(** a restart that ends has gone from the initial to the target level, and leaves n particles whose cache is the target density;
    when the two levels are equal it makes no step at all and returns the freshly drawn particles with a zero cache *)
Theorem C77_restart_ends_at_target {X} fuel sch (logpdf : R -> X -> fl) draws mv next initial target x path s' : (forall k, Forall mover_ok (mv k)) ->
  restart X fuel sch logpdf draws mv next initial target x = Some (path, s') ->
  length (px s') = length x /\ hd_error path = Some initial /\ last path initial = target /\
  (initial <> target -> plogpx s' = map (logpdf target) (px s')) /\
  (initial = target -> path = [initial] /\ px s' = x /\ plogpx s' = repeat (Fin 0) (length x)).
Proof.
  intros HM E. unfold restart in E.
  set (s0 := reweight X false (set_logpdf X (logpdf initial) (particles_init X x (logpdf initial)))) in *.
  assert (W : well_shaped s0) by (apply reweight_shaped, set_shaped, init_shaped).
  destruct (restart_loop_spec fuel sch logpdf draws mv next target HM _ _ _ _ _ _ W E) as (W' & L & steps & -> & HL & HE & HC).
  split; [exact L|]. split; [reflexivity|]. split.
  { simpl app. rewrite <- HL. reflexivity. }
  split.
  - intros Hne. destruct steps as [|t steps]. simpl in HL. congruence. destruct HC as [C F]. discriminate. rewrite C, F. reflexivity.
  - intros ->. destruct fuel; cbn [restart_loop] in E; unfold reqb in E; destruct (Req_EM_T target target); try congruence;
    assert (E1 : [target] ++ steps = [target]) by congruence; injection E as _ <-; rewrite E1; repeat split.
Qed.
Print Assumptions C77_restart_ends_at_target.
(** with the p0 search every level is strictly nearer to the target than the one before, with the ESS search never farther *)
Theorem C77_p0_path_monotone {X} fuel sfuel sch (logpdf : R -> X -> fl) draws mv p0 initial target x path s' :
  restart X fuel sch logpdf draws mv (fun s cur => next_param_p0 sfuel (fun t => p_value X logpdf s t cur) cur target p0) initial target x = Some (path, s') ->
  exists steps, path = initial :: steps /\ chain (fun a b => (a < b <= target) \/ (target <= b < a)) initial steps.
Proof.
  intros E. unfold restart in E. apply (restart_chain _ _ _ _ _ _ target (fun a b => (a < b <= target) \/ (target <= b < a))) in E.
  - destruct E as (steps & -> & C). exists steps. auto.
  - intros s cur t Hne HN. apply next_p0_sound in HN; auto. apply HN.
Qed.
Print Assumptions C77_p0_path_monotone.
Theorem C77_ess_path_monotone {X} fuel sch (logpdf : R -> X -> fl) draws mv (brentq : particles X -> R -> R -> R) eta0 initial target x path s' :
  (forall s lo hi, lo <= hi -> lo <= brentq s lo hi <= hi) ->
  restart X fuel sch logpdf draws mv
    (fun s cur => Some (next_param_ess (brentq s)
       (fun t => fl_sub (fl_div (ess X (reweight X false (set_logpdf X (logpdf t) s))) (Fin (INR (length (px s))))) (Fin eta0)) cur target)) initial target x = Some (path, s') ->
  exists steps, path = initial :: steps /\ chain (fun a b => (a <= b <= target) \/ (target <= b <= a)) initial steps.
Proof.
  intros HB E. unfold restart in E. apply (restart_chain _ _ _ _ _ _ target (fun a b => (a <= b <= target) \/ (target <= b <= a))) in E.
  - destruct E as (steps & -> & C). exists steps. auto.
  - intros s cur t Hne. set (v := next_param_ess _ _ _ _). assert (B : between cur target v) by (apply next_ess_between; apply HB).
    clearbody v. intros HN. injection HN as <-.
    unfold between in B. unfold Rmin, Rmax in B. destruct (Rle_dec cur target); lra.
Qed.
Print Assumptions C77_ess_path_monotone.
(** so run_smc_sampling leaves the target density in the cache, except when a restart is triggered with initial = target *)
Theorem C77_run_consistent {X} fuel sch (logpdf : R -> X -> fl) draws mv next initial target r x s s' : (forall k, Forall mover_ok (mv k)) -> well_shaped s ->
  step_with_possible_restart X fuel sch logpdf draws mv next initial target r x s = Some s' ->
  plogpx s' = map (logpdf target) (px s') \/ (initial = target /\ px s' = x).
Proof.
  intros HM W. unfold step_with_possible_restart. cbv zeta. destruct (fl_lt _ _).
  - destruct (restart _ _ _ _ _ _ _ _ _ _) as [[path s2]|] eqn:E; [|discriminate]. simpl. intros G; injection G as <-.
    apply C77_restart_ends_at_target in E; auto. destruct (Req_dec initial target); [right|left]; tauto.
  - intros E. left. apply C50_step_consistent in E; auto. apply E. apply reweight_shaped, set_shaped, W.
Qed.
Print Assumptions C77_run_consistent.
(** one restart from level 0 to level 1 in one step *)
Example C77_example : exists path s', restart nat 3 Multinomial (fun t _ => Fin t) (fun _ => last_draw) (fun _ => []) (fun _ _ => Some 1) 0 1 [7]%nat = Some (path, s') /\ path = [0; 1] /\ plogpx s' = [Fin 1].
Proof.
  unfold restart. cbn [restart_loop]. unfold reqb. destruct (Req_EM_T 0 1); [lra|]. unfold step. cbv zeta.
  match goal with |- context [resample nat Multinomial last_draw ?s] => destruct (C48_resample 0%nat Multinomial last_draw s [1 / INR 1 * exp (1 + - 0)]) as (s' & src & E & L & R & P & Q & _) end; try discriminate; auto using last_draw_ok.
  - repeat split.
  - constructor; auto. apply Rmult_le_pos. simpl. lra. left. apply exp_pos.
  - rewrite E. cbn [fold_left restart_loop]. unfold reqb. destruct (Req_EM_T 1 1); [|congruence]. do 2 eexists. split; [reflexivity|]. split; [reflexivity|].
    rewrite Q. simpl in L, R. destruct src as [|i [|]]; simpl in L; try discriminate. assert (i = 0)%nat as -> by (specialize (R i (or_introl eq_refl)); lia). reflexivity.
Qed.

(** ** C78: tuning of the proposal scale *)
(** the scale is multiplied or divided by the factor once per move whose rate is out of range; the phase ends at the first rate in
    range or after the maximum number of moves *)
Theorem C78_tuning lower upper factor rmin rmax rates fuel s0 s n : factor <> 0 ->
  tune fuel lower upper factor rmin rmax rates 0 s0 = Some (s, n) ->
  exists up down, s = s0 * factor ^ up / factor ^ down /\
    ((n = fuel /\ up + down = fuel)%nat \/ (n = S (up + down) /\ (n <= fuel)%nat /\ rmin <= rates (up + down)%nat <= rmax /\ lower <= s <= upper)).
Proof.
  intros HF E. apply tune_spec in E as (up & down & E & L & H); auto. exists up, down. split; auto. simpl in H. destruct H as [H|H]; [left; lia|right].
  destruct H as (H1 & H2 & H3 & H4). repeat split; auto; try lia; tauto.
Qed.
Print Assumptions C78_tuning.
(** with the default settings a density whose proposals are always rejected raises ParticlesSetError (not an Exception) *)
Theorem C78_stuck_particles_raise rates : (forall k, rates k < 15 / 100) ->
  tune 50 (1 / 1000) 100000 (14 / 10) (15 / 100) (30 / 100) rates 0 (1 / 2) = None.
Proof. intros H. apply (tune_low _ _ _ _ _ _ H) with (m := 19%nat); try lia; lra. Qed.
Print Assumptions C78_stuck_particles_raise.
(** the error is only possible when the scale can leave its range within the allowed moves *)
Theorem C78_no_error lower upper factor rmin rmax rates fuel s0 : 1 < factor -> 0 <= lower ->
  lower * factor ^ fuel <= s0 -> s0 * factor ^ fuel <= upper -> tune fuel lower upper factor rmin rmax rates 0 s0 <> None.
Proof. intros. apply tune_safe; auto. Qed.
Print Assumptions C78_no_error.
Lemma C78_example_any f : tune (S (S (S f))) (1 / 1000) 100000 (14 / 10) (15 / 100) (30 / 100) (fun k => if Nat.ltb k 2 then 9 / 10 else 2 / 10) 0 (1 / 2) = Some (1 / 2 * (14 / 10) * (14 / 10), 3%nat).
Proof.
  cbn [tune Nat.ltb Nat.leb]. unfold rltb.
  destruct (Rlt_dec 100000 (1 / 2)); [lra|]. destruct (Rlt_dec (1 / 2) (1 / 1000)); [lra|]. destruct (Rlt_dec (9 / 10) (15 / 100)); [lra|]. destruct (Rlt_dec (30 / 100) (9 / 10)); [|lra].
  destruct (Rlt_dec 100000 (1 / 2 * (14 / 10))); [lra|]. destruct (Rlt_dec (1 / 2 * (14 / 10)) (1 / 1000)); [lra|].
  destruct (Rlt_dec 100000 (1 / 2 * (14 / 10) * (14 / 10))); [lra|]. destruct (Rlt_dec (1 / 2 * (14 / 10) * (14 / 10)) (1 / 1000)); [lra|].
  destruct (Rlt_dec (2 / 10) (15 / 100)); [lra|]. destruct (Rlt_dec (30 / 100) (2 / 10)); [lra|]. reflexivity.
Qed.
Example C78_example : tune 50 (1 / 1000) 100000 (14 / 10) (15 / 100) (30 / 100) (fun k => if Nat.ltb k 2 then 9 / 10 else 2 / 10) 0 (1 / 2) = Some (1 / 2 * (14 / 10) * (14 / 10), 3%nat).
Proof. exact (C78_example_any 47). Qed.
