(** Property theorems C45-C47 and C76 (parameter selection). *)
From Coq Require Import List Arith Reals Bool Lra Lia.
From Verif Require Import ConfigModel FlModel PriorModel PriorProofs SelectModel SelectProofs.
Import ListNotations.

(** ** C45 *)
(** [run criterion s st l e] (SelectProofs.v): what the optimiser strategy [s] really does *)
Theorem C45_history_complete P St criterion s st r : autoselect P St criterion s st = Some r ->
  exists x f, run P St criterion s st (history P r) (Some (x, f)).
Proof. intros H. destruct (autoselect_some _ _ _ _ _ _ H) as (x & f & R & _). eauto. Qed.
Print Assumptions C45_history_complete.
Theorem C45_best_returned P St criterion s st r x f : autoselect P St criterion s st = Some r ->
  run P St criterion s st (history P r) (Some (x, f)) -> f <> NaN ->
  (forall p J, In (p, J) (history P r) -> J <> NaN -> fl_le (r_fun P r) J = true) /\
  fl_le (r_fun P r) f = true /\
  ((r_x P r = Some x /\ r_fun P r = f) \/ exists p, r_x P r = Some p /\ In (p, r_fun P r) (history P r)).
Proof.
  intros H R Hf. destruct (autoselect_some _ _ _ _ _ _ H) as (x' & f' & R' & B & D & _).
  destruct (run_det _ _ _ _ _ _ _ _ _ R R') as [_ E]. injection E as <- <-.
  split; [exact (B Hf)|]. destruct D as [(_ & D1 & D2)|(_ & D1 & D2)].
  - split; [rewrite D2; apply fl_le_refl; auto|]. left; auto.
  - split; [apply fl_lt_le; auto|]. right; auto.
Qed.
Print Assumptions C45_best_returned.
(** the flag says whether the optimiser's own result was kept, i.e. was not beaten *)
Theorem C45_flag P St criterion s st r x f : autoselect P St criterion s st = Some r ->
  run P St criterion s st (history P r) (Some (x, f)) ->
  (best_value_returned P r = false <-> exists p J, In (p, J) (history P r) /\ fl_lt J f = true) /\
  (best_value_returned P r = true -> r_x P r = Some x /\ r_fun P r = f).
Proof.
  intros H R. destruct (autoselect_some _ _ _ _ _ _ H) as (x' & f' & R' & _ & D & F).
  destruct (run_det _ _ _ _ _ _ _ _ _ R R') as [_ E]. injection E as <- <-.
  split; [auto|]. intros T. destruct D as [(_ & D)|(D & _)]; [auto|congruence].
Qed.
Print Assumptions C45_flag.
(** a NaN final value is kept, flagged as the best one, whatever was seen before *)
Theorem C45_nan_kept P St criterion s st r x : autoselect P St criterion s st = Some r ->
  run P St criterion s st (history P r) (Some (x, NaN)) ->
  r_x P r = Some x /\ r_fun P r = NaN /\ best_value_returned P r = true.
Proof.
  intros H R. destruct (autoselect_some _ _ _ _ _ _ H) as (x' & f' & R' & _ & D & _).
  destruct (run_det _ _ _ _ _ _ _ _ _ R R') as [_ E]. injection E as <- <-.
  destruct D as [(D1 & D2 & D3)|(_ & D & _)]; auto. destruct (r_fun P r); discriminate.
Qed.
Print Assumptions C45_nan_kept.
(** linear algebra failures never stop the selection, any other exception does *)
Theorem C45_raises P St criterion s st :
  autoselect P St criterion s st = None <-> exists l, run P St criterion s st l None.
Proof. apply autoselect_none. Qed.
Print Assumptions C45_raises.
Example C45_case :
  let crit (p : nat) (st : nat) := (match p with 0 => Value (Fin 1) | 1 => LinalgError | _ => Value NaN end, S st) in
  autoselect nat nat crit (Ask 0 (fun _ => Ask 1 (fun J => Done 5 J))) 0
    = Some (mkResult nat (Some 0) (Fin 1) false [(0, Fin 1); (1, PInf)]) /\
  autoselect nat nat crit (Ask 0 (fun _ => Ask 2 (fun J => Done 5 J))) 0
    = Some (mkResult nat (Some 5) NaN true [(0, Fin 1); (2, NaN)]).
Proof. split; reflexivity. Qed.
(** at the level of select_parameters_with_criterion: the parameters written into the model realise the
    reported value, which is not larger than the value at the starting point once that point is evaluated *)
Theorem C45_model_improved crit guess opt m mp0 cp0 pm k m' r m0 J0 :
  (forall p0, honest crit pm k (opt p0)) ->
  select_with crit guess opt m mp0 cp0 pm k = Some (m', r) ->
  value_at crit pm m' (r_fun _ r) /\
  (pm = false -> m_meanparam m' = m_meanparam m) /\
  (* the starting point, as a model *)
  (m_covparam m0 = Some (match cp0 with Some c => c | None => guess end) ->
   (if pm then exists mu, mp0 = Some mu /\ length mu = k /\ m_meanparam m0 = Some mu else True) ->
   value_at crit pm m0 J0 -> J0 <> NaN -> r_fun _ r <> NaN ->
   (forall p0, exists c, opt p0 = Ask p0 c) -> fl_le (r_fun _ r) J0 = true).
Proof.
  intros Hh E. split; [eapply selected_value; eauto|].
  destruct (select_some _ _ _ _ _ _ _ _ _ _ E) as (p0 & x & A & X & Hp & Hm).
  split; [intros ->; rewrite Hm; auto|].
  intros Hc Hmu (c & Hc' & Hv) HJ Hr Hfirst. rewrite Hc in Hc'. injection Hc' as <-.
  destruct (autoselect_some _ _ _ _ _ _ A) as (x' & f & R & B & D & _).
  assert (Hf : f <> NaN).
  { destruct D as [(_ & _ & D)|(_ & D & _)]; [congruence|apply (fl_lt_nan _ _ D)]. }
  apply (B Hf p0); auto.
  destruct (Hfirst p0) as [cont Eo]. rewrite Eo in R.
  inversion R as [|? |? ? ? o s1 J l1 e1 C1 A1 R1|? ? ? s1 C1]; subst.
  assert (J = J0); [|subst; left; auto].
  assert (V : answers o J0).
  { unfold crit_ in C1. injection C1 as <- _. destruct pm.
    - destruct Hmu as (mu & M1 & M2 & M3). destruct Hp as (mu0 & M4 & M5). rewrite M1 in M4. injection M4 as <-.
      destruct Hv as (mu' & M6 & Hv). rewrite M3 in M6. injection M6 as <-.
      subst p0. rewrite firstn_app, skipn_app, <- M2, Nat.sub_diag, firstn_all, skipn_all. simpl. rewrite app_nil_r. auto.
    - subst p0. auto. }
  clear -A1 V. destruct o; simpl in *; [congruence|congruence|contradiction].
Qed.
Print Assumptions C45_model_improved.
Example C45_model_case :
  let crit (mu : option (list R)) (c : list R) := match c with [] => Value (Fin 0) | _ => Value (Fin 1) end in
  let opt p0 := Ask p0 (fun _ => Ask [] (fun J => Done [] J)) in
  (forall p0, honest crit false 1 (opt p0)) /\
  select_with crit [1%R] opt (mkModel (Some [2%R]) None) None None false 1
    = Some (mkModel (Some [2%R]) (Some []), mkResult _ (Some []) (Fin 0) true [([1%R], Fin 1); ([], Fin 0)]).
Proof.
  split.
  - intros p0 l x f H. inversion H as [|? |? ? ? o s1 J l1 e1 C1 A1 R1|? ? ? s1 C1]; subst.
    inversion R1 as [|? |? ? ? o2 s2 J2 l2 e2 C2 A2 R2|? ? ? s2 C2]; subst.
    inversion R2; subst. simpl. unfold crit_ in C2. injection C2 as <- _. exact A2.
  - cbv -[IZR fl_lt fl_le]. unfold fl_lt. repeat (destruct (Rlt_dec _ _); try lra). reflexivity.
Qed.

(** ** C46 *)
Section C46.
Local Open Scope R_scope.
Theorem C46_contains_start bounds_auto delta p0 bs : 0 <= delta ->
  select_bounds None bounds_auto delta p0 = Some bs ->
  length bs = length p0 /\
  forall k p lo hi, nth_error p0 k = Some p -> nth_error bs k = Some (lo, hi) ->
    (lo <= p <= hi <-> Rabs p <= 500) /\ (lo <= hi <-> Rabs p <= 500 + delta) /\
    (Rabs p + delta <= 500 -> lo = p - delta /\ hi = p + delta).
Proof.
  intros Hd. unfold select_bounds. destruct bounds_auto; [|discriminate]. intros E; injection E as <-.
  split; [apply map_length|]. intros k p lo hi Hk Hb. rewrite (map_nth_error _ _ _ Hk) in Hb. injection Hb as <- <-.
  split; [apply (bound_contains delta p Hd)|]. split; [apply (bound_ordered delta p Hd)|].
  intros H. assert (E := bound_width delta p Hd H). unfold auto_bound in E. injection E; auto.
Qed.
Print Assumptions C46_contains_start.
Theorem C46_user_bounds_kept b bounds_auto delta p0 : select_bounds (Some b) bounds_auto delta p0 = Some b.
Proof. reflexivity. Qed.
Print Assumptions C46_user_bounds_kept.
(** empirical bounds: unbounded mean parameters, then log variance, then one entry per coordinate *)
Theorem C46_empirical_layout ml lowf upf lenf xi zi :
  let bs := empirical_bounds ml lowf upf lenf xi zi in
  length bs = (ml + 1 + length xi)%nat /\
  (forall k, (k < ml)%nat -> nth_error bs k = Some (NInf, PInf)) /\
  nth_error bs ml = Some (fl_ln (Fin (lowf * pop_variance zi)), fl_ln (Fin (upf * pop_variance zi))) /\
  forall k xj, nth_error xi k = Some xj -> nth_error bs (ml + 1 + k) = Some (length_bound lenf xj).
Proof.
  unfold empirical_bounds. cbv zeta. split; [rewrite !app_length, repeat_length, map_length; simpl; lia|]. split; [|split].
  - intros k Hk. rewrite nth_error_app1 by (rewrite repeat_length; auto). clear -Hk.
    revert k Hk. induction ml as [|ml IH]; intros [|k] Hk; try lia; simpl; auto. apply IH; lia.
  - rewrite nth_error_app2; rewrite repeat_length; [|lia]. rewrite Nat.sub_diag. reflexivity.
  - intros k xj Hk. rewrite nth_error_app2; rewrite repeat_length; [|lia].
    replace (ml + 1 + k - ml)%nat with (S k) by lia. simpl. apply map_nth_error; auto.
Qed.
Print Assumptions C46_empirical_layout.
(** the variance interval is [lowf, upf] times the empirical variance: with the default factors 2 and 10
    the empirical variance itself is excluded; constant data give the empty interval (-inf, -inf) *)
Theorem C46_empirical_variance lowf upf zi lo hi : 1 < lowf -> lowf <= upf -> zi <> [] ->
  fl_ln (Fin (lowf * pop_variance zi)) = lo -> fl_ln (Fin (upf * pop_variance zi)) = hi ->
  (lo = NInf /\ hi = NInf /\ (forall a b, In a zi -> In b zi -> a = b)) \/
  (exists a b, lo = Fin a /\ hi = Fin b /\ 0 < pop_variance zi /\ a <= b /\
    (forall u, a <= u <= b <-> lowf * pop_variance zi <= exp u <= upf * pop_variance zi) /\
    ln (pop_variance zi) < a).
Proof.
  intros Hl Hu Hz <- <-. destruct (variance_spec zi Hz) as [V0 V1]. set (v := pop_variance zi) in *.
  destruct (Rle_lt_or_eq_dec 0 v V0) as [Hv|Hv].
  - right. exists (ln (lowf * v)), (ln (upf * v)).
    assert (0 < lowf * v) by (apply Rmult_lt_0_compat; lra). assert (0 < upf * v) by (apply Rmult_lt_0_compat; lra).
    unfold fl_ln, rltb. destruct (Rlt_dec 0 (lowf * v)); [|lra]. destruct (Rlt_dec 0 (upf * v)); [|lra].
    split; auto. split; auto. split; auto. split.
    { destruct (Req_dec lowf upf) as [->|]; [lra|]. left. apply ln_increasing; auto. apply Rmult_lt_compat_r; lra. }
    split.
    + intros u. assert (M : forall a w, 0 < a -> (ln a <= w <-> a <= exp w)).
      { intros a w Ha. split; intros.
        - rewrite <- (exp_ln a Ha). destruct H1 as [H1|H1]; [left; apply exp_increasing; auto|right; congruence].
        - rewrite <- (ln_exp w). destruct H1 as [H1|H1]; [left; apply ln_increasing; auto|right; congruence]. }
      assert (M' : forall a w, 0 < a -> (w <= ln a <-> exp w <= a)).
      { intros a w Ha. split; intros.
        - rewrite <- (exp_ln a Ha). destruct H1 as [H1|H1]; [left; apply exp_increasing; auto|right; congruence].
        - rewrite <- (ln_exp w). destruct H1 as [H1|H1]; [left; apply ln_increasing; auto; apply exp_pos|right; congruence]. }
      rewrite M, M' by auto. tauto.
    + apply ln_increasing; auto. rewrite <- (Rmult_1_l v) at 1. apply Rmult_lt_compat_r; auto.
  - left. rewrite <- Hv, !Rmult_0_r. unfold fl_ln, rltb. destruct (Rlt_dec 0 0); [lra|]. split; auto. split; auto.
    apply V1. auto.
Qed.
Print Assumptions C46_empirical_variance.
(** length scales: rho >= lenf * smallest gap, and no constraint for a constant coordinate *)
Theorem C46_empirical_length lenf xj : 0 < lenf ->
  (length_bound lenf xj = (NInf, PInf) /\ (forall x y, In x xj -> In y xj -> x = y)) \/
  (exists g u, minimum_nonzero_gap xj = Fin g /\ 0 < g /\ length_bound lenf xj = (NInf, Fin u) /\
    forall rho, 0 < rho -> (- ln rho <= u <-> lenf * g <= rho)).
Proof.
  intros Hl. unfold length_bound. destruct (gap_spec xj) as [[E H]|(g & E & Hg & _)]; rewrite E.
  - left; auto.
  - right. exists g, (- ln (lenf * g)). assert (0 < lenf * g) by (apply Rmult_lt_0_compat; auto).
    split; auto. split; auto. split.
    + unfold fl_ln, rltb. destruct (Rlt_dec 0 (lenf * g)); [reflexivity|lra].
    + intros rho Hr. split; intros.
      * destruct (Rle_or_lt (lenf * g) rho) as [|C]; auto. apply ln_increasing in C; lra.
      * destruct H0 as [C|C]; [apply ln_increasing in C; auto; lra|rewrite C; lra].
Qed.
Print Assumptions C46_empirical_length.
Example C46_case : select_bounds None true 10 [0; 600; 505] = Some [(-10, 10); (590, 500); (495, 500)] /\
  pop_variance [0; 2] = 1.
Proof.
  split; [|unfold pop_variance, sum_list; simpl; field].
  unfold select_bounds; simpl. unfold auto_bound.
  rewrite !Rmax_left by lra. rewrite (Rmin_left (0 + 10)) by lra. rewrite !Rmin_right by lra.
  repeat f_equal; lra.
Qed.
End C46.

(** ** C47 *)
Section C47.
Local Open Scope R_scope.
(** the k-th evaluation of any sequence uses the batches k*bpe, ..., (k+1)*bpe - 1 of the successive epochs
    put end to end, and returns their size-weighted mean (or sum) *)
Theorem C47_cycles P B size crit loader numpy bpe mean ps k (p : P) v :
  nonempty B loader -> (forall b, (0 < size b)%nat) -> (0 < bpe)%nat ->
  (forall p, In p ps -> exists v, finite_at P B crit p v) ->
  nth_error ps k = Some p -> finite_at P B crit p v ->
  exists bs, length bs = bpe /\
   (forall j b, nth_error bs j = Some b -> nth_error (concat (map loader (seq 0 (S (k * bpe + j))))) (k * bpe + j) = Some b) /\
   nth_error (fst (batch_evals P B size crit loader numpy bpe mean ps (batch_init B loader bpe))) k =
     Some (EValue (Fin (let total := sum_list (map (fun b => v b * INR (size b)) bs) in
                        if mean then total / sum_list (map (fun b => INR (size b)) bs) else total))).
Proof.
  intros Hn Hs Hb Hf Hk Hv.
  destruct (evals_value P B size crit loader numpy bpe mean Hn Hs Hb ps (batch_init B loader bpe) 0
    (init_pos B loader bpe ltac:(lia)) Hf k p v Hk Hv) as (bs & [L W] & E).
  exists bs. split; [exact L|]. split; [exact W|]. rewrite E. reflexivity.
Qed.
Print Assumptions C47_cycles.
(** a loader without shuffling: batch number i is l[i mod len(l)] *)
Theorem C47_order_fixed_loader B (l : list B) i : l <> [] ->
  nth_error (concat (map (fun _ => l) (seq 0 (S i)))) i = nth_error l (i mod length l).
Proof. intros H. apply (fixed_stream B l i H). Qed.
Print Assumptions C47_order_fixed_loader.
(** an evaluation that fails on its (j+1)-th batch consumes j+1 batches, so that the next one starts there *)
Theorem C47_failed_evaluation P B size crit loader numpy bpe mean (p : P) st i j bs b :
  nonempty B loader -> (j < bpe)%nat -> at_pos B loader st i -> window B loader i j bs ->
  (forall c, In c bs -> exists x, crit p c = Value x) -> stream B loader (i + j) = Some b ->
  (crit p b = LinalgError \/ crit p b = OtherError) ->
  exists st', at_pos B loader st' (i + S j) /\
   batch_eval P B size crit loader numpy bpe mean p st =
     (match crit p b with LinalgError => if numpy then EValue PInf else ELinalg | _ => EOther end, st').
Proof.
  intros Hn Hj Hp W Hv Hb Hc. unfold batch_eval. destruct (Nat.eqb_spec bpe 0); [lia|].
  destruct (cycle_fail P B size crit loader p mean bpe Hn j st i (Fin 0) 0 bs b Hp Hj W Hv Hb Hc) as (st' & E & Hp').
  exists st'. split; auto. rewrite E. destruct Hc as [-> | ->]; reflexivity.
Qed.
Print Assumptions C47_failed_evaluation.
(** batches_per_eval = 0: one pass; with a per-observation criterion this is the mean over the data set *)
Theorem C47_full_pass P B O (obs : B -> list O) crit loader numpy (p : P) (g : O -> R) st :
  (forall b, obs b <> []) -> loader (opened B st) <> [] ->
  (forall b, crit p b = Value (Fin (sum_list (map g (obs b)) / INR (length (obs b))))) ->
  fst (batch_eval P B (fun b => length (obs b)) crit loader numpy 0 true p st) =
    EValue (Fin (let l := concat (map obs (loader (opened B st))) in sum_list (map g l) / INR (length l))).
Proof.
  intros Ho Hl Hc. unfold batch_eval. simpl.
  rewrite (full_value P B (fun b => length (obs b)) crit p (fun b => mean_of O g (obs b)) true Hc).
  - cbv zeta. simpl. rewrite Rplus_0_l. destruct (wmean_obs B O obs g (loader (opened B st)) Ho) as [E1 E2].
    rewrite E1. rewrite <- wtot_nsum, E2. reflexivity.
  - intros b. specialize (Ho b). destruct (obs b); [congruence|simpl; lia].
  - destruct (loader (opened B st)); [congruence|simpl; lia].
Qed.
Print Assumptions C47_full_pass.
(** fixed loader, batches_per_eval a multiple of its length: every evaluation, whatever was evaluated before,
    gives the mean over one full pass *)
Theorem C47_whole_passes P B size crit (l : list B) numpy m ps k (p : P) v :
  l <> [] -> (forall b, (0 < size b)%nat) -> (0 < m)%nat ->
  (forall p, In p ps -> exists v, finite_at P B crit p v) ->
  nth_error ps k = Some p -> finite_at P B crit p v ->
  nth_error (fst (batch_evals P B size crit (fun _ => l) numpy (m * length l) true ps (batch_init B (fun _ => l) (m * length l)))) k =
     Some (EValue (Fin (sum_list (map (fun b => v b * INR (size b)) l) / sum_list (map (fun b => INR (size b)) l)))).
Proof.
  intros Hl Hs Hm Hf Hk Hv. assert (Hll : (0 < length l)%nat) by (destruct l; [congruence|simpl; lia]).
  assert (Hb : (0 < m * length l)%nat) by nia.
  destruct (evals_value P B size crit (fun _ => l) numpy (m * length l) true (fun _ => Hl) Hs Hb ps
     (batch_init B (fun _ => l) (m * length l)) 0 (init_pos B (fun _ => l) _ (Nat.neq_sym _ _ (Nat.lt_neq _ _ Hb))) Hf k p v Hk Hv) as (bs & W & E).
  rewrite E. do 3 f_equal. unfold mean_or_sum, wsum, wtot. simpl plus in W.
  assert (Z : (m * length l) mod length l = 0%nat) by (apply Nat.mod_mul; lia).
  assert (W0 := concat_repeat_window B l m Hl).
  rewrite <- (fixed_window_sum B l (fun b => v b * INR (size b)) _ _ _ bs Hl Z W0 W).
  rewrite <- (fixed_window_sum B l (fun b => INR (size b)) _ _ _ bs Hl Z W0 W).
  rewrite !sum_repeat. assert (INR m <> 0) by (apply not_0_INR; lia).
  assert (0 < sum_list (map (fun b => INR (size b)) l)); [|field; lra].
  clear -Hl Hs. destruct l as [|b l]; [congruence|]. cbn [map]. rewrite sum_cons.
  assert (0 < INR (size b)) by (apply lt_0_INR; auto).
  destruct (sum_list_pos (map (fun b => INR (size b)) l)) as [S _]; [|lra].
  intros x Hx. apply in_map_iff in Hx. destruct Hx as (c & <- & _). apply pos_INR.
Qed.
Print Assumptions C47_whole_passes.
(** otherwise the criterion is not a function of the parameters: among n successive evaluations at the same
    point two differ, for the loader 0..n-1 of singletons and the criterion "is it the first batch" *)
Theorem C47_not_a_function numpy n bpe : (0 < n)%nat -> (0 < bpe)%nat -> bpe mod n <> 0%nat ->
  let crit (_ : unit) (b : nat) := Value (Fin (if b =? 0 then 1 else 0)) in
  let results := fst (batch_evals unit nat (fun _ => 1%nat) crit (fun _ => seq 0 n) numpy bpe true (repeat tt n)
                      (batch_init nat (fun _ => seq 0 n) bpe)) in
  ~ exists c, forall k, (k < n)%nat -> nth_error results k = Some (EValue (Fin c)).
Proof.
  intros Hn Hb Hm crit results (c & H). apply (not_constant n bpe Hn Hm).
  assert (Hne : forall e : nat, seq 0 n <> []) by (intros _; destruct n; [lia|discriminate]).
  exists (c * INR bpe). intros k bs Hk W.
  destruct (evals_value unit nat (fun _ => 1%nat) crit (fun _ => seq 0 n) numpy bpe true Hne (fun _ => Nat.lt_0_succ 0) Hb
     (repeat tt n) (batch_init nat (fun _ => seq 0 n) bpe) 0 (init_pos nat (fun _ => seq 0 n) bpe (Nat.neq_sym _ _ (Nat.lt_neq _ _ Hb)))) with (k := k) (p := tt) (v := is_first)
     as (bs' & W' & E).
  - intros p _. exists is_first. destruct p. intros b. reflexivity.
  - clear -Hk. revert k Hk. induction n as [|n IH]; intros [|k] Hk; try lia; simpl; auto. apply IH; lia.
  - intros b. reflexivity.
  - simpl plus in W'. rewrite (window_unique _ _ _ _ _ _ W W').
    assert (Q := H k Hk). unfold results in Q. rewrite E in Q. injection Q as Q.
    unfold mean_or_sum, wsum, wtot in Q.
    assert (T : sum_list (map (fun _ : nat => INR 1) bs') = INR bpe).
    { destruct W' as [L _]. rewrite <- L. clear. induction bs' as [|b l IH]; [reflexivity|]. cbn [map length]. rewrite sum_cons, IH, (S_INR (length l)). simpl. ring. }
    rewrite T in Q. rewrite <- Q.
    replace (map (fun b : nat => is_first b * INR 1) bs') with (map is_first bs') by (apply map_ext; intros; simpl; ring).
    field. apply not_0_INR. lia.
Qed.
Print Assumptions C47_not_a_function.
(** empty loaders *)
Theorem C47_empty_loader P B size crit numpy bpe mean (p : P) :
  fst (batch_eval P B size crit (fun _ => []) numpy bpe mean p (batch_init B (fun _ => []) bpe)) =
    if (bpe =? 0)%nat then EEmpty else ERuntime.
Proof. unfold batch_eval, batch_init. destruct bpe; simpl; reflexivity. Qed.
Print Assumptions C47_empty_loader.
Example C47_case :
  let crit (_ : unit) (b : nat) := Value (Fin (INR b)) in
  nonempty nat (fun _ => [1; 2; 3]%nat) /\ finite_at unit nat crit tt INR /\
  (exists a b, fst (batch_evals unit nat (fun _ => 1%nat) crit (fun _ => [1; 2; 3]%nat) true 2 true [tt; tt]
     (batch_init nat (fun _ => [1; 2; 3]%nat) 2)) = [EValue (Fin a); EValue (Fin b)] /\ a = 3 / 2 /\ b = 2).
Proof.
  split; [intros e; discriminate|]. split; [intros b; reflexivity|].
  unfold batch_evals, batch_eval, batch_init. simpl. unfold finish; simpl. unfold reqb.
  destruct (Req_EM_T _ 0); [lra|]. do 2 eexists. split; [reflexivity|]. split; field.
Qed.
End C47.

(** ** C76 *)
Section C76.
Local Open Scope R_scope.
(** array wrapper: after any evaluation the gradient is available exactly at the point just evaluated, once, and
    is the gradient there; after a linear algebra failure it raises RuntimeError (so the optimisation stops) *)
Theorem C76_array_gradient P G eqP f (p q : P) st v : (forall a b, eqP a b = true <-> a = b) ->
  fst (evaluate_pre_grad P G f p st) = v ->
  match fst (gradient P G eqP f q (snd (evaluate_pre_grad P G f p st))) with
  | Grad (Some g) => q = p /\ f p = Some (v, g)
  | Grad None => False
  | GValueError => q <> p
  | GRuntimeError => q = p /\ f p = None /\ v = PInf
  end.
Proof.
  intros He. unfold evaluate_pre_grad. destruct (f p) as [[w g]|] eqn:E; simpl; intros <-; unfold gradient; simpl;
    destruct (eqP q p) eqn:Q; simpl.
  - apply He in Q. rewrite E. simpl. auto.
  - intros ->. rewrite (proj2 (He p p) eq_refl) in Q. discriminate.
  - apply He in Q. auto.
  - intros ->. rewrite (proj2 (He p p) eq_refl) in Q. discriminate.
Qed.
Print Assumptions C76_array_gradient.
Theorem C76_array_gradient_before_evaluation P G eqP f (q : P) : fst (gradient P G eqP f q (torch0 P)) = GValueError G.
Proof. reflexivity. Qed.
Print Assumptions C76_array_gradient_before_evaluation.
(** any history of calls, most recent first: the answer depends on the last evaluation and on whether a gradient was
    already returned since; the second gradient call at the same point fails, the graph being released *)
Inductive torch_call (P : Type) := CEval (p : P) | CGrad (p : P).
Fixpoint torch_after P G eqP f (h : list (torch_call P)) : torch_state P :=
  match h with
  | [] => torch0 P
  | CEval p :: h' => snd (evaluate_pre_grad P G f p (torch_after P G eqP f h'))
  | CGrad q :: h' => snd (gradient P G eqP f q (torch_after P G eqP f h'))
  end.
Theorem C76_history P G eqP f (h : list (torch_call P)) q : (forall a b, eqP a b = true <-> a = b) ->
  let r := fst (gradient P G eqP f q (torch_after P G eqP f h)) in
  (* no evaluation yet *)
  ((forall p, ~ In (CEval P p) h) -> r = GValueError G) /\
  (* gs: the gradient calls since the last evaluation, at p *)
  (forall gs p h', h = map (CGrad P) gs ++ CEval P p :: h' ->
     (q <> p -> r = GValueError G) /\
     (q = p -> f p = None -> r = GRuntimeError G) /\
     (q = p -> forall v g, f p = Some (v, g) -> (In p gs -> r = GRuntimeError G) /\ (~ In p gs -> r = Grad G (Some g)))).
Proof.
  intros He r. assert (Hr : forall a, eqP a a = true) by (intros; apply He; reflexivity). subst r. split.
  - intros N. assert (E : torch_after P G eqP f h = torch0 P); [| rewrite E; reflexivity].
    induction h as [| [p | p] h IH]; simpl; [reflexivity | exfalso; apply (N p); left; reflexivity |].
    rewrite IH by (intros p' i; apply (N p'); right; exact i). reflexivity.
  - intros gs p h' ->.
    assert (S : let st := torch_after P G eqP f (map (CGrad P) gs ++ CEval P p :: h') in
      p_value P st = Some p /\ match f p with None => f_value P st = Some None
        | Some _ => f_value P st = Some (Some p) /\ (freed P st = true <-> In p gs) end).
    { induction gs as [| a gs IH]; simpl.
      - unfold evaluate_pre_grad. destruct (f p) as [[w g] |]; simpl; intuition discriminate.
      - simpl in IH. destruct (torch_after P G eqP f (map (CGrad P) gs ++ CEval P p :: h')) as [pv fv fr]; simpl in IH.
        destruct IH as [-> IH]. unfold gradient; simpl. destruct (f p) as [[w g] |].
        + destruct IH as [-> IH]. simpl. destruct (eqP a p) eqn:Q.
          * apply He in Q; subst a. destruct fr; simpl; repeat split; auto.
          * simpl. repeat split; auto; [intro; right; apply IH; assumption |]. intros [-> | i]; [rewrite Hr in Q; discriminate | apply IH; exact i].
        + rewrite IH. destruct (eqP a p); simpl; auto. }
    simpl in S. destruct (torch_after P G eqP f (map (CGrad P) gs ++ CEval P p :: h')) as [pv fv fr]; simpl in S.
    destruct S as [-> S]. unfold gradient; simpl. split; [| split].
    + intros n. assert (Q : eqP q p = false) by (destruct (eqP q p) eqn:Q; [apply He in Q; contradiction | reflexivity]).
      destruct (f p); [destruct S as [-> _] | rewrite S]; simpl; rewrite Q; reflexivity.
    + intros -> E. rewrite E in S. rewrite S. simpl. rewrite Hr. reflexivity.
    + intros -> v g E. rewrite E in S. destruct S as [-> S]. simpl. rewrite Hr, E. destruct fr; simpl.
      * split; [reflexivity | intros n; exfalso; apply n, S; reflexivity].
      * split; [intros i; apply S in i; discriminate | reflexivity].
Qed.
Print Assumptions C76_history.
Example C76_history_case : let f (p : nat) := Some (PInf, p) in
  fst (gradient nat nat Nat.eqb f 1%nat (torch_after nat nat Nat.eqb f [CEval nat 1%nat])) = Grad nat (Some 1%nat) /\
  fst (gradient nat nat Nat.eqb f 1%nat (torch_after nat nat Nat.eqb f [CGrad nat 1%nat; CEval nat 1%nat])) = GRuntimeError nat.
Proof. split; reflexivity. Qed.
(** batch wrapper: value and cached gradient are the size-weighted averages over the same batches *)
Theorem C76_batch_gradient P B size crit loader d bpe (p q : P) v g st i cached :
  (forall b, crit p b = Some (v b, g b) /\ length (g b) = d) ->
  nonempty B loader -> (forall b, (0 < size b)%nat) -> (0 < bpe)%nat -> at_pos B loader st i ->
  exists bs u, window B loader i bpe bs /\
    let r := batch_pre_grad P B size crit loader bpe p (st, cached) in
    fst r = PValue (sum_list (map (fun b => v b * INR (size b)) bs) / sum_list (map (fun b => INR (size b)) bs)) /\
    batch_gradient P B q (snd r) = Some u /\
    forall j, nth j u 0 = sum_list (map (fun b => nth j (g b) 0 * INR (size b)) bs) / sum_list (map (fun b => INR (size b)) bs).
Proof.
  intros Hv Hn Hs Hb Hp.
  destruct (pre_grad_value P B size crit loader d bpe p v g st i cached Hv Hn Hs Hb Hp) as (bs & st' & u & W & _ & E & U).
  exists bs, u. split; auto. cbv zeta. rewrite E. split; auto.
Qed.
Print Assumptions C76_batch_gradient.
(** but it ignores the point it is asked for, and a failed evaluation leaves the previous gradient in place *)
Theorem C76_batch_gradient_stale P B size crit loader bpe (p q : P) o r o' :
  batch_pre_grad P B size crit loader bpe p o = (r, o') -> (forall w, r <> PValue w) ->
  batch_gradient P B q o' = batch_gradient P B p o.
Proof.
  unfold batch_pre_grad, batch_gradient. destruct o as [st cached].
  destruct (loop_grad P B size crit loader bpe p st 0 None 0) as [[[[[t a] n]|] s1] [|]]; simpl;
    try (destruct (n =? 0)%nat); intros E; injection E as <- <-; simpl; auto; intros H; destruct (H _ eq_refl).
Qed.
Print Assumptions C76_batch_gradient_stale.
Example C76_case : let crit (p b : nat) := match p with 0%nat => Some (INR b, [INR b]) | _ => None end in
  exists st1 st2,
  batch_pre_grad nat nat (fun _ => 1%nat) crit (fun _ => [1; 2]%nat) 2 0%nat (batch_init nat (fun _ => [1; 2]%nat) 2, None)
    = (PValue ((0 + INR 1 * INR 1 + INR 2 * INR 1) / INR 2), st1) /\
  batch_pre_grad nat nat (fun _ => 1%nat) crit (fun _ => [1; 2]%nat) 2 5%nat st1 = (PFail, st2) /\
  exists u, batch_gradient nat nat 5%nat st2 = Some [u] /\ u = 3 / 2.
Proof.
  do 2 eexists. split; [reflexivity|]. split; [reflexivity|]. eexists. split; [reflexivity|]. simpl. field.
Qed.
End C76.
