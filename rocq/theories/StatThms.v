(** Property C135: parameter statistics by integration. *)
From Coq Require Import Reals Lra Lia List Bool Arith.
From Coquelicot Require Import Coquelicot.
From Verif Require Import ConfigModel FlModel ParamModel DesignModel DiagProofs DiagModel GaussProofs DiagThms DiagThms2 StatModel.
Import List ListNotations.
Local Open Scope R_scope.

(** the mean of h under the density proportional to exp(-f) on [a, b] *)
Definition average (f h : R -> R) (a b : R) : R := RInt (fun t => h t * exp (- f t)) a b / RInt (fun t => exp (- f t)) a b.
(** x is within tol of the quantile of level p of that density *)
Definition near_quantile (f : R -> R) (a b tol p x : R) : Prop :=
  a <= x <= b /\ exists r, a <= r <= b /\ RInt (fun t => exp (- f t)) a r = p * RInt (fun t => exp (- f t)) a b /\ Rabs (x - r) <= tol.

Section Stat.
Variables (quad : (R -> fl) -> R -> R -> fl) (brentq : (R -> fl) -> R -> R -> R) (minimize : (R -> R) -> R -> R -> option R) (xtol : R).
Hypothesis Q : quad_contract quad.
Hypothesis B : brentq_contract brentq xtol.

Lemma row_values crit covparam box delta j lo hi : let f := slice_at crit covparam j in
  interval_of covparam box delta j = Some (lo, hi) -> lo < hi ->
  (forall x, lo <= x <= hi -> - 709 <= f x <= 745) -> (forall x, lo <= x <= hi -> continuous f x) ->
  exists r, integration_row quad brentq minimize crit covparam box delta j = Some r /\
    i_mean r = Fin (average f (fun t => t) lo hi) /\
    i_var r = Fin (average f (fun t => (t - average f (fun t => t) lo hi) ^ 2) lo hi) /\
    (exists qs, i_quantiles r = map Some qs /\ Forall2 (near_quantile f lo hi xtol) levels qs) /\
    i_mode r = match minimize f lo hi with Some x => x | None => nth j covparam 0 end.
Proof.
  intros f hi0 hlh hr hc.
  assert (hr' : forall x, lo <= x <= hi -> - 745 <= - f x <= 709) by (intros x hx; specialize (hr x hx); lra).
  assert (hc' : forall x, lo <= x <= hi -> continuous (fun t => - f t) x) by (intros x hx; apply (continuous_opp (V := R_NormedModule) f), hc; exact hx).
  destruct (C71_quadrature_values quad (fun t => - f t) lo hi Q hlh hr' hc') as [Z [eZ [Zp [eZ' [em [_ [ev [_ [_ [_ [ec _]]]]]]]]]]].
  unfold integration_row. rewrite hi0. unfold interval_of in hi0. destruct (nth_error covparam j) as [opt |] eqn:eo; [| discriminate].
  cbv zeta. fold f. rewrite eZ. eexists. split; [reflexivity |]. cbn [i_mean i_var i_quantiles i_mode].
  split; [exact em |]. split; [rewrite ev; unfold moment, average; do 2 f_equal; apply (RInt_ext (V := R_CompleteNormedModule)); intros x _; unfold sq; simpl; ring |].
  split; [| destruct (minimize f lo hi); [reflexivity | symmetry; now apply nth_error_nth]].
  assert (K : forall p, 0 < p < 1 -> exists x, dist_quantile quad brentq (fun t => - f t) lo hi Z p = Some x /\ near_quantile f lo hi xtol p x).
  { intros p hp. destruct (C71_quadrature_quantile quad brentq xtol (fun t => - f t) lo hi p Q B hlh hr' hc' hp) as [Z' [x [r [e1 [e2 [hx [hrr [e3 ht]]]]]]]].
    assert (Z' = Z) by congruence. subst Z'. exists x. split; [exact e2 |]. split; [exact hx |]. exists r. split; [exact hrr |]. split; [| exact ht].
    rewrite ec in e3 by exact hrr. injection e3 as e3. rewrite <- eZ'. rewrite <- e3. apply div_mul. lra. }
  unfold levels.
  destruct (K (1 / 10) ltac:(lra)) as [x1 [h1 k1]]. destruct (K (1 / 4) ltac:(lra)) as [x2 [h2 k2]]. destruct (K (1 / 2) ltac:(lra)) as [x3 [h3 k3]].
  destruct (K (3 / 4) ltac:(lra)) as [x4 [h4 k4]]. destruct (K (9 / 10) ltac:(lra)) as [x5 [h5 k5]].
  exists [x1; x2; x3; x4; x5]. split; [cbn [map]; now rewrite h1, h2, h3, h4, h5 |].
  repeat (apply Forall2_cons; [assumption |]). apply Forall2_nil.
Qed.

(** each row describes the criterion as a function of its parameter alone, as long as it stays between -709 and 745 *)
Theorem C135_values crit covparam ind box delta :
  let js := match ind with Some l => l | None => seq 0 (length covparam) end in
  (forall j, In j js -> exists lo hi, interval_of covparam box delta j = Some (lo, hi) /\ lo < hi /\
    (forall x, lo <= x <= hi -> - 709 <= slice_at crit covparam j x <= 745 /\ continuous (slice_at crit covparam j) x)) ->
  exists rs, integration_statistics quad brentq minimize crit covparam ind box delta = Some rs /\
    Forall2 (fun j r => exists lo hi, interval_of covparam box delta j = Some (lo, hi) /\
      let f := slice_at crit covparam j in
      i_mean r = Fin (average f (fun t => t) lo hi) /\
      i_var r = Fin (average f (fun t => (t - average f (fun t => t) lo hi) ^ 2) lo hi) /\
      (exists qs, i_quantiles r = map Some qs /\ Forall2 (near_quantile f lo hi xtol) levels qs) /\
      i_mode r = match minimize f lo hi with Some x => x | None => nth j covparam 0 end) js rs.
Proof.
  intros js h. unfold integration_statistics. fold js. clearbody js. induction js as [| j js IH]; [exists []; split; [reflexivity | constructor] |].
  destruct (h j (or_introl eq_refl)) as [lo [hi [e [hlh hf]]]].
  destruct (row_values crit covparam box delta j lo hi e hlh) as [r [er hr]]; [intros x hx; now apply hf | intros x hx; now apply hf |].
  destruct IH as [rs [ers hrs]]; [intros k hk; apply h; now right |].
  exists (r :: rs). split; [cbn [integration_rows]; now rewrite er, ers |]. constructor; [| exact hrs]. exists lo, hi. split; [exact e | exact hr].
Qed.

(** above 745 or below -709 it raises; the version on a grid does not *)
Theorem C135_raises crit covparam ind box delta j lo hi :
  let f := slice_at crit covparam j in
  In j (match ind with Some l => l | None => seq 0 (length covparam) end) ->
  interval_of covparam box delta j = Some (lo, hi) -> lo < hi ->
  (forall x, lo <= x <= hi -> 745 < f x) \/ (forall x, lo <= x <= hi -> f x < - 709) ->
  integration_statistics quad brentq minimize crit covparam ind box delta = None /\
  forall n, (2 <= n)%nat -> exists st, stats_row (fun c => Fin (crit c)) covparam box delta n j = Some st.
Proof.
  intros f hj e hlh hf.
  destruct (C71_quadrature_not_shift_invariant quad (fun t => - f t) lo hi Q hlh) as [n1 [n2 _]].
  assert (hz : dist_Z quad (fun t => - f t) lo hi = None).
  { destruct hf as [hf | hf]; [apply n1 | apply n2]; intros x hx; specialize (hf x hx); lra. }
  split.
  - unfold integration_statistics. set (js := match ind with Some l => l | None => _ end) in *. clearbody js. induction js as [| k js IH]; [destruct hj |].
    cbn [integration_rows]. destruct hj as [-> | hj].
    + unfold integration_row. rewrite e. unfold interval_of in e. destruct (nth_error covparam j); [| discriminate]. cbv zeta. fold f. now rewrite hz.
    + rewrite (IH hj). now destruct (integration_row _ _ _ _ _ _ _ k).
  - intros n hn. unfold stats_row. unfold interval_of in e. destruct (nth_error covparam j) as [opt |] eqn:eo; [| discriminate].
    assert (G : exists st, fast_univariate_stats (freeze (fun c => Fin (crit c)) covparam j) lo hi n = Some st).
    { destruct (C71_grid_values (freeze (fun c => Fin (crit c)) covparam j) lo hi n hn hlh) as [_ [st [es _]]]; [| | exists st; exact es].
      - apply Forall_forall. intros v hv. apply in_map_iff in hv as [x [<- _]]. exact I.
      - destruct (linspace lo hi n) as [| x xs] eqn:el; [apply (f_equal (@length R)) in el; rewrite linspace_length in el; simpl in el; lia |].
        exists (f x). left. reflexivity. }
    destruct box as [[l u] |].
    + destruct (nth_error l j), (nth_error u j); try discriminate. injection e as -> ->. exact G.
    + injection e as <- <-. exact G.
Qed.

(** a parameter that the criterion does not depend on: the row describes the interval *)
Lemma RInt_poly2 (c m a b : R) : RInt (fun t => (t - m) ^ 2 * c) a b = c * ((b - m) ^ 3 - (a - m) ^ 3) / 3.
Proof.
  apply is_RInt_unique. replace (c * ((b - m) ^ 3 - (a - m) ^ 3) / 3) with (minus (c * (b - m) ^ 3 / 3) (c * (a - m) ^ 3 / 3)) by (unfold minus, plus, opp; simpl; field).
  apply (is_RInt_derive (V := R_CompleteNormedModule) (fun t => c * (t - m) ^ 3 / 3)).
  - intros x _. auto_derive; [exact I |]. field.
  - intros x _. apply (ex_derive_continuous (V := R_NormedModule)). auto_derive. exact I.
Qed.
Lemma RInt_poly1 (c a b : R) : RInt (fun t => t * c) a b = c * (b ^ 2 - a ^ 2) / 2.
Proof.
  apply is_RInt_unique. replace (c * (b ^ 2 - a ^ 2) / 2) with (minus (c * b ^ 2 / 2) (c * a ^ 2 / 2)) by (unfold minus, plus, opp; simpl; field).
  apply (is_RInt_derive (V := R_CompleteNormedModule) (fun t => c * t ^ 2 / 2)).
  - intros x _. auto_derive; [exact I |]. field.
  - intros x _. apply (ex_derive_continuous (V := R_NormedModule)). auto_derive. exact I.
Qed.
Lemma RInt_flat (c a b : R) : RInt (fun _ : R => c) a b = (b - a) * c.
Proof. rewrite RInt_const. reflexivity. Qed.
Lemma RInt_on (f g : R -> R) a b : a <= b -> (forall x, a <= x <= b -> f x = g x) -> RInt f a b = RInt g a b.
Proof. intros h e. apply (RInt_ext (V := R_CompleteNormedModule)). rewrite Rmin_left, Rmax_right by exact h. intros x hx. apply e. lra. Qed.

Theorem C135_flat crit covparam box delta j lo hi v : interval_of covparam box delta j = Some (lo, hi) -> lo < hi ->
  (forall x, lo <= x <= hi -> slice_at crit covparam j x = v) -> - 709 <= v <= 745 -> (forall x, lo <= x <= hi -> continuous (slice_at crit covparam j) x) ->
  exists r qs, integration_row quad brentq minimize crit covparam box delta j = Some r /\
    i_mean r = Fin ((lo + hi) / 2) /\ i_var r = Fin ((hi - lo) ^ 2 / 12) /\
    i_quantiles r = map Some qs /\ Forall2 (fun p x => Rabs (x - (lo + p * (hi - lo))) <= xtol) levels qs.
Proof.
  intros e hlh hf hv hc. destruct (row_values crit covparam box delta j lo hi e hlh) as [r [er [em [ev [[qs [eq hq]] _]]]]]; [intros x hx; rewrite hf; lra | exact hc |].
  set (f := slice_at crit covparam j) in *. set (c := exp (- v)). assert (cp : 0 < c) by apply exp_pos.
  assert (Z : forall y, lo <= y <= hi -> RInt (fun t => exp (- f t)) lo y = (y - lo) * c).
  { intros y hy. rewrite <- RInt_flat. apply RInt_on; [lra |]. intros x hx. rewrite hf; [reflexivity | lra]. }
  assert (m1 : average f (fun t => t) lo hi = (lo + hi) / 2).
  { unfold average. rewrite Z by lra. rewrite (RInt_on _ (fun t => t * c)) by first [lra | intros x hx; rewrite hf; [reflexivity | lra]].
    rewrite RInt_poly1. field. lra. }
  assert (m2 : average f (fun t => (t - (lo + hi) / 2) ^ 2) lo hi = (hi - lo) ^ 2 / 12).
  { unfold average. rewrite Z by lra. rewrite (RInt_on _ (fun t => (t - (lo + hi) / 2) ^ 2 * c)) by first [lra | intros x hx; rewrite hf; [reflexivity | lra]].
    rewrite RInt_poly2. field. lra. }
  exists r, qs. split; [exact er |]. split; [now rewrite em, m1 |]. split; [now rewrite ev, m1, m2 |]. split; [exact eq |].
  clear eq. induction hq as [| p x ps xs [hx [q [hq1 [hq2 hq3]]]] _ IH]; constructor; [| exact IH].
  rewrite !Z in hq2 by lra. assert (eqq : q = lo + p * (hi - lo)) by (apply (Rmult_eq_reg_r c); lra). now rewrite <- eqq.
Qed.

(** a criterion symmetric about the selected value: mean and median are that value *)
Lemma RInt_mirror (g : R -> R) m a b : ex_RInt g (2 * m - b) (2 * m - a) ->
  RInt (fun y => g (2 * m - y)) a b = RInt g (2 * m - b) (2 * m - a).
Proof.
  intro h.
  assert (h' : ex_RInt g (-1 * a + 2 * m) (-1 * b + 2 * m)).
  { apply (ex_RInt_swap (V := R_NormedModule)). replace (-1 * b + 2 * m) with (2 * m - b) by ring. now replace (-1 * a + 2 * m) with (2 * m - a) by ring. }
  pose proof (RInt_comp_lin (V := R_CompleteNormedModule) g (-1) (2 * m) a b h') as q.
  assert (hx : ex_RInt (fun y => g (2 * m - y)) a b).
  { apply (ex_RInt_ext (V := R_NormedModule) (fun y => scal (-1) (scal (-1) (g (-1 * y + 2 * m))))).
    - intros x _. unfold scal. simpl. unfold mult. simpl. replace (-1 * x + 2 * m) with (2 * m - x) by ring. ring.
    - apply (ex_RInt_scal (V := R_NormedModule)). now apply (ex_RInt_comp_lin (V := R_NormedModule)). }
  rewrite <- (opp_RInt_swap (V := R_CompleteNormedModule) g (2 * m - a) (2 * m - b)).
  2:{ apply (ex_RInt_swap (V := R_NormedModule)). exact h. }
  replace (2 * m - b) with (-1 * b + 2 * m) by ring. replace (2 * m - a) with (-1 * a + 2 * m) by ring.
  rewrite <- q. rewrite <- (RInt_opp (V := R_CompleteNormedModule)).
  - apply (RInt_ext (V := R_CompleteNormedModule)). intros x _. unfold scal, opp. simpl. unfold mult. simpl. replace (-1 * x + 2 * m) with (2 * m - x) by ring. ring.
  - now apply (ex_RInt_comp_lin (V := R_NormedModule)).
Qed.

Lemma third_of (P : R -> R -> Prop) qs : Forall2 P levels qs -> exists q, nth_error qs 2 = Some q /\ P (1 / 2) q.
Proof. unfold levels. intro h. inversion h; subst. inversion H3; subst. inversion H5; subst. eexists. split; [reflexivity | assumption]. Qed.
Theorem C135_symmetric crit covparam delta j opt : let f := slice_at crit covparam j in
  nth_error covparam j = Some opt -> 0 < delta ->
  (forall x, opt - delta <= x <= opt + delta -> - 709 <= f x <= 745) -> (forall x, opt - delta <= x <= opt + delta -> continuous f x) ->
  (forall u, 0 <= u <= delta -> f (opt + u) = f (opt - u)) ->
  exists r med, integration_row quad brentq minimize crit covparam None delta j = Some r /\
    i_mean r = Fin opt /\ nth_error (i_quantiles r) 2 = Some (Some med) /\ Rabs (med - opt) <= xtol.
Proof.
  intros f eo hd hr hc hs. set (lo := opt - delta) in *. set (hi := opt + delta) in *.
  assert (e : interval_of covparam None delta j = Some (lo, hi)) by (unfold interval_of; now rewrite eo).
  destruct (row_values crit covparam None delta j lo hi e ltac:(unfold lo, hi; lra) hr hc) as [r [er [em [_ [[qs [eq hq]] _]]]]]. fold f in em, hq.
  set (w := fun t => exp (- f t)).
  assert (sw : forall x, lo <= x <= hi -> w (2 * opt - x) = w x).
  { intros x hx. unfold w. do 2 f_equal. unfold lo, hi in hx. destruct (Rle_dec opt x) as [h | h].
    - replace (2 * opt - x) with (opt - (x - opt)) by ring. rewrite <- hs by lra. f_equal. ring.
    - replace (2 * opt - x) with (opt + (opt - x)) by ring. rewrite hs by lra. f_equal. ring. }
  assert (wc : forall x, lo <= x <= hi -> continuous w x).
  { intros x hx. apply (continuous_comp (fun t => - f t) exp); [apply (continuous_opp (V := R_NormedModule) f), hc; exact hx |].
    apply (ex_derive_continuous (V := R_NormedModule)). exists (exp (- f x)). apply is_derive_exp. }
  assert (exw : forall a b, lo <= a -> a <= b -> b <= hi -> ex_RInt w a b) by (intros a b h1 h2 h3; apply cont_ex; [exact h2 |]; intros x hx; apply wc; lra).
  assert (exg : ex_RInt (fun t => (t - opt) * w t) lo hi).
  { apply cont_ex; [unfold lo, hi; lra |]. intros x hx. apply (continuous_mult (K := R_AbsRing) (fun t => t - opt) w); [| now apply wc].
    apply (ex_derive_continuous (V := R_NormedModule)). auto_derive. exact I. }
  assert (Zp : 0 < RInt w lo hi) by (apply RInt_gt_0; [unfold lo, hi; lra | intros x _; apply exp_pos | exact wc]).
  assert (g0 : RInt (fun t => (t - opt) * w t) lo hi = 0).
  { assert (q : RInt (fun y => (2 * opt - y - opt) * w (2 * opt - y)) lo hi = RInt (fun t => (t - opt) * w t) (2 * opt - hi) (2 * opt - lo)).
    { apply (RInt_mirror (fun t => (t - opt) * w t)). replace (2 * opt - hi) with lo by (unfold lo, hi; ring). replace (2 * opt - lo) with hi by (unfold lo, hi; ring). exact exg. }
    replace (2 * opt - hi) with lo in q by (unfold lo, hi; ring). replace (2 * opt - lo) with hi in q by (unfold lo, hi; ring).
    rewrite (RInt_on _ (fun t => opp ((t - opt) * w t))) in q.
    - rewrite (RInt_opp (V := R_CompleteNormedModule)) in q by exact exg. unfold opp in q. simpl in q.
      set (z := RInt (fun t => (t - opt) * w t) lo hi) in *. change (- z = z) in q. change (z = 0). lra.
    - unfold lo, hi; lra.
    - intros x hx. rewrite sw by exact hx. unfold opp. simpl. ring. }
  assert (mean : average f (fun t => t) lo hi = opt).
  { unfold average. fold w. assert (s : RInt (fun t => t * w t) lo hi = opt * RInt w lo hi).
    { rewrite (RInt_on _ (fun t => plus ((t - opt) * w t) (scal opt (w t)))); [| unfold lo, hi; lra | intros x _; unfold plus, scal; simpl; unfold mult; simpl; ring].
      rewrite (RInt_plus (V := R_CompleteNormedModule)); [| exact exg | apply (ex_RInt_scal (V := R_NormedModule)), exw; unfold lo, hi; lra].
      rewrite g0, (RInt_scal (V := R_CompleteNormedModule)) by (apply exw; unfold lo, hi; lra). unfold plus, scal. simpl. unfold mult. simpl.
      set (z := RInt w lo hi). change (0 + opt * z = opt * z). ring. }
    change (fun t => t * exp (- f t)) with (fun t => t * w t). rewrite s. assert (nz : RInt w lo hi <> 0) by (apply Rgt_not_eq; exact Zp).
    revert nz. generalize (RInt w lo hi). intros z nz. change (opt * z / z = opt). field. exact nz. }
  assert (half : RInt w lo opt = RInt w opt hi).
  { rewrite (RInt_on w (fun y => w (2 * opt - y)) lo opt); [| unfold lo; lra | intros x hx; symmetry; apply sw; unfold lo, hi in *; lra].
    rewrite (RInt_mirror w opt lo opt); [f_equal; unfold lo, hi; ring |]. apply exw; unfold lo, hi; lra. }
  destruct (third_of _ _ hq) as [q3 [e3 hn]].
  exists r, q3. split; [exact er |]. split; [now rewrite em, mean |]. split; [rewrite eq, nth_error_map, e3; reflexivity |].
  destruct hn as [_ [m [hm [emm ht]]]]. fold w in emm.
  assert (m = opt); [| now subst m].
  assert (ch : forall a b c, lo <= a -> a <= b -> b <= c -> c <= hi -> RInt w a b + RInt w b c = RInt w a c).
  { intros a b c h1 h2 h3 h4. apply (RInt_Chasles (V := R_CompleteNormedModule)); apply exw; lra. }
  assert (pos : forall a b, lo <= a -> a < b -> b <= hi -> 0 < RInt w a b).
  { intros a b h1 h2 h3. apply RInt_gt_0; [exact h2 | intros; apply exp_pos | intros x hx; apply wc; lra]. }
  assert (lh : lo < opt < hi) by (unfold lo, hi; lra).
  pose proof (ch lo opt hi ltac:(lra) ltac:(lra) ltac:(lra) ltac:(lra)) as c0.
  destruct (Rtotal_order m opt) as [h | [h | h]]; [exfalso | exact h | exfalso].
  - pose proof (ch lo m opt ltac:(lra) ltac:(lra) ltac:(lra) ltac:(lra)) as c1. pose proof (pos m opt ltac:(lra) h ltac:(lra)) as p1. lra.
  - pose proof (ch lo opt m ltac:(lra) ltac:(lra) ltac:(lra) ltac:(lra)) as c1. pose proof (pos opt m ltac:(lra) h ltac:(lra)) as p1. lra.
Qed.
End Stat.

(** a quadratic criterion of two parameters *)
Definition quadratic (c : list R) : R := match c with [x; y] => x * x + x * y + y * y | _ => 0 end.
Example C135_case minimize : exists r med, integration_row mid_quad sup_root minimize quadratic [0; 0] None 5 1 = Some r /\
  i_mean r = Fin 0 /\ nth_error (i_quantiles r) 2 = Some (Some med) /\ Rabs (med - 0) <= 0.
Proof.
  apply (C135_symmetric mid_quad sup_root minimize 0 mid_quad_ok (sup_root_ok 0 (Rle_refl 0)) quadratic [0; 0] 5 1 0); [reflexivity | lra | | |].
  - intros x hx. unfold slice_at. cbn. nra.
  - intros x _. apply (ex_derive_continuous (V := R_NormedModule) (slice_at quadratic [0; 0] 1)). unfold slice_at. cbn. auto_derive. exact I.
  - intros u _. unfold slice_at. cbn. ring.
Qed.
Example C135_flat_case minimize : exists r qs, integration_row mid_quad sup_root minimize (fun c => nth 0 c 0) [3; 7] None 5 1 = Some r /\
  i_mean r = Fin ((2 + 12) / 2) /\ i_var r = Fin ((12 - 2) ^ 2 / 12) /\ i_quantiles r = map Some qs /\ Forall2 (fun p x => Rabs (x - (2 + p * (12 - 2))) <= 0) levels qs.
Proof.
  apply (C135_flat mid_quad sup_root minimize 0 mid_quad_ok (sup_root_ok 0 (Rle_refl 0)) (fun c => nth 0 c 0) [3; 7] None 5 1 2 12 3).
  - unfold interval_of. cbn. do 2 f_equal; lra.
  - lra.
  - reflexivity.
  - lra.
  - intros x _. apply continuous_const.
Qed.

Print Assumptions C135_values.
Print Assumptions C135_raises.
Print Assumptions C135_flat.
Print Assumptions C135_symmetric.
