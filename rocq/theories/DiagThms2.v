(** C71: the alternative implementation by adaptive quadrature. *)
From Coq Require Import Reals Lra Lia List Bool Arith.
From Coquelicot Require Import Coquelicot.
From Verif Require Import ConfigModel FlModel DiagModel NutsProofs GaussProofs DiagThms.
Import List ListNotations.
Local Open Scope R_scope.

(** Contracts of scipy.integrate.quad and scipy.optimize.brentq: quad returns the integral of a finite integrable
    function and nothing finite for an integrand that is infinite throughout; brentq returns a point of the bracket
    within its tolerance of a root when the function is continuous and changes sign. *)
Definition quad_contract (quad : (R -> fl) -> R -> R -> fl) : Prop :=
  (forall f g a b, a <= b -> (forall x, a <= x <= b -> f x = Fin (g x)) -> ex_RInt g a b -> quad f a b = Fin (RInt g a b)) /\
  (forall f a b, a < b -> (forall x, a <= x <= b -> f x = PInf) -> forall v, quad f a b <> Fin v).
Definition brentq_contract (brentq : (R -> fl) -> R -> R -> R) (xtol : R) : Prop :=
  forall f g a b, a < b -> (forall x, a <= x <= b -> f x = Fin (g x)) -> (forall x, a <= x <= b -> continuity_pt g x) ->
    g a < 0 < g b -> exists r, a <= r <= b /\ g r = 0 /\ a <= brentq f a b <= b /\ Rabs (brentq f a b - r) <= xtol.

(** both contracts can be met *)
Definition mid_quad (f : R -> fl) (a b : R) : fl :=
  match f ((a + b) / 2) with Fin _ => Fin (RInt (fun x => match f x with Fin v => v | _ => 0 end) a b) | _ => PInf end.
Lemma mid_quad_ok : quad_contract mid_quad.
Proof.
  split.
  - intros f g a b hab hf hg. unfold mid_quad. rewrite hf by lra. f_equal. apply (RInt_ext (V := R_CompleteNormedModule)). rewrite Rmin_left, Rmax_right by exact hab. intros x hx. rewrite hf by lra. reflexivity.
  - intros f a b hab hf v. unfold mid_quad. rewrite hf by lra. discriminate.
Qed.
Definition sup_root (f : R -> fl) (a b : R) : R := real (Lub_Rbar (fun x => a <= x <= b /\ exists v, f x = Fin v /\ v <= 0)).
Lemma sup_root_ok xtol : 0 <= xtol -> brentq_contract sup_root xtol.
Proof.
  intros ht f g a b hab hf hc [ga gb]. unfold sup_root. set (E := fun x => a <= x <= b /\ exists v, f x = Fin v /\ v <= 0).
  assert (inE : forall x, a <= x <= b -> g x <= 0 -> E x) by (intros x hx hg; split; [exact hx |]; exists (g x); split; [now apply hf | exact hg]).
  assert (E1 : forall x, E x -> a <= x <= b /\ g x <= 0) by (intros x [hx [v [e hv]]]; split; [exact hx |]; rewrite hf in e by exact hx; assert (v = g x) by congruence; lra).
  destruct (Lub_Rbar_correct E) as [U L]. destruct (Lub_Rbar E) as [c | |] eqn:ec; cbn [real].
  - assert (ca : a <= c) by (apply (U a); apply inE; lra). assert (cb : c <= b) by (apply (L b); intros x hx; cbn; apply E1 in hx; lra).
    assert (near : forall e, 0 < e -> exists d, 0 < d /\ forall y, Rabs (y - c) < d -> Rabs (g y - g c) < e).
    { intros e he. destruct (hc c ltac:(lra) e he) as [d [hd q]]. exists d. split; [exact hd |]. intros y hy. destruct (Req_dec c y) as [<- | n]; [rewrite Rminus_eq_0, Rabs_R0; exact he |].
      apply (q y). split; [split; [exact I | exact n] | exact hy]. }
    assert (z : g c = 0).
    { destruct (Rtotal_order (g c) 0) as [h | [h | h]]; [exfalso | exact h | exfalso].
      - destruct (near (- g c) ltac:(lra)) as [d [hd q]]. assert (c < b) by (destruct (Req_dec c b) as [-> |]; lra). set (y := Rmin b (c + d / 2)).
        assert (y1 : c < y) by (unfold y; apply Rmin_glb_lt; lra). assert (y2 : y <= b) by apply Rmin_l. assert (y3 : y <= c + d / 2) by apply Rmin_r.
        specialize (q y ltac:(rewrite Rabs_pos_eq; lra)). apply Rabs_def2 in q. assert (hy : E y) by (apply inE; lra). specialize (U y hy). cbn in U. lra.
      - destruct (near (g c) h) as [d [hd q]]. assert (up : Rbar_le c (c - d)).
        { apply L. intros x hx. cbn. destruct (Rle_dec x (c - d)) as [h1 | h1]; [exact h1 |]. exfalso. assert (hxc := U x hx). cbn in hxc.
          specialize (q x ltac:(rewrite Rabs_minus_sym, Rabs_pos_eq; lra)). apply Rabs_def2 in q. apply E1 in hx. lra. }
        cbn in up. lra. }
    exists c. split; [lra |]. split; [exact z |]. split; [lra |]. rewrite Rminus_eq_0, Rabs_R0. exact ht.
  - exfalso. assert (up : Rbar_le p_infty b) by (apply L; intros x hx; cbn; apply E1 in hx; lra). exact up.
  - exfalso. exact (U a (inE a ltac:(lra) ltac:(lra))).
Qed.
Lemma cont_ex (h : R -> R) a b : a <= b -> (forall x, a <= x <= b -> continuous h x) -> ex_RInt h a b.
Proof. intros hab hc. apply (ex_RInt_continuous (V := R_CompleteNormedModule)). intros x hx. rewrite Rmin_left, Rmax_right in hx by exact hab. now apply hc. Qed.
Lemma safe_exp_fin u : - 745 <= u <= 709 -> safe_exp u = Fin (exp u).
Proof. intro h. unfold safe_exp. assert (e1 : rltb 709 u = false) by (apply rltb_false; lra). assert (e2 : rltb u (-745) = false) by (apply rltb_false; lra). now rewrite e1, e2. Qed.
Lemma div_mul (x z : R) : z <> 0 -> x = x / z * z.
Proof. intro h. field. exact h. Qed.
Lemma var_arith (s2 m z s : R) : z <> 0 -> s = s2 - m * m * z -> s2 / z + - (m * m) = s / z.
Proof. intros h ->. field. exact h. Qed.
Lemma scaled_ratio (e x z : R) : e <> 0 -> z <> 0 -> (e * x) / (e * z) = x / z.
Proof. intros h1 h2. field. split; assumption. Qed.
Lemma div_self (z : R) : z <> 0 -> 1 = z / z.
Proof. intro h. field. exact h. Qed.
Lemma aff_arith (z p t : R) : / z * t + - p = t / z - p.
Proof. unfold Rdiv. ring. Qed.
(** integrals against the density *)
Section Alt.
Context (quad : (R -> fl) -> R -> R -> fl) (Q : quad_contract quad) (lp : R -> R) (a b : R) (hab : a < b)
  (hr : forall x, a <= x <= b -> - 745 <= lp x <= 709) (hc : forall x, a <= x <= b -> continuous lp x).
Let w (x : R) : R := exp (lp x).
Lemma w_cont x : a <= x <= b -> continuous w x.
Proof. intro h. apply (continuous_comp lp exp); [now apply hc |]. apply (ex_derive_continuous (V := R_NormedModule)). exists (exp (lp x)). apply is_derive_exp. Qed.
Lemma hw_cont h x : a <= x <= b -> continuous h x -> continuous (fun t => h t * w t) x.
Proof. intros hx hh. apply (continuous_mult (K := R_AbsRing) h w); [exact hh | now apply w_cont]. Qed.
Lemma quad_h h u v : a <= u -> u <= v -> v <= b -> (forall x, a <= x <= b -> continuous h x) ->
  quad (fun t => fl_mul (Fin (h t)) (f_scalar lp t)) u v = Fin (RInt (fun t => h t * w t) u v).
Proof.
  intros h1 h2 h3 hh. apply (proj1 Q); [exact h2 | |].
  - intros x hx. unfold f_scalar. rewrite safe_exp_fin by (apply hr; lra). reflexivity.
  - apply cont_ex; [exact h2 |]. intros x hx. apply hw_cont; [lra | apply hh; lra].
Qed.
Lemma quad_w u v : a <= u -> u <= v -> v <= b -> quad (f_scalar lp) u v = Fin (RInt w u v).
Proof.
  intros h1 h2 h3. apply (proj1 Q); [exact h2 | |].
  - intros x hx. unfold f_scalar. rewrite safe_exp_fin by (apply hr; lra). reflexivity.
  - apply cont_ex; [exact h2 |]. intros x hx. apply w_cont. lra.
Qed.
Lemma Zpos : 0 < RInt w a b.
Proof. apply RInt_gt_0; [exact hab | intros x _; apply exp_pos | intros x hx; now apply w_cont]. Qed.
End Alt.
(** when the log density stays in the range the guarded exponential handles, the object is the normalised density *)
Definition moment (lp : R -> R) (h : R -> R) (a b : R) : R := RInt (fun t => h t * exp (lp t)) a b / RInt (fun t => exp (lp t)) a b.
Theorem C71_quadrature_values quad lp a b : quad_contract quad -> a < b ->
  (forall x, a <= x <= b -> - 745 <= lp x <= 709) -> (forall x, a <= x <= b -> continuous lp x) ->
  exists Z, dist_Z quad lp a b = Some Z /\ 0 < Z /\ Z = RInt (fun t => exp (lp t)) a b /\
    dist_mean quad lp a b Z = Fin (moment lp (fun t => t) a b) /\ a <= moment lp (fun t => t) a b <= b /\
    dist_var quad lp a b Z = Fin (moment lp (fun t => sq (t - moment lp (fun t => t) a b)) a b) /\ 0 <= moment lp (fun t => sq (t - moment lp (fun t => t) a b)) a b /\
    (forall x, x <= a -> dist_cdf quad lp a b Z x = Fin 0) /\ (forall x, b <= x -> dist_cdf quad lp a b Z x = Fin 1) /\
    (forall x, a <= x <= b -> dist_cdf quad lp a b Z x = Fin (RInt (fun t => exp (lp t)) a x / Z)) /\
    (forall x y, a <= x -> x < y -> y <= b -> RInt (fun t => exp (lp t)) a x / Z < RInt (fun t => exp (lp t)) a y / Z).
Proof.
  intros Q hab hr hc. set (w := fun t => exp (lp t)). assert (Zp := Zpos lp a b hab hc). fold w in Zp. exists (RInt w a b).
  assert (wc : forall x, a <= x <= b -> continuous w x) by (intros x hx; now apply (w_cont lp a b hc)).
  assert (exw : forall u v, a <= u -> u <= v -> v <= b -> ex_RInt w u v) by (intros u v h1 h2 h3; apply cont_ex; [exact h2 | intros; apply wc; lra]).
  assert (exh : forall h, (forall x, a <= x <= b -> continuous h x) -> ex_RInt (fun t => h t * w t) a b).
  { intros h hh. apply cont_ex; [lra |]. intros x hx. apply (hw_cont lp a b hc); [exact hx | now apply hh]. }
  assert (cid : forall x : R, continuous (fun t : R => t) x) by (intro; apply continuous_id).
  assert (csq : forall c x : R, continuous (fun t : R => sq (t - c)) x).
  { intros c x. apply (ex_derive_continuous (V := R_NormedModule)). unfold sq. auto_derive. exact I. }
  assert (csq0 : forall x : R, continuous sq x) by (intro x; apply (ex_derive_continuous (V := R_NormedModule)); unfold sq; auto_derive; exact I).
  assert (eZ : dist_Z quad lp a b = Some (RInt w a b)).
  { unfold dist_Z. assert (e : rltb a b = true) by (apply rltb_iff; exact hab). rewrite e, (quad_w quad Q lp a b hr hc) by lra. fold w.
    assert (e2 : rleb (RInt w a b) 0 = false) by (apply rleb_false; exact Zp). now rewrite e2. }
  assert (em : dist_mean quad lp a b (RInt w a b) = Fin (moment lp (fun t => t) a b)).
  { unfold dist_mean. rewrite (quad_h quad Q lp a b hr hc (fun t => t)) by (try lra; intros; apply cid). rewrite fl_div_pos by lra. reflexivity. }
  set (m := moment lp (fun t => t) a b) in *.
  assert (m1 : @eq R (RInt (fun t => t * w t) a b) (m * RInt w a b)) by (unfold m, moment; fold w; apply div_mul; lra).
  split; [exact eZ |]. split; [exact Zp |]. split; [reflexivity |]. split; [exact em |]. split; [| split; [| split; [| split; [| split; [| split]]]]].
  - split.
    + apply (Rmult_le_reg_r (RInt w a b)); [exact Zp |]. rewrite <- m1. assert (sc := RInt_scal (V := R_CompleteNormedModule) w a b a (exw a b ltac:(lra) ltac:(lra) ltac:(lra))). change (scal a (RInt w a b)) with (a * RInt w a b) in sc. rewrite <- sc.
      apply RInt_le; [lra | apply (ex_RInt_scal (V := R_CompleteNormedModule)); apply exw; lra | apply exh; intros; apply cid |]. intros x hx. apply Rmult_le_compat_r; [left; apply exp_pos | lra].
    + apply (Rmult_le_reg_r (RInt w a b)); [exact Zp |]. rewrite <- m1. assert (sc := RInt_scal (V := R_CompleteNormedModule) w a b b (exw a b ltac:(lra) ltac:(lra) ltac:(lra))). change (scal b (RInt w a b)) with (b * RInt w a b) in sc. rewrite <- sc.
      apply RInt_le; [lra | apply exh; intros; apply cid | apply (ex_RInt_scal (V := R_CompleteNormedModule)); apply exw; lra |]. intros x hx. apply Rmult_le_compat_r; [left; apply exp_pos | lra].
  - unfold dist_var. rewrite em. rewrite (quad_h quad Q lp a b hr hc sq); [| lra | lra | lra |].
    + rewrite fl_div_pos by lra. cbn [fl_mul fl_sub fl_opp fl_add]. f_equal. unfold moment. fold w. change (fun t => exp (lp t)) with w.
      assert (e : @eq R (RInt (fun t => sq (t - m) * w t) a b) (RInt (fun t => sq t * w t) a b - m * m * RInt w a b)).
      { assert (I1 := RInt_correct (V := R_CompleteNormedModule) _ _ _ (exh sq ltac:(intros; apply csq0))).
        assert (I2 := RInt_correct (V := R_CompleteNormedModule) _ _ _ (exh (fun t => t) ltac:(intros; apply cid))).
        assert (I3 := RInt_correct (V := R_CompleteNormedModule) _ _ _ (exw a b ltac:(lra) ltac:(lra) ltac:(lra))).
        assert (I4 := is_RInt_plus (V := R_NormedModule) _ _ _ _ _ _ I1 (is_RInt_plus (V := R_NormedModule) _ _ _ _ _ _ (is_RInt_scal (V := R_NormedModule) _ _ _ (- 2 * m) _ I2) (is_RInt_scal (V := R_NormedModule) _ _ _ (m * m) _ I3))).
        apply (is_RInt_unique (V := R_CompleteNormedModule)). 
        replace (RInt (fun t => sq t * w t) a b - m * m * RInt w a b) with (RInt (fun t => sq t * w t) a b + (- 2 * m * RInt (fun t => t * w t) a b + m * m * RInt w a b)) by (rewrite m1; ring).
        refine (is_RInt_ext (V := R_NormedModule) _ _ a b _ _ I4). intros x _. change (sq x * w x + (- 2 * m * (x * w x) + m * m * w x) = sq (x - m) * w x). unfold sq. ring. }
      apply var_arith; [lra | exact e].
    + intros x _. apply csq0.
  - unfold moment. fold w. apply Rmult_le_pos; [| left; apply Rinv_0_lt_compat; exact Zp].
    apply RInt_ge_0; [lra | apply exh; intros; apply csq |]. intros x _. apply Rmult_le_pos; [apply Rle_0_sqr | left; apply exp_pos].
  - intros x hx. unfold dist_cdf. assert (e : rleb x a = true) by (apply rleb_iff; exact hx). now rewrite e.
  - intros x hx. unfold dist_cdf. assert (e : rleb x a = false) by (apply rleb_false; lra). assert (e2 : rleb b x = true) by (apply rleb_iff; exact hx). now rewrite e, e2.
  - intros x hx. unfold dist_cdf. destruct (rleb x a) eqn:e.
    + apply rleb_iff in e. assert (x = a) by lra. subst x. rewrite (RInt_point (V := R_CompleteNormedModule)). f_equal. change zero with 0. unfold Rdiv. ring.
    + destruct (rleb b x) eqn:e2.
      * apply rleb_iff in e2. assert (x = b) by lra. subst x. f_equal. apply div_self. lra.
      * rewrite (quad_w quad Q lp a b hr hc) by lra. now rewrite fl_div_pos by lra.
  - intros x y hx hxy hy. apply Rmult_lt_compat_r; [now apply Rinv_0_lt_compat |].
    assert (Ch := RInt_Chasles (V := R_CompleteNormedModule) w a x y (exw a x ltac:(lra) ltac:(lra) ltac:(lra)) (exw x y ltac:(lra) ltac:(lra) ltac:(lra))). change plus with Rplus in Ch.
    assert (0 < RInt w x y); [| lra]. apply RInt_gt_0; [exact hxy | intros; apply exp_pos | intros z hz; apply wc; lra].
Qed.
Print Assumptions C71_quadrature_values.
(** quantiles: within the tolerance of the level's quantile *)
Lemma clamp_cont (a b x : R) : a <= b -> continuous (fun t => Rmax a (Rmin b t)) x.
Proof.
  intro hab. apply continuity_pt_filterlim. intros e he. exists e. split; [exact he |]. intros y [_ hy]. change (Rabs (y - x) < e) in hy. change (Rabs (Rmax a (Rmin b y) - Rmax a (Rmin b x)) < e).
  apply Rabs_def2 in hy. apply Rabs_def1; unfold Rmax, Rmin; repeat destruct (Rle_dec _ _); lra.
Qed.
Theorem C71_quadrature_quantile quad brentq xtol lp a b p : quad_contract quad -> brentq_contract brentq xtol -> a < b ->
  (forall x, a <= x <= b -> - 745 <= lp x <= 709) -> (forall x, a <= x <= b -> continuous lp x) -> 0 < p < 1 ->
  exists Z x r, dist_Z quad lp a b = Some Z /\ dist_quantile quad brentq lp a b Z p = Some x /\ a <= x <= b /\
    a <= r <= b /\ dist_cdf quad lp a b Z r = Fin p /\ Rabs (x - r) <= xtol.
Proof.
  intros Q B hab hr hc hp. destruct (C71_quadrature_values quad lp a b Q hab hr hc) as [Z [eZ [Zp [eZ' [_ [_ [_ [_ [_ [_ [ec _]]]]]]]]]]].
  set (w := fun t => exp (lp t)) in *.
  (* the density continued by its end values *)
  set (cl := fun t => Rmax a (Rmin b t)). set (wt := fun t => exp (lp (cl t))).
  assert (cin : forall t, a <= cl t <= b) by (intro t; unfold cl, Rmax, Rmin; repeat destruct (Rle_dec _ _); lra).
  assert (cid : forall t, a <= t <= b -> cl t = t) by (intros t h; unfold cl, Rmax, Rmin; repeat destruct (Rle_dec _ _); lra).
  assert (wc : forall x, continuous wt x).
  { intro x. apply (continuous_comp (fun t => lp (cl t)) exp); [apply (continuous_comp cl lp); [apply clamp_cont; lra | apply hc, cin] |].
    apply (ex_derive_continuous (V := R_NormedModule)). exists (exp (lp (cl x))). apply is_derive_exp. }
  assert (we : forall t, a <= t <= b -> RInt wt a t = RInt w a t).
  { intros t ht. apply (RInt_ext (V := R_CompleteNormedModule)). rewrite Rmin_left, Rmax_right by lra. intros x hx. unfold wt. rewrite cid by lra. reflexivity. }
  destruct (B (fun t => fl_sub (dist_cdf quad lp a b Z t) (Fin p)) (fun t => RInt wt a t / Z - p) a b hab) as [r [h1 [h2 [h3 h4]]]].
  - intros x hx. rewrite ec by exact hx. fold w. rewrite we by exact hx. reflexivity.
  - intros x hx. apply continuity_pt_filterlim. change (continuous (fun t => RInt wt a t / Z - p) x).
    assert (d : is_derive (fun t => RInt wt a t) x (wt x)).
    { apply (is_derive_RInt (V := R_CompleteNormedModule) wt (fun t => RInt wt a t) a x); [| apply wc].
      exists (mkposreal 1 Rlt_0_1). intros y hy. apply (RInt_correct (V := R_CompleteNormedModule)). apply (ex_RInt_continuous (V := R_CompleteNormedModule)). intros t _. apply wc. }
    apply (ex_derive_continuous (V := R_NormedModule)). exists (wt x / Z).
    apply (is_derive_ext (fun t => / Z * RInt wt a t + - p)); [intro t; apply aff_arith |].
    evar_last; [apply (is_derive_plus (V := R_NormedModule)); [apply is_derive_scal; exact d | apply is_derive_const] |]. change (/ Z * wt x + 0 = wt x / Z). unfold Rdiv. ring.
  - rewrite (RInt_point (V := R_CompleteNormedModule)). change zero with 0. rewrite we by lra. rewrite <- eZ'. split; [unfold Rdiv; lra |]. replace (Z / Z) with 1 by (field; lra). lra.
  - exists Z, (brentq (fun t => fl_sub (dist_cdf quad lp a b Z t) (Fin p)) a b), r. split; [exact eZ |]. split; [| split; [exact h3 | split; [exact h1 | split; [| exact h4]]]].
    + unfold dist_quantile. assert (e1 : rltb 0 p = true) by (apply rltb_iff; lra). assert (e2 : rltb p 1 = true) by (apply rltb_iff; lra). now rewrite e1, e2.
    + rewrite ec by exact h1. f_equal. fold w. rewrite we in h2 by exact h1. lra.
Qed.
(** a flat log density on [0, 2]: the median is 1 *)
Example C71_quantile_ex : exists Z x r, dist_Z mid_quad (fun _ => 0) 0 2 = Some Z /\ dist_quantile mid_quad sup_root (fun _ => 0) 0 2 Z (1 / 2) = Some x /\
  0 <= r <= 2 /\ dist_cdf mid_quad (fun _ => 0) 0 2 Z r = Fin (1 / 2) /\ x = r /\ r = 1.
Proof.
  assert (c0 : forall x : R, 0 <= x <= 2 -> continuous (fun _ : R => 0) x) by (intros; apply continuous_const).
  destruct (C71_quadrature_quantile mid_quad sup_root 0 (fun _ => 0) 0 2 (1 / 2) mid_quad_ok (sup_root_ok 0 (Rle_refl 0))) as [Z [x [r [e1 [e2 [_ [e3 [e4 e5]]]]]]]]; try lra; try exact c0; [intros; lra |].
  exists Z, x, r. split; [exact e1 |]. split; [exact e2 |]. split; [exact e3 |]. split; [exact e4 |].
  assert (hxr : x = r) by (assert (q : Rabs (x - r) = 0) by (pose proof (Rabs_pos (x - r)); lra); destruct (Req_dec (x - r) 0) as [h | h]; [lra | apply Rabs_no_R0 in h; contradiction]).
  split; [exact hxr |].
  destruct (C71_quadrature_values mid_quad (fun _ => 0) 0 2 mid_quad_ok) as [Z' [q1 [q2 [q3 [_ [_ [_ [_ [_ [_ [q4 _]]]]]]]]]]]; try lra; [intros; lra | exact c0 |].
  assert (eZ : Z = 2).
  { assert (e : Z = Z') by congruence. rewrite e, q3. rewrite (RInt_const (V := R_CompleteNormedModule)). change ((2 - 0) * exp 0 = 2). rewrite exp_0. lra. }
  assert (e : Z' = Z) by congruence. rewrite <- e in e4. rewrite q4 in e4 by exact e3. rewrite e, eZ in e4.
  rewrite (RInt_const (V := R_CompleteNormedModule)) in e4. change (Fin ((r - 0) * exp 0 / 2) = Fin (1 / 2)) in e4. rewrite exp_0 in e4. injection e4 as e4. lra.
Qed.
Print Assumptions C71_quadrature_quantile.
(** outside that range a mere shift of the log density makes the constructor raise *)
Theorem C71_quadrature_not_shift_invariant quad lp a b : quad_contract quad -> a < b ->
  ((forall x, a <= x <= b -> lp x < - 745) -> dist_Z quad lp a b = None) /\ ((forall x, a <= x <= b -> 709 < lp x) -> dist_Z quad lp a b = None) /\
  (forall B, (forall x, a <= x <= b -> Rabs (lp x) <= B) -> dist_Z quad (fun x => lp x - (B + 746)) a b = None /\ dist_Z quad (fun x => lp x + (B + 710)) a b = None).
Proof.
  intros Q hab.
  assert (L : forall l : R -> R, (forall x, a <= x <= b -> l x < - 745) -> dist_Z quad l a b = None).
  { intros l h. unfold dist_Z. assert (e : rltb a b = true) by (apply rltb_iff; exact hab). rewrite e.
    rewrite (proj1 Q (f_scalar l) (fun _ => 0) a b); [| lra | | apply ex_RInt_const].
    - rewrite RInt_const. change (scal (b - a) 0) with ((b - a) * 0). assert (e2 : rleb ((b - a) * 0) 0 = true) by (apply rleb_iff; lra). now rewrite e2.
    - intros x hx. specialize (h x hx). unfold f_scalar, safe_exp. assert (e1 : rltb 709 (l x) = false) by (apply rltb_false; lra). assert (e2 : rltb (l x) (-745) = true) by (apply rltb_iff; lra). now rewrite e1, e2. }
  assert (U : forall l : R -> R, (forall x, a <= x <= b -> 709 < l x) -> dist_Z quad l a b = None).
  { intros l h. unfold dist_Z. assert (e : rltb a b = true) by (apply rltb_iff; exact hab). rewrite e.
    assert (N := proj2 Q (f_scalar l) a b hab). destruct (quad (f_scalar l) a b) as [v | | |]; try reflexivity. exfalso. apply (N) with v; [| reflexivity].
    intros x hx. specialize (h x hx). unfold f_scalar, safe_exp. assert (e1 : rltb 709 (l x) = true) by (apply rltb_iff; lra). now rewrite e1. }
  split; [apply L |]. split; [apply U |]. intros B hB. split; [apply L | apply U]; intros x hx; specialize (hB x hx); pose proof (Rle_abs (lp x)); pose proof (Rle_abs (- lp x)); rewrite Rabs_Ropp in *; lra.
Qed.
Print Assumptions C71_quadrature_not_shift_invariant.
(** shifts that stay within the range change nothing *)
Theorem C71_quadrature_small_shift quad lp a b c : quad_contract quad -> a < b ->
  (forall x, a <= x <= b -> - 745 <= lp x <= 709) -> (forall x, a <= x <= b -> - 745 <= lp x + c <= 709) -> (forall x, a <= x <= b -> continuous lp x) ->
  exists Z Z', dist_Z quad lp a b = Some Z /\ dist_Z quad (fun x => lp x + c) a b = Some Z' /\ Z' = exp c * Z /\
    dist_mean quad (fun x => lp x + c) a b Z' = dist_mean quad lp a b Z /\ dist_var quad (fun x => lp x + c) a b Z' = dist_var quad lp a b Z.
Proof.
  intros Q hab h1 h2 hc.
  assert (hc' : forall x, a <= x <= b -> continuous (fun x => lp x + c) x).
  { intros x hx. apply (continuous_plus (V := R_NormedModule) lp (fun _ => c)); [now apply hc | apply continuous_const]. }
  destruct (C71_quadrature_values quad lp a b Q hab h1 hc) as [Z [e [Zp [eZ [em [_ [ev _]]]]]]].
  destruct (C71_quadrature_values quad _ a b Q hab h2 hc') as [Z' [e' [Zp' [eZ' [em' [_ [ev' _]]]]]]].
  assert (wc : forall h, (forall x : R, continuous h x) -> ex_RInt (fun t => h t * exp (lp t)) a b) by (intros h hh; apply cont_ex; [lra | intros x hx; apply (hw_cont lp a b hc); [exact hx | apply hh]]).
  assert (S : forall h, (forall x : R, continuous h x) -> @eq R (RInt (fun t => h t * exp (lp t + c)) a b) (exp c * RInt (fun t => h t * exp (lp t)) a b)).
  { intros h hh. assert (r := RInt_scal (V := R_CompleteNormedModule) (fun t => h t * exp (lp t)) a b (exp c) (wc h hh)). refine (eq_trans _ r).
    apply RInt_ext. intros x _. change (h x * exp (lp x + c) = exp c * (h x * exp (lp x))). rewrite exp_plus. ring. }
  assert (S1 : @eq R (RInt (fun t => exp (lp t + c)) a b) (exp c * RInt (fun t => exp (lp t)) a b)).
  { specialize (S (fun _ => 1) (fun x => continuous_const 1 x)). rewrite (RInt_ext (fun t => exp (lp t + c)) (fun t => 1 * exp (lp t + c))) by (intros; symmetry; apply Rmult_1_l). rewrite S. f_equal. apply RInt_ext. intros; apply Rmult_1_l. }
  assert (M : forall h, (forall x : R, continuous h x) -> moment (fun x => lp x + c) h a b = moment lp h a b).
  { intros h hh. unfold moment. rewrite S by exact hh. rewrite S1. apply scaled_ratio; [apply Rgt_not_eq, exp_pos |]. rewrite <- eZ. lra. }
  assert (M1 : moment (fun x : R => lp x + c) (fun t : R => t) a b = moment lp (fun t : R => t) a b) by exact (M (fun t => t) (fun x => continuous_id x)).
  exists Z, Z'. split; [exact e |]. split; [exact e' |]. split; [now rewrite eZ', S1, eZ |]. split.
  - rewrite em, em'. now rewrite M1.
  - rewrite ev, ev'. rewrite M1. f_equal. apply M. intro x. apply (ex_derive_continuous (V := R_NormedModule)). unfold sq. auto_derive. exact I.
Qed.
Print Assumptions C71_quadrature_small_shift.
Example C71_quadrature_example : (forall x, 0 <= x <= 1 -> - 745 <= - (x * x) <= 709) /\ forall x, 0 <= x <= 1 -> continuous (fun x : R => - (x * x)) x.
Proof. split; intros x hx; [nra |]. apply (ex_derive_continuous (V := R_NormedModule)). auto_derive. exact I. Qed.
