(* RealAux.v: second derivatives and finite differences over Coq's reals,
   stated without MathComp notations. *)
From Coq Require Import Reals Lra.
From Coquelicot Require Import Coquelicot.
Local Open Scope R_scope.

(* H is the second derivative of f at x *)
Definition second_derivative (f : R -> R) (x H : R) : Prop :=
  exists (g : R -> R) (d : R), 0 < d /\
    (forall t, Rabs (t - x) < d -> derivable_pt_lim f t (g t)) /\ derivable_pt_lim g x H.

Lemma dlim_ext_loc f g x l d : 0 < d -> (forall t, Rabs (t - x) < d -> f t = g t) ->
  derivable_pt_lim f x l -> derivable_pt_lim g x l.
Proof.
intros d0 e h; apply is_derive_Reals; apply is_derive_Reals in h.
refine (is_derive_ext_loc f g x l _ h).
exists (mkposreal d d0); intros t Ht; apply e; exact Ht.
Qed.

Lemma second_unique f f1 x d H H' : 0 < d ->
  (forall t, Rabs (t - x) < d -> derivable_pt_lim f t (f1 t)) ->
  derivable_pt_lim f1 x H' -> second_derivative f x H -> H = H'.
Proof.
intros d0 h1 h2 (g & e & e0 & hg & hH).
assert (m0 : 0 < Rmin d e) by (apply Rmin_glb_lt; assumption).
apply (uniqueness_limite f1 x); [|exact h2].
apply (dlim_ext_loc g f1 x H (Rmin d e) m0); [|exact hH].
intros t Ht; apply (uniqueness_limite f t).
- apply hg; apply Rlt_le_trans with (1 := Ht); apply Rmin_r.
- apply h1; apply Rlt_le_trans with (1 := Ht); apply Rmin_l.
Qed.

Lemma second_affine a c x H : second_derivative (fun t => a * t + c) x H <-> H = 0.
Proof.
assert (h1 : forall t, derivable_pt_lim (fun t => a * t + c) t a).
{ intros t; apply is_derive_Reals; auto_derive; trivial; ring. }
assert (h2 : derivable_pt_lim (fun _ => a) x 0).
{ apply is_derive_Reals; auto_derive; trivial. }
split.
- apply (second_unique _ (fun _ => a) x 1); [lra| |exact h2]; intros; apply h1.
- intros ->; exists (fun _ => a), 1; split; [lra|]; split; [intros; apply h1|exact h2].
Qed.

Lemma second_log a c x H : 0 < x ->
  second_derivative (fun t => a * ln t + c) x H <-> H = - a / (x * x).
Proof.
intros x0.
assert (h1 : forall t, Rabs (t - x) < x -> derivable_pt_lim (fun t => a * ln t + c) t (a / t)).
{ intros t Ht; assert (0 < t) by (apply Rabs_def2 in Ht; lra).
  apply is_derive_Reals; auto_derive; [exact H0|field; lra]. }
assert (h2 : derivable_pt_lim (fun t => a / t) x (- a / (x * x))).
{ apply is_derive_Reals; auto_derive; [lra|field; lra]. }
split.
- exact (second_unique _ _ x x H _ x0 h1 h2).
- intros ->; exists (fun t => a / t), x; split; [lra|]; split; [exact h1|exact h2].
Qed.

(* f agrees with g near x *)
Lemma second_ext f g x d H : 0 < d -> (forall t, Rabs (t - x) < d -> f t = g t) ->
  second_derivative f x H -> second_derivative g x H.
Proof.
intros d0 e (f1 & d1 & p1 & h1 & h2).
exists f1, (Rmin (d / 2) d1).
assert (m0 : 0 < Rmin (d / 2) d1) by (apply Rmin_glb_lt; lra).
split; [exact m0|]; split; [|exact h2].
intros t Ht.
assert (Ht1 : Rabs (t - x) < d / 2) by (apply Rlt_le_trans with (1 := Ht); apply Rmin_l).
assert (Ht2 : Rabs (t - x) < d1) by (apply Rlt_le_trans with (1 := Ht); apply Rmin_r).
apply (dlim_ext_loc f g t (f1 t) (d / 2)); [lra| |apply h1; exact Ht2].
intros u Hu; apply e.
replace (u - x) with ((u - t) + (t - x)) by ring.
apply Rle_lt_trans with (1 := Rabs_triang _ _); lra.
Qed.

(* the five-point difference quotient of exp at 0, factor of exp x *)
Definition fd_exp (h : R) : R :=
  / (12 * h) * (- exp (2 * h) + 8 * exp h - 8 * exp (- h) + exp (- (2 * h))).

Lemma fd_exp_pos h : 0 < h <= 1 -> 0 < fd_exp h.
Proof.
intros [h0 h1]; unfold fd_exp; apply Rmult_lt_0_compat; [apply Rinv_0_lt_compat; lra|].
replace (exp (2 * h)) with (exp h * exp h) by (rewrite <- exp_plus; f_equal; ring).
replace (exp (- (2 * h))) with (exp (- h) * exp (- h)) by (rewrite <- exp_plus; f_equal; ring).
assert (E1 : exp h <= exp 1) by (destruct h1 as [h1| ->]; [left; apply exp_increasing; lra|right; reflexivity]).
assert (E3 := exp_le_3).
assert (lt : exp (- h) < exp h) by (apply exp_increasing; lra).
assert (l1 : exp (- h) < 1) by (rewrite <- exp_0; apply exp_increasing; lra).
replace (- (exp h * exp h) + 8 * exp h - 8 * exp (- h) + exp (- h) * exp (- h))
  with ((exp h - exp (- h)) * (8 - exp h - exp (- h))) by ring.
apply Rmult_lt_0_compat; lra.
Qed.

Lemma abs_lt_pos u t : Rabs (u - t) < t -> 0 < u.
Proof. intros h; apply Rabs_def2 in h; lra. Qed.

Lemma fd_exp_eq t h : / (12 * h) * (- exp (t + 2 * h) + 8 * exp (t + h)
   + - (8 * exp (t + - h)) + exp (t + - (2 * h))) = fd_exp h * exp t.
Proof. unfold fd_exp; rewrite !exp_plus; ring. Qed.
Lemma INR12 : INR 12 = 12. Proof. simpl; ring. Qed.
Lemma INR8 : INR 8 = 8. Proof. simpl; ring. Qed.
Lemma INR2 : INR 2 = 2. Proof. simpl; ring. Qed.

Lemma ln_sqrt x : 0 < x -> ln (sqrt x) = ln x / 2.
Proof.
intros h; assert (s := sqrt_lt_R0 _ h).
assert (e : ln x = ln (sqrt x) + ln (sqrt x)).
{ rewrite <- (sqrt_sqrt x) at 1 by lra; apply ln_mult; exact s. }
lra.
Qed.

Lemma gauss_density mu v z : 0 < v ->
  exp (- ((ln (2 * PI) + ln v + Rsqr (z - mu) / v) / 2)) =
  / sqrt (2 * PI * v) * exp (- (Rsqr (z - mu) / (2 * v))).
Proof.
intros h; assert (p := PI_RGT_0).
assert (q : 0 < 2 * PI * v) by (apply Rmult_lt_0_compat; lra).
rewrite <- (exp_ln (/ sqrt (2 * PI * v))) by (apply Rinv_0_lt_compat, sqrt_lt_R0, q).
rewrite <- exp_plus; f_equal.
rewrite ln_Rinv by (apply sqrt_lt_R0, q).
rewrite ln_sqrt by exact q.
rewrite (ln_mult (2 * PI) v) by lra; field; lra.
Qed.
Lemma two_neq0 : 2 <> 0. Proof. lra. Qed.
