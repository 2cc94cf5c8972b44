(* GradProofs.v: error of the five-point difference for a function with five
   derivatives (property C114). *)
From Coq Require Import Reals Lra.
From Coquelicot Require Import Coquelicot.
Local Open Scope R_scope.

Lemma is_derive_eq (f : R -> R) t l l' : is_derive f t l -> l = l' -> is_derive f t l'.
Proof. intros h <-; exact h. Qed.

(* comparison of two functions from their derivatives *)
Lemma compare (u u' v v' : R -> R) (a b : R) : a <= b ->
  (forall t, a <= t <= b -> is_derive u t (u' t)) ->
  (forall t, a <= t <= b -> is_derive v t (v' t)) ->
  (forall t, a <= t <= b -> u' t <= v' t) -> u a <= v a -> u b <= v b.
Proof.
intros hab du dv h ha.
destruct (MVT_gen (fun t => v t - u t) a b (fun t => v' t - u' t)) as [c [hc e]].
- intros t ht; rewrite (Rmin_left a b hab), (Rmax_right a b hab) in ht.
  apply (is_derive_minus v u); [apply dv | apply du]; lra.
- intros t ht; rewrite (Rmin_left a b hab), (Rmax_right a b hab) in ht.
  apply continuity_pt_filterlim.
  apply (ex_derive_continuous (fun t0 => v t0 - u t0)).
  exists (v' t - u' t); apply (is_derive_minus v u); [apply dv | apply du]; lra.
- rewrite (Rmin_left a b hab), (Rmax_right a b hab) in hc.
  specialize (h c hc).
  assert (0 <= (v' c - u' c) * (b - a)) by (apply Rmult_le_pos; lra); lra.
Qed.

Lemma compare_abs (u u' v v' : R -> R) (a b : R) : a <= b ->
  (forall t, a <= t <= b -> is_derive u t (u' t)) ->
  (forall t, a <= t <= b -> is_derive v t (v' t)) ->
  (forall t, a <= t <= b -> Rabs (u' t) <= v' t) -> Rabs (u a) <= v a -> Rabs (u b) <= v b.
Proof.
intros hab du dv h ha.
assert (B : forall y w, Rabs y <= w -> y <= w /\ - y <= w).
{ intros y w hy; generalize (Rle_abs y), (Rle_abs (- y)); rewrite Rabs_Ropp; lra. }
apply Rabs_le; destruct (B _ _ ha) as [h1 h2]; split.
- enough (- u b <= v b) by lra.
  apply (compare (fun t => - u t) (fun t => - u' t) v v' a b hab); [| exact dv | | exact h2].
  + intros t ht; apply (is_derive_opp u), du, ht.
  + intros t ht; apply B, h, ht.
- apply (compare u u' v v' a b hab du dv); [| exact h1].
  intros t ht; apply B, h, ht.
Qed.

Lemma d_lin (f : R -> R) l x c s : is_derive f (x + c * s) l ->
  is_derive (fun s0 => f (x + c * s0)) s (c * l).
Proof.
intros h; apply (is_derive_comp f (fun s0 => x + c * s0) s l c); [exact h|].
auto_derive; [exact I | ring].
Qed.

Section Five.
Variables (F : nat -> R -> R) (x h M : R).
Hypothesis hpos : 0 < h.
Hypothesis dF : forall k t, (k < 5)%nat -> Rabs (t - x) <= 2 * h -> is_derive (F k) t (F (S k) t).
Hypothesis bF : forall t, Rabs (t - x) <= 2 * h -> Rabs (F 5%nat t) <= M.

Let dF' k c s : (k < 5)%nat -> -2 <= c <= 2 -> 0 <= s <= h ->
  is_derive (fun s0 => F k (x + c * s0)) s (c * F (S k) (x + c * s)).
Proof.
intros hk hc hs; apply d_lin, dF; [exact hk|].
replace (x + c * s - x) with (c * s) by ring.
apply Rabs_le; split; nra.
Qed.
Let dF1 k c s : (k < 5)%nat -> -1 <= c <= 1 -> 0 <= s <= 2 * h ->
  is_derive (fun s0 => F k (x + c * s0)) s (c * F (S k) (x + c * s)).
Proof.
intros hk hc hs; apply d_lin, dF; [exact hk|].
replace (x + c * s - x) with (c * s) by ring.
apply Rabs_le; split; nra.
Qed.

Let F4 s : 0 <= s <= 2 * h -> Rabs (F 4%nat (x + 1 * s) - F 4%nat (x + -1 * s)) <= 2 * M * s.
Proof.
intros hs.
apply (compare_abs (fun s0 => F 4%nat (x + 1 * s0) - F 4%nat (x + -1 * s0))
  (fun s0 => 1 * F 5%nat (x + 1 * s0) - -1 * F 5%nat (x + -1 * s0))
  (fun s0 => 2 * M * s0) (fun _ => 2 * M) 0 s); [lra | | | |].
- intros t ht; apply (is_derive_minus (fun s0 => F 4%nat (x + 1 * s0)) (fun s0 => F 4%nat (x + -1 * s0)));
    apply dF1; (lra || auto with arith).
- intros t ht; auto_derive; [exact I | ring].
- intros t ht.
  replace (1 * F 5%nat (x + 1 * t) - -1 * F 5%nat (x + -1 * t))
    with (F 5%nat (x + 1 * t) + F 5%nat (x + -1 * t)) by ring.
  eapply Rle_trans; [apply Rabs_triang|].
  assert (A : forall c, -1 <= c <= 1 -> Rabs (F 5%nat (x + c * t)) <= M).
  { intros c hc; apply bF; replace (x + c * t - x) with (c * t) by ring; apply Rabs_le; split; nra. }
  generalize (A 1 ltac:(lra)), (A (-1) ltac:(lra)); lra.
- rewrite !Rmult_0_r, Rplus_0_r, Rminus_diag_eq by reflexivity; rewrite Rabs_R0; lra.
Qed.

Let G s := F 3%nat (x + 1 * s) + F 3%nat (x + -1 * s).
Let G2 t : 0 <= t <= h -> Rabs (G (2 * t) - G t) <= 3 * M * t ^ 2.
Proof.
intros ht.
assert (Q : Rabs (G (2 * t) - G t) <= M * (2 * t) ^ 2 - M * t ^ 2).
{ apply (compare_abs (fun s => G s - G t)
    (fun s => F 4%nat (x + 1 * s) - F 4%nat (x + -1 * s))
    (fun s => M * s ^ 2 - M * t ^ 2) (fun s => 2 * M * s) t (2 * t)); [lra | | | |].
  - intros s hs.
    eapply is_derive_eq.
    + apply (is_derive_minus G (fun _ => G t)); [|apply (is_derive_const (G t))].
      apply (is_derive_plus (fun s0 => F 3%nat (x + 1 * s0)) (fun s0 => F 3%nat (x + -1 * s0)));
        apply dF1; (lra || auto with arith).
    + unfold minus, plus, opp, zero; simpl; ring.
  - intros s hs; auto_derive; [exact I | ring].
  - intros s hs; apply F4; lra.
  - rewrite Rminus_diag_eq by reflexivity; rewrite Rabs_R0; lra. }
eapply Rle_trans; [exact Q|]; apply Req_le; ring.
Qed.

Let p0 t := 8 * F 0%nat (x + 1 * t) - 8 * F 0%nat (x + -1 * t) - F 0%nat (x + 2 * t)
            + F 0%nat (x + -2 * t) - 12 * t * F 1%nat x.
Let p1 t := 8 * F 1%nat (x + 1 * t) + 8 * F 1%nat (x + -1 * t) - 2 * F 1%nat (x + 2 * t)
            - 2 * F 1%nat (x + -2 * t) - 12 * F 1%nat x.
Let p2 t := 8 * F 2%nat (x + 1 * t) - 8 * F 2%nat (x + -1 * t) - 4 * F 2%nat (x + 2 * t)
            + 4 * F 2%nat (x + -2 * t).
Let p3 t := 8 * F 3%nat (x + 1 * t) + 8 * F 3%nat (x + -1 * t) - 8 * F 3%nat (x + 2 * t)
            - 8 * F 3%nat (x + -2 * t).

(* derivative of a combination of the four stencil points *)
Let comb k a b c d e t : (k < 5)%nat -> 0 <= t <= h ->
  is_derive (fun s => a * F k (x + 1 * s) + b * F k (x + -1 * s) + c * F k (x + 2 * s)
                      + d * F k (x + -2 * s) + e * s) t
    (a * F (S k) (x + 1 * t) - b * F (S k) (x + -1 * t) + 2 * c * F (S k) (x + 2 * t)
     - 2 * d * F (S k) (x + -2 * t) + e).
Proof.
intros hk ht.
eapply is_derive_eq.
- apply (is_derive_plus (V := R_NormedModule)); [apply (is_derive_plus (V := R_NormedModule));
    [apply (is_derive_plus (V := R_NormedModule)); [apply (is_derive_plus (V := R_NormedModule))|]|]|].
  + apply (is_derive_scal (fun s => F k (x + 1 * s))); apply dF'; [exact hk | lra | exact ht].
  + apply (is_derive_scal (fun s => F k (x + -1 * s))); apply dF'; [exact hk | lra | exact ht].
  + apply (is_derive_scal (fun s => F k (x + 2 * s))); apply dF'; [exact hk | lra | exact ht].
  + apply (is_derive_scal (fun s => F k (x + -2 * s))); apply dF'; [exact hk | lra | exact ht].
  + apply (is_derive_scal (fun s => s)); apply (is_derive_id t).
- unfold plus, one; simpl; unfold mult; simpl; ring.
Qed.

Let P3 t : 0 <= t <= h -> Rabs (p3 t) <= 24 * M * t ^ 2.
Proof.
intros ht; replace (p3 t) with (-8 * (G (2 * t) - G t)).
- rewrite Rabs_mult, (Rabs_left (-8)) by lra; generalize (G2 t ht); lra.
- unfold p3, G; replace (x + 1 * (2 * t)) with (x + 2 * t) by ring;
    replace (x + -1 * (2 * t)) with (x + -2 * t) by ring; ring.
Qed.

Let z0 k c : F k (x + c * 0) = F k x.
Proof. f_equal; ring. Qed.

Let P2 t : 0 <= t <= h -> Rabs (p2 t) <= 8 * M * t ^ 3.
Proof.
intros ht; apply (compare_abs p2 p3 (fun s => 8 * M * s ^ 3) (fun s => 24 * M * s ^ 2) 0 t); [lra | | | |].
- intros s hs; eapply is_derive_eq.
  + eapply (is_derive_ext); [|apply (comb 2%nat 8 (-8) (-4) 4 0 s); [auto with arith | lra]].
    intros y; unfold p2; simpl; ring.
  + unfold p3; simpl; lra.
- intros s hs; auto_derive; [exact I | ring].
- intros s hs; apply P3; lra.
- unfold p2; rewrite !z0; match goal with |- Rabs ?e <= _ => replace e with 0 by ring end; rewrite Rabs_R0; lra.
Qed.

Let P1 t : 0 <= t <= h -> Rabs (p1 t) <= 2 * M * t ^ 4.
Proof.
intros ht; apply (compare_abs p1 p2 (fun s => 2 * M * s ^ 4) (fun s => 8 * M * s ^ 3) 0 t); [lra | | | |].
- intros s hs; eapply is_derive_eq.
  + eapply (is_derive_ext (fun y => (8 * F 1%nat (x + 1 * y) + 8 * F 1%nat (x + -1 * y) + -2 * F 1%nat (x + 2 * y)
        + -2 * F 1%nat (x + -2 * y) + 0 * y) + - (12 * F 1%nat x))); [intros y; unfold p1; simpl; ring|].
    apply (is_derive_plus (V := R_NormedModule)); [apply comb; [auto with arith | lra] | apply (is_derive_const (V := R_NormedModule))].
  + unfold p2, plus, zero; simpl; ring.
- intros s hs; auto_derive; [exact I | ring].
- intros s hs; apply P2; lra.
- unfold p1; rewrite !z0; match goal with |- Rabs ?e <= _ => replace e with 0 by ring end; rewrite Rabs_R0; lra.
Qed.

Let P0 t : 0 <= t <= h -> Rabs (p0 t) <= 2 / 5 * M * t ^ 5.
Proof.
intros ht; apply (compare_abs p0 p1 (fun s => 2 / 5 * M * s ^ 5) (fun s => 2 * M * s ^ 4) 0 t); [lra | | | |].
- intros s hs; eapply is_derive_eq.
  + eapply (is_derive_ext); [|apply (comb 0%nat 8 (-8) (-1) 1 (-12 * F 1%nat x) s); [auto with arith | lra]].
    intros y; unfold p0; simpl; ring.
  + unfold p1; simpl; lra.
- intros s hs; auto_derive; [exact I | field].
- intros s hs; apply P1; lra.
- unfold p0; rewrite !z0; match goal with |- Rabs ?e <= _ => replace e with 0 by ring end; rewrite Rabs_R0; lra.
Qed.

Lemma five_point_error :
  Rabs ((- F 0%nat (x + 2 * h) + 8 * F 0%nat (x + h) - 8 * F 0%nat (x - h) + F 0%nat (x - 2 * h)) / (12 * h)
        - F 1%nat x) <= M * h ^ 4 / 30.
Proof.
replace ((- F 0%nat (x + 2 * h) + 8 * F 0%nat (x + h) - 8 * F 0%nat (x - h) + F 0%nat (x - 2 * h)) / (12 * h)
        - F 1%nat x) with (p0 h / (12 * h)).
- unfold Rdiv; rewrite Rabs_mult, (Rabs_right (/ (12 * h))) by (apply Rle_ge, Rlt_le, Rinv_0_lt_compat; lra).
  replace (M * h ^ 4 * / 30) with (2 / 5 * M * h ^ 5 * / (12 * h)) by (field; lra).
  apply Rmult_le_compat_r; [apply Rlt_le, Rinv_0_lt_compat; lra | apply P0; lra].
- unfold p0; replace (x + 1 * h) with (x + h) by ring; replace (x + -1 * h) with (x - h) by ring;
    replace (x + -2 * h) with (x - 2 * h) by ring; field; lra.
Qed.
End Five.
