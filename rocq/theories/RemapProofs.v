(* RemapProofs.v: real-analysis lemmas for RemapThms.v. *)
From Coq Require Import List Reals Bool Lra Lia.
From Verif Require Import ConfigModel FlModel PriorModel PriorProofs PriorCritThms SelectModel SelectProofs.
Import ListNotations.
Local Open Scope R_scope.

(** one coordinate of the log-range prior: t is logrho - logrho_min, a its reference value *)
Lemma bar_min a t : 0 < a -> 0 < t -> t <> a -> a - a * ln a < t - a * ln t.
Proof.
  intros ha ht ne. assert (h : ln (t / a) < t / a - 1).
  { apply ln_lt_sub1; [apply Rdiv_lt_0_compat; lra |]. intro e. apply ne. apply (f_equal (Rmult a)) in e. field_simplify in e; lra. }
  unfold Rdiv in h at 1. rewrite ln_mult in h by (auto; apply Rinv_0_lt_compat; lra). rewrite ln_Rinv in h by lra.
  apply (Rmult_lt_compat_l a) in h; [| lra]. replace (a * (t / a - 1)) with (t - a) in h by (field; lra). lra.
Qed.
Lemma bar_quad a t : 0 < a -> Rabs (t - a) <= a / 2 -> t - a * ln t <= a - a * ln a + 2 / a * (t - a) * (t - a).
Proof.
  intros ha ht. assert (ht' : - (a / 2) <= t - a <= a / 2) by (revert ht; unfold Rabs; destruct (Rcase_abs (t - a)); lra).
  assert (t0 : 0 < t) by lra.
  assert (h : ln (a / t) <= a / t - 1).
  { destruct (Req_dec (a / t) 1) as [-> | ne]; [rewrite ln_1; lra |]. left. apply ln_lt_sub1; [apply Rdiv_lt_0_compat; lra | exact ne]. }
  unfold Rdiv in h at 1. rewrite ln_mult in h by (auto; apply Rinv_0_lt_compat; lra). rewrite ln_Rinv in h by lra.
  apply (Rmult_le_compat_l a) in h; [| lra].
  assert (e : (t - a) + a * (a / t - 1) = (t - a) * (t - a) / t) by (field; lra).
  assert (s : 0 <= (t - a) * (t - a)) by apply Rle_0_sqr.
  assert (i : / t <= 2 / a).
  { replace (2 / a) with (/ (a / 2)) by (field; lra). apply Rinv_le_contravar; lra. }
  assert ((t - a) * (t - a) / t <= 2 / a * (t - a) * (t - a)).
  { unfold Rdiv at 1. rewrite (Rmult_comm ((t - a) * (t - a))). rewrite Rmult_assoc. apply Rmult_le_compat_r; auto. }
  lra.
Qed.
Definition inside (li rm : list R) : Prop := Forall2 (fun x m => m < - x) li rm.
Lemma rho_pen_min alpha li li' rm : 0 < alpha -> inside li rm -> inside li' rm ->
  rho_pen alpha li rm (map Ropp li) <= rho_pen alpha li' rm (map Ropp li) /\
  (li' <> li -> rho_pen alpha li rm (map Ropp li) < rho_pen alpha li' rm (map Ropp li)).
Proof.
  intros ha h. revert li'. induction h as [| x m li rm hx h IH]; intros li' h'; inversion h' as [| x' m' l' rm' hx' h'']; subst; clear h'.
  - cbn. split; [lra | congruence].
  - destruct (IH l' h'') as [i1 i2]. cbn [rho_pen map].
    assert (k1 : x' <> x -> alpha * (- x - m - (- x - m) * ln (- x - m)) < alpha * (- x' - m - (- x - m) * ln (- x' - m))).
    { intro ne. apply Rmult_lt_compat_l; [lra |]. apply bar_min; lra. }
    assert (k2 : alpha * (- x - m - (- x - m) * ln (- x - m)) <= alpha * (- x' - m - (- x - m) * ln (- x' - m))).
    { destruct (Req_dec x' x) as [-> | ne]; [lra | specialize (k1 ne); lra]. }
    split; [lra |]. intro ne. destruct (Req_dec x' x) as [-> | nx].
    + assert (l' <> li) by congruence. specialize (i2 H). lra.
    + specialize (k1 nx). lra.
Qed.
Lemma rho_pen_quad alpha li rm : 0 < alpha -> inside li rm ->
  exists C delta, 0 <= C /\ 0 < delta /\ forall li' h, 0 <= h <= delta -> Forall2 (fun x' x => Rabs (x' - x) <= h) li' li ->
    inside li' rm /\ rho_pen alpha li' rm (map Ropp li) <= rho_pen alpha li rm (map Ropp li) + C * (h * h).
Proof.
  intros ha H. induction H as [| x m li rm hx H IH].
  - exists 0, 1. split; [lra | split; [lra |]]. intros li' h hh F. inversion F; subst. split; [constructor | cbn; lra].
  - destruct IH as (C & delta & hC & hd & IH). exists (C + alpha * (2 / (- x - m))), (Rmin delta ((- x - m) / 2)).
    assert (c0 : 0 < 2 / (- x - m)) by (apply Rdiv_lt_0_compat; lra).
    split; [assert (0 < alpha * (2 / (- x - m))) by (apply Rmult_lt_0_compat; lra); lra |].
    split; [apply Rmin_glb_lt; lra |]. intros li' h [h0 h1] F. inversion F as [| x' y l' l0 a1 a2]; subst.
    assert (h <= delta) by (eapply Rle_trans; [exact h1 | apply Rmin_l]).
    assert (h <= (- x - m) / 2) by (eapply Rle_trans; [exact h1 | apply Rmin_r]).
    destruct (IH l' h (conj h0 H0) a2) as [i1 i2].
    assert (ab : - h <= x' - x <= h) by (revert a1; unfold Rabs; destruct (Rcase_abs (x' - x)); lra).
    split; [constructor; [lra | exact i1] |]. cbn [rho_pen map].
    assert (k : - x' - m - (- x - m) * ln (- x' - m) <= (- x - m) - (- x - m) * ln (- x - m) + 2 / (- x - m) * (- x' - m - (- x - m)) * (- x' - m - (- x - m))).
    { apply bar_quad; [lra |]. apply Rabs_le. lra. }
    apply (Rmult_le_compat_l alpha) in k; [| lra].
    assert (sq : (- x' - m - (- x - m)) * (- x' - m - (- x - m)) <= h * h).
    { replace ((- x' - m - (- x - m)) * (- x' - m - (- x - m))) with ((x' - x) * (x' - x)) by ring. nra. }
    apply (Rmult_le_compat_l (alpha * (2 / (- x - m)))) in sq; [| left; apply Rmult_lt_0_compat; lra]. nra.
Qed.
Lemma inside_dec li rm : length li = length rm ->
  inside li rm \/ exists k x m, nth_error li k = Some x /\ nth_error rm k = Some m /\ - x <= m.
Proof.
  revert rm. induction li as [| x li IH]; intros [| m rm] e; try discriminate; [left; constructor |].
  injection e as e. destruct (Rle_dec (- x) m) as [h | h]; [right; exists 0%nat, x, m; auto |].
  destruct (IH rm e) as [i | (k & y & n & i)]; [left; constructor; [lra | exact i] | right; exists (S k), y, n; exact i].
Qed.
Lemma inside_opp li rm : inside li rm -> Forall2 Rlt rm (map Ropp li).
Proof. induction 1; cbn; constructor; auto. Qed.
Lemma opp_inside li rm : Forall2 Rlt rm (map Ropp li) -> inside li rm.
Proof. revert rm. induction li as [| x li IH]; intros rm H; cbn in H; inversion H; subst; constructor; auto. apply IH; auto. Qed.

(** repeated minimisation of A u + B exp(-u) + w (u - previous)^2 / 2 *)
Lemma prox_converges A B w (u : nat -> R) : 0 < A -> 0 < B -> 0 < w ->
  (forall k, A - B * exp (- u (S k)) + w * (u (S k) - u k) = 0) -> Un_cv u (ln (B / A)).
Proof.
  intros hA hB hw e. set (v := ln (B / A)). set (g := fun t => A - B * exp (- t)).
  assert (gv : g v = 0).
  { unfold g, v. rewrite exp_Ropp, exp_ln by (apply Rdiv_lt_0_compat; lra). field. lra. }
  assert (inc : forall a c, a < c -> g a < g c).
  { intros a c h. unfold g. assert (exp (- c) < exp (- a)) by (apply exp_increasing; lra). nra. }
  assert (eg : forall k, g (u (S k)) = w * (u k - u (S k))) by (intro k; unfold g; specialize (e k); lra).
  assert (pos : forall k, v <= u k -> v <= u (S k) <= u k).
  { intros k h. assert (v <= u (S k)).
    { destruct (Rle_dec v (u (S k))) as [| n]; auto. exfalso. assert (g (u (S k)) < 0) by (rewrite <- gv; apply inc; lra).
      rewrite eg in H. nra. }
    split; auto. assert (0 <= g (u (S k))). { destruct H as [H | <-]; [| lra]. rewrite <- gv. left. apply inc; auto. }
    rewrite eg in H0. destruct (Rle_dec (u (S k)) (u k)); auto. nra. }
  assert (neg : forall k, u k <= v -> u k <= u (S k) <= v).
  { intros k h. assert (u (S k) <= v).
    { destruct (Rle_dec (u (S k)) v) as [| n]; auto. exfalso. assert (0 < g (u (S k))) by (rewrite <- gv; apply inc; lra).
      rewrite eg in H. nra. }
    split; auto. assert (g (u (S k)) <= 0). { destruct H as [H | ->]; [| lra]. rewrite <- gv. left. apply inc; auto. }
    rewrite eg in H0. destruct (Rle_dec (u k) (u (S k))); auto. nra. }
  (* the limit is a zero of g *)
  assert (cg : continuity g) by (unfold g; intro t; reg).
  assert (fin : forall L, Un_cv u L -> L = v).
  { intros L hL.
    assert (hS : Un_cv (fun k => u (S k)) L).
    { intros eps he. destruct (hL eps he) as [N hN]. exists N. intros n hn. apply hN. lia. }
    assert (c1 : Un_cv (fun k => g (u (S k))) (g L)) by (apply continuity_seq; [apply cg | exact hS]).
    assert (c2 : Un_cv (fun k => w * (u k - u (S k))) (w * (L - L))).
    { apply CV_mult; [| apply CV_minus; auto]. intros eps he. exists 0%nat. intros. unfold R_dist. rewrite Rminus_diag_eq, Rabs_R0; auto. }
    assert (c3 : Un_cv (fun k => g (u (S k))) (w * (L - L))).
    { intros eps he. destruct (c2 eps he) as [N hN]. exists N. intros n hn. rewrite eg. auto. }
    assert (E : g L = w * (L - L)) by (eapply UL_sequence; eauto). replace (w * (L - L)) with 0 in E by ring.
    destruct (Rtotal_order L v) as [h | [h | h]]; auto; apply inc in h; lra. }
  destruct (Rle_dec v (u 0%nat)) as [h | h].
  - assert (all : forall k, v <= u k) by (induction k; [exact h | apply pos; auto]).
    assert (dec : Un_decreasing u) by (intro k; apply pos; auto).
    destruct (decreasing_cv u dec) as [L hL]; [| rewrite <- (fin L hL); exact hL].
    exists (- v). intros y [k ->]. unfold opp_seq. specialize (all k). lra.
  - assert (all : forall k, u k <= v) by (induction k; [lra | apply neg; auto]).
    assert (gr : Un_growing u) by (intro k; apply neg; auto).
    destruct (growing_cv u gr) as [L hL]; [| rewrite <- (fin L hL); exact hL].
    exists v. intros y [k ->]. auto.
Qed.

(** a full pass over the batches, criterion finite on each of them *)
Section Pass.
Variables (P B : Type) (size : B -> nat) (crit : P -> B -> outcome).
Lemma pass_value p (v : B -> R) mean l t n : (forall a, In a l -> crit p a = Value (Fin (v a))) -> (forall a, In a l -> (0 < size a)%nat) ->
  (0 < n + length l)%nat ->
  loop_full P B size crit l p mean (Fin t) n =
    EValue (Fin (let s := t + sum_list (map (fun a => v a * INR (size a)) l) in
                 if mean then s / INR (n + list_sum (map size l)) else s)).
Proof.
  revert t n. induction l as [| a l IH]; intros t n hv hs hn.
  - cbn in *. rewrite Nat.add_0_r in *. rewrite finish_val by lia. unfold sum_list; cbn. rewrite Rplus_0_r. reflexivity.
  - cbn [loop_full]. rewrite hv by (left; auto). cbn [fl_mul fl_add]. rewrite IH; [| intros; apply hv; right; auto | intros; apply hs; right; auto |].
    + cbn [map list_sum fold_right]. rewrite sum_cons, Rplus_assoc, Nat.add_assoc. reflexivity.
    + assert (0 < size a)%nat by (apply hs; left; auto). lia.
Qed.
End Pass.

(** size-weighted sums of quadratic-exponential profiles *)
Section Weighted.
Variables (B : Type) (n : B -> R).
Definition wsm (f : B -> R) (s : list B) : R := sum_list (map (fun a => n a * f a) s).
Lemma wsm_cons f a s : wsm f (a :: s) = n a * f a + wsm f s.
Proof. unfold wsm. cbn [map]. apply sum_cons. Qed.
Lemma wsm_pen A Bq C w s0 u s :
  wsm (fun a => pen (A a) (Bq a) w s0 (C a) u) s = pen (wsm A s) (wsm Bq s) (wsm (fun _ => w) s) s0 (wsm C s) u.
Proof.
  induction s as [| a s IH]; [unfold wsm, sum_list, pen; cbn; field |]. rewrite !wsm_cons, IH. unfold pen. field.
Qed.
Lemma wsm_pos f s : s <> [] -> (forall a, In a s -> 0 < n a) -> (forall a, In a s -> 0 < f a) -> 0 < wsm f s.
Proof.
  intros ne hn hf. destruct s as [| a s]; [congruence |]. clear ne. revert a hn hf. induction s as [| c s IH]; intros a hn hf; rewrite wsm_cons.
  - assert (0 < n a * f a) by (apply Rmult_lt_0_compat; [apply hn | apply hf]; left; auto). unfold wsm, sum_list; cbn; lra.
  - assert (0 < n a * f a) by (apply Rmult_lt_0_compat; [apply hn | apply hf]; left; auto).
    assert (0 < wsm f (c :: s)) by (apply IH; intros; [apply hn | apply hf]; right; auto). lra.
Qed.
Lemma wsm_ext f g s : (forall a, In a s -> f a = g a) -> wsm f s = wsm g s.
Proof. intros h. induction s as [| a s IH]; auto. rewrite !wsm_cons, h by (left; auto). rewrite IH; auto. intros; apply h; right; auto. Qed.
Lemma wsm_const c s : wsm (fun _ => c) s = wsm (fun _ => 1) s * c.
Proof. induction s as [| a s IH]; [unfold wsm, sum_list; cbn; ring | rewrite !wsm_cons, IH; ring]. Qed.
Lemma wsm_scal c f s : wsm (fun a => c * f a) s = c * wsm f s.
Proof. induction s as [| a s IH]; [unfold wsm, sum_list; cbn; ring | rewrite !wsm_cons, IH; ring]. Qed.
Lemma wsm_app f s t : wsm f (s ++ t) = wsm f s + wsm f t.
Proof. induction s as [| a s IH]; [change (wsm f t = 0 + wsm f t); ring | cbn [app]; rewrite !wsm_cons, IH; ring]. Qed.
End Weighted.
Arguments wsm {B} n f s.
Lemma wsm_same B (n : B -> R) m f s : (forall a, In a s -> n a = m) -> wsm n f s = m * wsm (fun _ => 1) f s.
Proof.
  intros h. induction s as [| a s IH]; [unfold wsm, sum_list; cbn; ring |]. rewrite !wsm_cons, h by (left; auto). rewrite IH; [ring |]. intros; apply h; right; auto.
Qed.
