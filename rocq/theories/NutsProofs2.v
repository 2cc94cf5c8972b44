(** Lemmas for NutsModel, part 2: the selection kernel on a trajectory is symmetric. *)
From Coq Require Import List Arith ZArith Reals Bool Lra Lia FunctionalExtensionality.
From Verif Require Import ConfigModel FlModel PriorModel SmcModel NutsModel NutsProofs.
Import ListNotations.
Local Open Scope R_scope.

(** sum over the n integers from lo *)
Fixpoint zsum (n : nat) (lo : Z) (F : Z -> R) : R :=
  match n with O => 0 | S n => zsum n lo F + F (lo + Z.of_nat n)%Z end.
Lemma zsum_ext n lo F G : (forall i, (lo <= i < lo + Z.of_nat n)%Z -> F i = G i) -> zsum n lo F = zsum n lo G.
Proof.
  induction n as [| n ih]; intro h; cbn [zsum]; [reflexivity |]. rewrite ih by (intros i hi; apply h; lia).
  f_equal. apply h. lia.
Qed.
Lemma zsum_app n m lo F : zsum (n + m) lo F = zsum n lo F + zsum m (lo + Z.of_nat n) F.
Proof.
  induction m as [| m ih]; [rewrite Nat.add_0_r; cbn; ring |]. rewrite Nat.add_succ_r. cbn [zsum]. rewrite ih.
  replace (lo + Z.of_nat (n + m))%Z with (lo + Z.of_nat n + Z.of_nat m)%Z by lia. ring.
Qed.
Lemma zsum_shift n lo c F : zsum n lo (fun a => F (a + c)%Z) = zsum n (lo + c) F.
Proof.
  induction n as [| n ih]; cbn [zsum]; [reflexivity |]. rewrite ih.
  now replace (lo + Z.of_nat n + c)%Z with (lo + c + Z.of_nat n)%Z by ring.
Qed.
Lemma zsum_plus n lo F G : zsum n lo (fun a => F a + G a) = zsum n lo F + zsum n lo G.
Proof. induction n as [| n ih]; cbn [zsum]; [ring |]. rewrite ih. ring. Qed.
Lemma zsum_scale n lo c F : zsum n lo (fun a => c * F a) = c * zsum n lo F.
Proof. induction n as [| n ih]; cbn [zsum]; [ring |]. rewrite ih. ring. Qed.
Lemma zsum_zero n lo F : (forall i, (lo <= i < lo + Z.of_nat n)%Z -> F i = 0) -> zsum n lo F = 0.
Proof.
  induction n as [| n ih]; intro h; cbn [zsum]; [reflexivity |]. rewrite ih by (intros i hi; apply h; lia).
  rewrite h by lia. ring.
Qed.
Lemma zsum_pos n lo F : (forall i, (lo <= i < lo + Z.of_nat n)%Z -> 0 <= F i) -> 0 <= zsum n lo F.
Proof.
  induction n as [| n ih]; intro h; cbn [zsum]; [lra |]. assert (0 <= zsum n lo F) by (apply ih; intros i hi; apply h; lia).
  assert (0 <= F (lo + Z.of_nat n)%Z) by (apply h; lia). lra.
Qed.
(** a wider range with zero outside *)
Lemma zsum_widen n lo n' lo' F : (lo' <= lo)%Z -> (lo + Z.of_nat n <= lo' + Z.of_nat n')%Z ->
  (forall i, (lo' <= i < lo' + Z.of_nat n')%Z -> ~ (lo <= i < lo + Z.of_nat n)%Z -> F i = 0) ->
  zsum n' lo' F = zsum n lo F.
Proof.
  intros h1 h2 h0. replace n' with (Z.to_nat (lo - lo') + (n + (n' - n - Z.to_nat (lo - lo'))))%nat by lia.
  rewrite !zsum_app. replace (lo' + Z.of_nat (Z.to_nat (lo - lo')))%Z with lo by lia.
  rewrite (zsum_zero (Z.to_nat (lo - lo'))) by (intros i hi; apply h0; lia).
  rewrite (zsum_zero (n' - n - Z.to_nat (lo - lo'))) by (intros i hi; apply h0; lia). ring.
Qed.
Lemma zsum_single n lo x F : (lo <= x < lo + Z.of_nat n)%Z -> (forall i, (lo <= i < lo + Z.of_nat n)%Z -> i <> x -> F i = 0) -> zsum n lo F = F x.
Proof.
  intros h h0. rewrite (zsum_widen 1 x n lo F); [cbn; now rewrite Z.add_0_r, Rplus_0_l | lia | lia |].
  intros i hi hne. apply h0; lia.
Qed.

Definition delta (x i : Z) : R := if (i =? x)%Z then 1 else 0.
Definition b2r (b : bool) : R := if b then 1 else 0.

Section K.
Variable d : nat.
Variable pot : vec -> option (R * vec).
Variable im : vec.
Variable delta_max log_u H0 : R.
Variable o : Z -> option phase.
Notation valid := (valid d pot im log_u o).
Notation ok := (ok d pot im delta_max log_u H0 o).
Notation uturn := (uturn d im o).
Notation good := (good d pot im delta_max log_u H0 o).
Notation nval := (nval d pot im log_u o).
Notation vtot := (vtot d pot im log_u o).
Notation val := (val d pot im delta_max log_u H0 o).

Definition mean (W : Z -> R) (j : nat) (a : Z) : R := vtot W j a / INR (nval j a).
Definition g (W : Z -> R) (m : nat) (a : Z) (j : nat) : R := val W m a j (mean W j a).

Lemma mean_union W j a b : (0 < nval j a + nval j b)%nat ->
  (INR (nval j a) * mean W j a + vtot W j b) / INR (nval j a + nval j b) = (vtot W j a + vtot W j b) / INR (nval j a + nval j b).
Proof.
  intro h. unfold mean. destruct (Nat.eq_dec (nval j a) 0) as [e | e].
  - rewrite (vtot_zero d pot im log_u o W j a e), e. cbn [INR]. unfold Rdiv. ring.
  - assert (INR (nval j a) <> 0) by now apply not_0_INR. assert (INR (nval j a + nval j b) <> 0) by (apply not_0_INR; lia).
    field. split; assumption.
Qed.
(** what happens after the union [u] of two accepted halves *)
Definition after_union (W : Z -> R) (m : nat) (u : Z) (j : nat) : R :=
  if uturn u (u + P (S j) - 1) then mean W (S j) u else g W m u (S j).
Lemma g_step W m a j : (0 < nval j a)%nat ->
  g W (S m) a j = 1 / 2 * (if good j (a - P j) then after_union W m (a - P j) j else mean W j a) +
                  1 / 2 * (if good j (a + P j) then after_union W m a j else mean W j a).
Proof.
  intro hn. unfold g at 1. cbn [NutsProofs.val].
  assert (e1 : (INR (nval j a) * mean W j a + vtot W j (a - P j)) / INR (nval j a + nval j (a - P j)) = mean W (S j) (a - P j)).
  { rewrite mean_union by lia. unfold mean. cbn [NutsProofs.vtot NutsProofs.nval]. replace (a - P j + P j)%Z with a by ring.
    rewrite (Nat.add_comm (nval j a)). f_equal. ring. }
  assert (e2 : (INR (nval j a) * mean W j a + vtot W j (a + P j)) / INR (nval j a + nval j (a + P j)) = mean W (S j) a).
  { rewrite mean_union by lia. reflexivity. }
  rewrite e1, e2. unfold after_union, g. replace (1 - 1 / 2) with (1 / 2) by field. reflexivity.
Qed.

(** membership in a block *)
Definition inb (j : nat) (a x : Z) : bool := (a <=? x)%Z && (x <? a + P j)%Z.
Lemma inb_iff j a x : inb j a x = true <-> (a <= x < a + P j)%Z.
Proof. unfold inb. rewrite andb_true_iff, Z.leb_le, Z.ltb_lt. tauto. Qed.
Lemma inb_false j a x : inb j a x = false <-> ~ (a <= x < a + P j)%Z.
Proof. rewrite <- inb_iff. destruct (inb j a x); split; intro h; congruence || (exfalso; auto) || auto. Qed.
Lemma vtot_delta j : forall a x, vtot (delta x) j a = b2r (inb j a x && valid x).
Proof.
  induction j as [| j ih]; intros a x; cbn [NutsProofs.vtot].
  - unfold delta. destruct (Z.eqb_spec a x) as [-> | hne].
    + assert (e : inb 0 x x = true) by (apply inb_iff; rewrite P_0; lia). rewrite e. cbn [andb]. destruct (valid x); reflexivity.
    + assert (e : inb 0 a x = false) by (apply inb_false; rewrite P_0; lia). rewrite e. cbn [andb b2r]. destruct (valid a); reflexivity.
  - rewrite !ih. pose proof (P_pos j). assert (hs := P_S j).
    destruct (inb j a x) eqn:h1; [apply inb_iff in h1 | apply inb_false in h1];
    (destruct (inb j (a + P j) x) eqn:h2; [apply inb_iff in h2 | apply inb_false in h2]).
    + lia.
    + assert (e : inb (S j) a x = true) by (apply inb_iff; lia). rewrite e. cbn [andb]. unfold b2r. destruct (valid x); ring.
    + assert (e : inb (S j) a x = true) by (apply inb_iff; lia). rewrite e. cbn [andb]. unfold b2r. destruct (valid x); ring.
    + assert (e : inb (S j) a x = false) by (apply inb_false; lia). rewrite e. cbn [andb b2r]. ring.
Qed.
Lemma nval_inb j : forall a x, inb j a x = true -> valid x = true -> (0 < nval j a)%nat.
Proof.
  induction j as [| j ih]; intros a x h hv; cbn [NutsProofs.nval].
  - apply inb_iff in h. rewrite P_0 in h. replace a with x by lia. rewrite hv. lia.
  - apply inb_iff in h. rewrite P_S in h. destruct (Z_lt_le_dec x (a + P j)).
    + assert (0 < nval j a)%nat by (apply ih with x; [apply inb_iff; lia | exact hv]). lia.
    + assert (0 < nval j (a + P j))%nat by (apply ih with x; [apply inb_iff; lia | exact hv]). lia.
Qed.
Lemma mean_delta j a x : mean (delta x) j a = b2r (inb j a x && valid x) / INR (nval j a).
Proof. unfold mean. now rewrite vtot_delta. Qed.

(** sum over the blocks of level j containing s *)
Definition over (j : nat) (s : Z) (F : Z -> R) : R := zsum (2 ^ j) (s - P j + 1) F.
Lemma over_inb j s a : (s - P j + 1 <= a < s - P j + 1 + Z.of_nat (2 ^ j))%Z -> inb j a s = true.
Proof. intro h. apply inb_iff. fold (P j) in h. lia. Qed.
Lemma over_ext j s F G : (forall a, inb j a s = true -> F a = G a) -> over j s F = over j s G.
Proof. intro h. apply zsum_ext. intros a ha. apply h, over_inb, ha. Qed.
(** the blocks containing both points *)
Lemma over_sym j s x (c : Z -> R) : valid s = true -> valid x = true ->
  over j s (fun a => c a * mean (delta x) j a) = over j x (fun a => c a * mean (delta s) j a).
Proof.
  intros hs hx. set (F := fun a => if inb j a s && inb j a x then c a / INR (nval j a) else 0).
  assert (e1 : over j s (fun a => c a * mean (delta x) j a) = over j s F).
  { apply over_ext. intros a ha. unfold F. rewrite mean_delta, hx, ha. cbn [andb]. rewrite andb_true_r.
    destruct (inb j a x); cbn [b2r]; unfold Rdiv; ring. }
  assert (e2 : over j x (fun a => c a * mean (delta s) j a) = over j x F).
  { apply over_ext. intros a ha. unfold F. rewrite mean_delta, hs, ha. rewrite !andb_true_r.
    destruct (inb j a s); cbn [b2r]; unfold Rdiv; ring. }
  rewrite e1, e2. unfold over. fold (P j).
  set (lo' := (Z.min s x - P j + 1)%Z). set (n' := Z.to_nat (Z.max s x + 1 - lo')). pose proof (P_pos j).
  transitivity (zsum n' lo' F); [symmetry |]; apply zsum_widen; fold (P j); unfold n', lo'; try lia.
  - intros i hi hn. unfold F. assert (e : inb j i s = false) by (apply inb_false; lia). now rewrite e.
  - intros i hi hn. unfold F. assert (e : inb j i x = false) by (apply inb_false; lia). now rewrite e, andb_false_r.
Qed.
(** unions containing s: the left half contains s, or the right half does *)
Lemma over_union j s F : over (S j) s F = over j s (fun a => F (a - P j)%Z) + over j s F.
Proof.
  unfold over. rewrite (zsum_shift _ _ (- P j) F). rewrite P_S. replace (2 ^ S j)%nat with (2 ^ j + 2 ^ j)%nat by (cbn [Nat.pow]; lia). rewrite zsum_app. fold (P j).
  f_equal; f_equal; ring.
Qed.

Lemma good_split j u : good (S j) u = good j u && good j (u + P j) && negb (uturn u (u + P (S j) - 1)).
Proof. reflexivity. Qed.
Lemma kernel_sym m : forall j s x, valid s = true -> valid x = true ->
  over j s (fun a => b2r (good j a) * g (delta x) m a j) = over j x (fun a => b2r (good j a) * g (delta s) m a j).
Proof.
  induction m as [| m ih]; intros j s x hs hx; [now apply over_sym |].
  assert (X : forall s x, valid s = true -> valid x = true ->
    over j s (fun a => b2r (good j a) * g (delta x) (S m) a j) =
    1 / 2 * (over (S j) s (fun u => b2r (good (S j) u) * g (delta x) m u (S j)) +
             over (S j) s (fun u => b2r (good j u && good j (u + P j) && uturn u (u + P (S j) - 1)) * mean (delta x) (S j) u)) +
    1 / 2 * (over j s (fun a => b2r (good j a && negb (good j (a - P j))) * mean (delta x) j a) +
             over j s (fun a => b2r (good j a && negb (good j (a + P j))) * mean (delta x) j a))).
  { clear s x hs hx. intros s x hs hx.
    set (T := fun u => b2r (good j u && good j (u + P j)) * after_union (delta x) m u j).
    assert (e : over (S j) s (fun u => b2r (good (S j) u) * g (delta x) m u (S j)) +
             over (S j) s (fun u => b2r (good j u && good j (u + P j) && uturn u (u + P (S j) - 1)) * mean (delta x) (S j) u) = over (S j) s T).
    { unfold over. rewrite <- zsum_plus. apply zsum_ext. intros u _. unfold T, after_union. rewrite good_split.
      destruct (good j u && good j (u + P j)); cbn [andb b2r]; [| ring]. destruct (uturn u (u + P (S j) - 1)); cbn [negb b2r]; ring. }
    rewrite e, over_union. unfold over. rewrite <- !zsum_plus. rewrite <- !zsum_scale. rewrite <- zsum_plus. apply zsum_ext. intros a ha.
    rewrite g_step by (apply (nval_inb j a s); [now apply over_inb | exact hs]).
    unfold T. replace (a - P j + P j)%Z with a by ring.
    destruct (good j a); cbn [andb b2r]; [| rewrite !andb_false_r; cbn [b2r]; ring].
    destruct (good j (a - P j)); destruct (good j (a + P j)); cbn [andb negb b2r]; ring. }
  rewrite (X s x hs hx), (X x s hx hs). f_equal; [f_equal; f_equal; [now apply ih | now apply over_sym] | f_equal; f_equal; now apply over_sym].
Qed.
(** the kernel of the transition from the state with index s *)
Definition kern (m : nat) (s x : Z) : R := g (delta x) m s 0.
Lemma kern_sym m s x : valid s = true -> valid x = true -> ok s = true -> ok x = true -> kern m s x = kern m x s.
Proof.
  intros h1 h2 h3 h4. assert (h := kernel_sym m 0 s x h1 h2). unfold over in h. cbn [Nat.pow zsum NutsProofs.good] in h.
  rewrite P_0 in h. change (Z.of_nat 0) with 0%Z in h.
  replace (s - 1 + 1 + 0)%Z with s in h by ring. replace (x - 1 + 1 + 0)%Z with x in h by ring. rewrite h3, h4 in h. cbn [b2r] in h.
  unfold kern. lra.
Qed.

(** linearity in the test function *)
Lemma vtot_lin W n lo j a : (lo <= a)%Z -> (a + P j <= lo + Z.of_nat n)%Z ->
  vtot W j a = zsum n lo (fun x => W x * vtot (delta x) j a).
Proof.
  intros h1 h2. rewrite (zsum_widen (2 ^ j) a n lo); [| exact h1 | fold (P j); exact h2 |].
  2: { intros i _ hn. fold (P j) in hn. rewrite vtot_delta. assert (e : inb j a i = false) by (apply inb_false; exact hn).
       rewrite e. cbn [andb b2r]. ring. }
  clear h1 h2 lo n. revert a. induction j as [| j ih]; intro a.
  - cbn [Nat.pow zsum NutsProofs.vtot]. change (Z.of_nat 0) with 0%Z. rewrite Z.add_0_r. unfold delta. rewrite Z.eqb_refl.
    destruct (valid a); ring.
  - replace (2 ^ S j)%nat with (2 ^ j + 2 ^ j)%nat by (cbn [Nat.pow]; lia). rewrite zsum_app. fold (P j). cbn [NutsProofs.vtot]. rewrite (ih a), (ih (a + P j)%Z).
    assert (z1 : zsum (2 ^ j) a (fun x => W x * vtot (delta x) j (a + P j)) = 0).
    { apply zsum_zero. intros i hi. fold (P j) in hi. rewrite vtot_delta. assert (e : inb j (a + P j) i = false) by (apply inb_false; lia).
      rewrite e. cbn [andb b2r]. ring. }
    assert (z2 : zsum (2 ^ j) (a + P j) (fun x => W x * vtot (delta x) j a) = 0).
    { apply zsum_zero. intros i hi. fold (P j) in hi. rewrite vtot_delta. assert (e : inb j a i = false) by (apply inb_false; lia).
      rewrite e. cbn [andb b2r]. ring. }
    assert (D : forall n l, zsum n l (fun x => W x * (vtot (delta x) j a + vtot (delta x) j (a + P j))) =
       zsum n l (fun x => W x * vtot (delta x) j a) + zsum n l (fun x => W x * vtot (delta x) j (a + P j))).
    { intros n l. rewrite <- zsum_plus. apply zsum_ext. intros; ring. }
    rewrite !D, z1, z2. ring.
Qed.
Lemma mean_lin W n lo j a : (lo <= a)%Z -> (a + P j <= lo + Z.of_nat n)%Z ->
  mean W j a = zsum n lo (fun x => W x * mean (delta x) j a).
Proof.
  intros h1 h2. unfold mean. rewrite (vtot_lin W n lo j a h1 h2). unfold Rdiv. rewrite Rmult_comm, <- zsum_scale.
  apply zsum_ext. intros; ring.
Qed.
Lemma g_lin W m : forall j a n lo, (0 < nval j a)%nat -> (lo <= a - P j * (P m - 1))%Z -> (a + P j * P m <= lo + Z.of_nat n)%Z ->
  g W m a j = zsum n lo (fun x => W x * g (delta x) m a j).
Proof.
  induction m as [| m ih]; intros j a n lo hn h1 h2; rewrite P_0 in * || rewrite P_S in *.
  - unfold g. cbn [NutsProofs.val]. apply mean_lin; lia.
  - rewrite g_step by exact hn. pose proof (P_pos j) as pj. pose proof (P_pos m) as pm.
    assert (hm : mean W j a = zsum n lo (fun x => W x * mean (delta x) j a)) by (apply mean_lin; nia).
    assert (hu : forall u, (u = a \/ u = a - P j)%Z -> after_union W m u j = zsum n lo (fun x => W x * after_union (delta x) m u j)).
    { intros u hu. unfold after_union. assert (hs := P_S j). destruct (uturn u (u + P (S j) - 1)).
      - apply mean_lin; rewrite ?hs; nia.
      - apply ih; rewrite ?hs.
        + cbn [NutsProofs.nval]. destruct hu as [-> | ->]; [lia |]. replace (a - P j + P j)%Z with a by ring. lia.
        + nia.
        + nia. }
    assert (L : forall b u, (u = a \/ u = a - P j)%Z -> (if good j b then after_union W m u j else mean W j a) =
       zsum n lo (fun x => W x * (if good j b then after_union (delta x) m u j else mean (delta x) j a))).
    { intros b u hq. destruct (good j b); [now apply hu | exact hm]. }
    rewrite (L (a - P j)%Z (a - P j)%Z), (L (a + P j)%Z a) by auto.
    rewrite (zsum_ext n lo (fun x => W x * g (delta x) (S m) a j) (fun x =>
      1 / 2 * (W x * (if good j (a - P j) then after_union (delta x) m (a - P j) j else mean (delta x) j a)) +
      1 / 2 * (W x * (if good j (a + P j) then after_union (delta x) m a j else mean (delta x) j a)))).
    + rewrite zsum_plus, !zsum_scale. reflexivity.
    + intros x _. rewrite g_step by exact hn. ring.
Qed.
(** values *)
Lemma vtot_pos W j : (forall i, 0 <= W i) -> forall a, 0 <= vtot W j a.
Proof.
  intro h. induction j as [| j ih]; intro a; cbn [NutsProofs.vtot]; [destruct (valid a); [apply h | lra] |].
  specialize (ih a) as h1. specialize (ih (a + P j)%Z) as h2. lra.
Qed.
Lemma mean_pos W j a : (forall i, 0 <= W i) -> 0 <= mean W j a.
Proof.
  intro h. unfold mean. destruct (Nat.eq_dec (nval j a) 0) as [e | e].
  - rewrite (vtot_zero d pot im log_u o W j a e). unfold Rdiv. rewrite Rmult_0_l. lra.
  - apply Rmult_le_pos; [now apply vtot_pos | left; apply Rinv_0_lt_compat, lt_0_INR; lia].
Qed.
Lemma g_pos W m : (forall i, 0 <= W i) -> forall a j, (0 < nval j a)%nat -> 0 <= g W m a j.
Proof.
  intro h. induction m as [| m ih]; intros a j hn; [unfold g; cbn; now apply mean_pos |].
  rewrite g_step by exact hn.
  assert (A : forall u, (0 < nval (S j) u)%nat -> 0 <= after_union W m u j).
  { intros u hu. unfold after_union. destruct (uturn _ _); [now apply mean_pos | now apply ih]. }
  assert (h1 := mean_pos W j a h).
  assert (h2 : 0 <= after_union W m a j) by (apply A; cbn [NutsProofs.nval]; lia).
  assert (h3 : 0 <= after_union W m (a - P j) j) by (apply A; cbn [NutsProofs.nval]; replace (a - P j + P j)%Z with a by ring; lia).
  destruct (good j (a - P j)); destruct (good j (a + P j)); lra.
Qed.
Lemma vtot_one j : forall a, vtot (fun _ => 1) j a = INR (nval j a).
Proof. induction j as [| j ih]; intro a; cbn [NutsProofs.vtot NutsProofs.nval]; [destruct (valid a); reflexivity |]. rewrite !ih, plus_INR. ring. Qed.
Lemma g_one m : forall a j, (0 < nval j a)%nat -> g (fun _ => 1) m a j = 1.
Proof.
  assert (M : forall j a, (0 < nval j a)%nat -> mean (fun _ => 1) j a = 1).
  { intros j a h. unfold mean. rewrite vtot_one. field. apply not_0_INR. lia. }
  induction m as [| m ih]; intros a j hn; [unfold g; cbn; now apply M |].
  rewrite g_step by exact hn.
  assert (A : forall u, (0 < nval (S j) u)%nat -> after_union (fun _ => 1) m u j = 1).
  { intros u hu. unfold after_union. destruct (uturn _ _); [now apply M | now apply ih]. }
  assert (h2 : after_union (fun _ => 1) m a j = 1) by (apply A; cbn [NutsProofs.nval]; lia).
  assert (h3 : after_union (fun _ => 1) m (a - P j) j = 1) by (apply A; cbn [NutsProofs.nval]; replace (a - P j + P j)%Z with a by ring; lia).
  rewrite h2, h3, (M j a hn). destruct (good j (a - P j)); destruct (good j (a + P j)); field.
Qed.
(** only valid states near s are reached *)
Lemma g_support m : forall a j x, (0 < nval j a)%nat -> valid x = false -> g (delta x) m a j = 0.
Proof.
  assert (M : forall j a x, valid x = false -> mean (delta x) j a = 0).
  { intros j a x h. rewrite mean_delta, h, andb_false_r. cbn [b2r]. unfold Rdiv. ring. }
  induction m as [| m ih]; intros a j x hn hx; [unfold g; cbn; now apply M |].
  rewrite g_step by exact hn. unfold after_union. rewrite !M by exact hx.
  rewrite !ih; try exact hx; try (cbn [NutsProofs.nval]; lia).
  - destruct (good j (a - P j)); destruct (good j (a + P j)); repeat destruct (uturn _ _); ring.
  - cbn [NutsProofs.nval]. replace (a - P j + P j)%Z with a by ring. lia.
Qed.
Lemma g_range m : forall a j x, (0 < nval j a)%nat -> ~ (a - P j * (P m - 1) <= x < a + P j * P m)%Z -> g (delta x) m a j = 0.
Proof.
  assert (M : forall j a x, ~ (a <= x < a + P j)%Z -> mean (delta x) j a = 0).
  { intros j a x h. rewrite mean_delta. assert (e : inb j a x = false) by (apply inb_false; exact h). rewrite e. cbn [andb b2r]. unfold Rdiv. ring. }
  induction m as [| m ih]; intros a j x hn hx; pose proof (P_pos j) as pj.
  - rewrite P_0 in hx. unfold g. cbn. apply M. lia.
  - rewrite P_S in hx. pose proof (P_pos m) as pm. assert (hs := P_S j).
    rewrite g_step by exact hn. unfold after_union. rewrite !M by (rewrite ?hs; nia).
    rewrite !ih; try (rewrite ?hs; nia); try (cbn [NutsProofs.nval]; lia).
    + destruct (good j (a - P j)); destruct (good j (a + P j)); repeat destruct (uturn _ _); ring.
    + cbn [NutsProofs.nval]. replace (a - P j + P j)%Z with a by ring. lia.
Qed.
End K.
