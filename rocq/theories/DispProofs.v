(** Proofs about displayed numbers: reading back the text of ftos. *)
From Coq Require Import String Ascii List Arith ZArith Bool Reals Lia Lra.
From Verif Require Import FlModel ConfigModel FrameModel DispModel DispSpec.
Import ListNotations.
Local Open Scope string_scope.

(** ** digits *)
Lemma read_digits_app s t a :
  read_digits a (s ++ t) = match read_digits a s with Some b => read_digits b t | None => None end.
Proof.
  revert a; induction s as [|c s IH]; intros a; simpl; [easy|].
  destruct (digit_value c); [apply IH|easy].
Qed.

Lemma digit_cases (P : Z -> Prop) :
  P 0%Z -> P 1%Z -> P 2%Z -> P 3%Z -> P 4%Z -> P 5%Z -> P 6%Z -> P 7%Z -> P 8%Z -> P 9%Z ->
  forall d, (0 <= d < 10)%Z -> P d.
Proof.
  intros; assert (d = 0 \/ d = 1 \/ d = 2 \/ d = 3 \/ d = 4 \/ d = 5 \/ d = 6 \/ d = 7 \/ d = 8 \/ d = 9)%Z by lia.
  intuition (subst; assumption).
Qed.
Lemma digit_value_digit d : (0 <= d < 10)%Z -> digit_value (digit d) = Some d.
Proof. revert d; apply digit_cases; reflexivity. Qed.

Lemma length_app s t : String.length (s ++ t) = (String.length s + String.length t)%nat.
Proof. induction s; simpl; auto. Qed.
Lemma app_assoc_s (s t u : string) : (s ++ t) ++ u = s ++ (t ++ u).
Proof. induction s; simpl; congruence. Qed.
Lemma app_nil_s (s : string) : s ++ "" = s.
Proof. induction s; simpl; congruence. Qed.

Lemma read_digits_zpad k m a : (0 <= m)%Z ->
  read_digits a (zpad k m) = Some (a * 10 ^ Z.of_nat k + m mod 10 ^ Z.of_nat k)%Z.
Proof.
  revert m a; induction k as [|k IH]; intros m a hm.
  { simpl. now rewrite Z.mod_1_r, Z.mul_1_r, Z.add_0_r. }
  change (zpad (S k) m) with (zpad k (m / 10) ++ one (digit (m mod 10))).
  rewrite read_digits_app, IH by (apply Z.div_pos; lia).
  unfold one; cbn [read_digits]. rewrite digit_value_digit by (apply Z.mod_pos_bound; lia).
  f_equal. rewrite Nat2Z.inj_succ, Z.pow_succ_r by lia.
  pose proof (Z.rem_mul_r m 10 (10 ^ Z.of_nat k)) as h.
  rewrite h by (try lia; apply Z.pow_nonzero; lia). ring.
Qed.
Lemma length_zpad k m : String.length (zpad k m) = k.
Proof. revert m; induction k as [|k IH]; intros m; [easy|]. cbn [zpad]. rewrite length_app, IH. simpl; lia. Qed.

Lemma read_digits_zdig f m : (0 <= m < Z.of_nat f)%Z -> read_digits 0 (zdig f m) = Some m.
Proof.
  revert m; induction f as [|f IH]; intros m hm; [lia|].
  cbn [zdig]. rewrite read_digits_app.
  destruct (Z.ltb_spec m 10).
  - cbn [read_digits one]. unfold one; cbn [read_digits].
    rewrite digit_value_digit by (apply Z.mod_pos_bound; lia). f_equal.
    rewrite Z.mod_small; lia.
  - rewrite IH. 2:{ split; [apply Z.div_pos; lia|].
      apply Z.le_lt_trans with (m - 1)%Z; [|lia].
      apply Z.div_le_upper_bound; lia. }
    unfold one; cbn [read_digits]. rewrite digit_value_digit by (apply Z.mod_pos_bound; lia).
    f_equal. pose proof (Z.div_mod m 10); lia.
Qed.
Lemma read_nstr m : (0 <= m)%Z -> read_nat (nstr m) = Some m.
Proof.
  intros hm. unfold nstr.
  assert (h : read_digits 0 (zdig (S (Z.to_nat m)) m) = Some m) by (apply read_digits_zdig; lia).
  unfold read_nat. destruct (zdig (S (Z.to_nat m)) m) eqn:E; [|exact h].
  cbn [zdig] in E. exfalso. apply (f_equal String.length) in E.
  rewrite length_app in E. simpl in E. lia.
Qed.

(** strings of digits contain none of the separators *)
Fixpoint alldig (s : string) : Prop :=
  match s with "" => True | String c r => digit_value c <> None /\ alldig r end.
Lemma alldig_app s t : alldig s -> alldig t -> alldig (s ++ t).
Proof. induction s; simpl; intuition. Qed.
Lemma alldig_one d : (0 <= d < 10)%Z -> alldig (one (digit d)).
Proof. intros h; simpl. rewrite digit_value_digit by easy. split; easy. Qed.
Lemma alldig_zpad k m : alldig (zpad k m).
Proof.
  revert m; induction k; intros m; [easy|]. cbn [zpad].
  apply alldig_app; [apply IHk|apply alldig_one, Z.mod_pos_bound; lia].
Qed.
Lemma alldig_zdig f m : alldig (zdig f m).
Proof.
  revert m; induction f; intros m; [easy|]. cbn [zdig].
  apply alldig_app; [|apply alldig_one, Z.mod_pos_bound; lia].
  destruct (m <? 10)%Z; [easy|apply IHf].
Qed.

Fixpoint free (c : ascii) (s : string) : Prop :=
  match s with "" => True | String a r => a <> c /\ free c r end.
Lemma free_app c s t : free c s -> free c t -> free c (s ++ t).
Proof. induction s; simpl; intuition. Qed.
Lemma alldig_free c s : digit_value c = None -> alldig s -> free c s.
Proof. intros hc; induction s as [|a s IH]; simpl; [easy|]. intros [h1 h2]; split; [congruence|auto]. Qed.
Lemma cut_app c s t : free c s -> cut c (s ++ String c t) = (s, Some t).
Proof.
  induction s as [|a s IH]; simpl; intros h; [now rewrite Ascii.eqb_refl|].
  destruct h as [h1 h2]. apply Ascii.eqb_neq in h1. rewrite h1, IH by easy. easy.
Qed.
Lemma cut_free c s : free c s -> cut c s = (s, None).
Proof.
  induction s as [|a s IH]; simpl; intros h; [easy|].
  destruct h as [h1 h2]. apply Ascii.eqb_neq in h1. rewrite h1, IH by easy. easy.
Qed.

(** ** fixed point *)
Definition near (rnd : R -> Z) : Prop := forall y, (0 <= y)%R -> (Rabs (IZR (rnd y) - y) <= / 2)%R.
Lemma near_nonneg rnd y : near rnd -> (0 <= y)%R -> (0 <= rnd y)%Z.
Proof.
  intros hn hy. specialize (hn y hy).
  destruct (Z_lt_le_dec (rnd y) 0) as [h|h]; [|easy].
  exfalso. assert (h1 : (rnd y <= -1)%Z) by lia. apply IZR_le in h1.
  unfold Rabs in hn. destruct (Rcase_abs (IZR (rnd y) - y)); lra.
Qed.

Definition sgn (x : R) : R := if rltb x 0 then (-1)%R else 1%R.
Lemma pow10Z k : IZR (10 ^ Z.of_nat k) = (10 ^ k)%R.
Proof. rewrite <- pow_IZR. easy. Qed.
Lemma pow10_pos k : (0 < 10 ^ k)%R.
Proof. apply pow_lt; lra. Qed.

Definition ufixed (k : nat) (m : Z) : string :=
  nstr (m / 10 ^ Z.of_nat k)%Z ++
  (if Nat.eqb k 0 then "" else "." ++ zpad k (m mod 10 ^ Z.of_nat k)%Z).
Lemma read_ufixed k m : (0 <= m)%Z -> read_unsigned (ufixed k m) = Some (IZR m / 10 ^ k)%R.
Proof.
  intros hm. unfold ufixed, read_unsigned.
  assert (hu : (0 < 10 ^ Z.of_nat k)%Z) by (apply Z.pow_pos_nonneg; lia).
  assert (fn : forall i, free "." (nstr i)) by (intros; apply alldig_free, alldig_zdig; easy).
  destruct k as [|k].
  - cbn [Nat.eqb]. rewrite app_nil_s, cut_free by easy.
    rewrite read_nstr by (apply Z.div_pos; lia).
    simpl. rewrite Z.div_1_r. f_equal. field.
  - cbn [Nat.eqb]. change ("." ++ ?z) with (String "." z). rewrite cut_app by easy.
    rewrite read_nstr by (apply Z.div_pos; lia).
    assert (hr : read_nat (zpad (S k) (m mod 10 ^ Z.of_nat (S k))) = Some (m mod 10 ^ Z.of_nat (S k))%Z).
    { pose proof (read_digits_zpad (S k) (m mod 10 ^ Z.of_nat (S k)) 0) as h.
      pose proof (length_zpad (S k) (m mod 10 ^ Z.of_nat (S k))) as hl.
      unfold read_nat. destruct (zpad (S k) (m mod 10 ^ Z.of_nat (S k))); [discriminate hl|].
      rewrite h by (apply Z.mod_pos_bound; easy). f_equal.
      rewrite Z.mul_0_l, Z.add_0_l. apply Z.mod_small, Z.mod_pos_bound; easy. }
    rewrite hr, length_zpad. f_equal.
    pose proof (pow10_pos (S k)). rewrite (Z.div_mod m (10 ^ Z.of_nat (S k))) at 3 by lia.
    rewrite plus_IZR, mult_IZR, pow10Z. field. lra.
Qed.

Lemma ufixed_head k m : exists a s, ufixed k m = String a s /\ a <> "-"%char.
Proof.
  unfold ufixed. assert (ad : alldig (nstr (m / 10 ^ Z.of_nat k))) by apply alldig_zdig.
  assert (hl : String.length (nstr (m / 10 ^ Z.of_nat k)) <> 0%nat).
  { unfold nstr. cbn [zdig]. rewrite length_app. simpl; lia. }
  destruct (nstr (m / 10 ^ Z.of_nat k)) as [|a s]; [now elim hl|].
  exists a. eexists. split; [reflexivity|]. destruct ad as [h _]. intros ->. now apply h.
Qed.
Lemma free_ufixed k m : free "e" (ufixed k m).
Proof.
  unfold ufixed. apply free_app; [apply alldig_free, alldig_zdig; easy|].
  destruct (Nat.eqb k 0); [easy|]. split; [easy|]. apply alldig_free, alldig_zpad; easy.
Qed.

Definition fval (rnd : R -> Z) (k : nat) (x : R) : R := (sgn x * (IZR (rnd (Rabs x * 10 ^ k)) / 10 ^ k))%R.
Lemma fixed_eq rnd k x :
  fixed rnd k x = (if rltb x 0 then "-" else "") ++ ufixed k (rnd (Rabs x * 10 ^ k))%R.
Proof. reflexivity. Qed.
Lemma free_fixed rnd k x : free "e" (fixed rnd k x).
Proof. rewrite fixed_eq. apply free_app, free_ufixed. now destruct (rltb x 0). Qed.
Lemma read_fixed rnd k x : near rnd -> read_decimal (fixed rnd k x) = Some (fval rnd k x).
Proof.
  intros hn. rewrite fixed_eq. unfold fval, sgn.
  assert (h0 : (0 <= rnd (Rabs x * 10 ^ k)%R)%Z).
  { apply near_nonneg; [easy|]. apply Rmult_le_pos; [apply Rabs_pos|left; apply pow10_pos]. }
  destruct (rltb x 0).
  - change ("-" ++ ?s) with (String "-" s). cbn [read_decimal].
    rewrite read_ufixed by easy. simpl. f_equal. ring.
  - change ("" ++ ?s) with s.
    pose proof (read_ufixed k _ h0) as h.
    destruct (ufixed_head k (rnd (Rabs x * 10 ^ k)%R)) as (a & s & E & ha).
    rewrite E in *. unfold read_decimal.
    destruct a as [[] [] [] [] [] [] [] []]; try (rewrite h; f_equal; ring). 
    all: try (exfalso; apply ha; reflexivity).
Qed.

Lemma read_number_fixed rnd k x : near rnd -> read_number (fixed rnd k x) = Some (fval rnd k x).
Proof. intros hn. unfold read_number. rewrite cut_free by apply free_fixed. now apply read_fixed. Qed.

Lemma read_zstr z : read_integer (zstr z) = Some z.
Proof.
  unfold zstr. destruct (Z.ltb_spec z 0).
  - change ("-" ++ ?s) with (String "-" s). cbn [read_integer]. rewrite read_nstr by lia. simpl. f_equal; lia.
  - pose proof (read_nstr z H) as h. destruct (ufixed_head 0 z) as (a & s & E & ha).
    unfold ufixed in E. cbn [Nat.eqb] in E. rewrite app_nil_s in E.
    change (10 ^ Z.of_nat 0)%Z with 1%Z in E. rewrite Z.div_1_r in E. rewrite E in *.
    destruct a as [[] [] [] [] [] [] [] []]; try exact h.
    exfalso; apply ha; reflexivity.
Qed.
Lemma read_number_sci rnd k x e : near rnd ->
  read_number (fixed rnd k x ++ "e" ++ zstr e) = Some (fval rnd k x * powerRZ 10 e)%R.
Proof.
  intros hn. unfold read_number. change ("e" ++ ?s) with (String "e" s).
  rewrite cut_app by apply free_fixed. rewrite read_fixed, read_zstr by easy. easy.
Qed.

(** ** the displayed value as a multiple of a unit *)
Lemma rltb_i a b : rltb a b = true <-> (a < b)%R.
Proof. unfold rltb; destruct (Rlt_dec a b); split; easy. Qed.
Lemma rltb_n a b : rltb a b = false <-> (b <= a)%R.
Proof. unfold rltb; destruct (Rlt_dec a b); split; intros; try easy; lra. Qed.
Lemma rleb_i a b : rleb a b = true <-> (a <= b)%R.
Proof. unfold rleb; destruct (Rle_dec a b); split; easy. Qed.
Lemma rleb_n a b : rleb a b = false <-> (b < a)%R.
Proof. unfold rleb; destruct (Rle_dec a b); split; intros; try easy; lra. Qed.

Definition decade (a : R) : Z := Int_part (ln a / ln 10)%R.
Lemma ln10_pos : (0 < ln 10)%R.
Proof. rewrite <- ln_1. apply ln_increasing; lra. Qed.
Lemma p10_pos e : (0 < powerRZ 10 e)%R.
Proof. apply powerRZ_lt; lra. Qed.
Lemma p10_add e f : powerRZ 10 (e + f) = (powerRZ 10 e * powerRZ 10 f)%R.
Proof. apply powerRZ_add; lra. Qed.
Lemma p10_nat k : powerRZ 10 (Z.of_nat k) = (10 ^ k)%R.
Proof. symmetry; apply pow_powerRZ. Qed.
Lemma p10_le e f : (e <= f)%Z -> (powerRZ 10 e <= powerRZ 10 f)%R.
Proof.
  intros h. replace f with (e + Z.of_nat (Z.to_nat (f - e)))%Z by lia.
  rewrite p10_add, p10_nat. pose proof (p10_pos e).
  assert (1 <= 10 ^ Z.to_nat (f - e))%R by (apply pow_R1_Rle; lra). nra.
Qed.
Lemma p10_lt_inv e f : (powerRZ 10 e < powerRZ 10 f)%R -> (e < f)%Z.
Proof. intros h. destruct (Z_lt_le_dec e f) as [|g]; [easy|]. apply p10_le in g. lra. Qed.
Lemma p10_exp e : powerRZ 10 e = exp (IZR e * ln 10).
Proof.
  destruct (Z_le_gt_dec 0 e) as [h|h].
  - replace e with (Z.of_nat (Z.to_nat e)) by lia. rewrite p10_nat, <- INR_IZR_INZ, <- ln_pow by lra.
    rewrite exp_ln; [easy|apply pow10_pos].
  - replace e with (- Z.of_nat (Z.to_nat (- e)))%Z by lia. rewrite powerRZ_neg by lra.
    rewrite opp_IZR.
    replace (- IZR (Z.of_nat (Z.to_nat (- e))) * ln 10)%R
      with (- (INR (Z.to_nat (- e)) * ln 10))%R by (rewrite INR_IZR_INZ; ring).
    rewrite exp_Ropp, <- ln_pow by lra. rewrite exp_ln by apply pow10_pos.
    rewrite <- pow_powerRZ. symmetry; apply Rinv_pow; lra.
Qed.
Lemma decade_bounds a : (0 < a)%R -> (powerRZ 10 (decade a) <= a < powerRZ 10 (decade a + 1))%R.
Proof.
  intros ha. unfold decade. destruct (base_Int_part (ln a / ln 10)) as [h1 h2].
  set (e := Int_part (ln a / ln 10)) in *. pose proof ln10_pos as hl.
  assert (g : (ln a / ln 10 * ln 10 = ln a)%R) by (field; lra).
  rewrite !p10_exp, plus_IZR. rewrite <- (exp_ln a ha). split.
  - assert (q : (IZR e * ln 10 <= ln a)%R) by nra.
    destruct q as [q|q]; [left; now apply exp_increasing|right; now rewrite q].
  - apply exp_increasing. nra.
Qed.
Lemma decade_unique a e : (powerRZ 10 e <= a < powerRZ 10 (e + 1))%R -> decade a = e.
Proof.
  intros h. pose proof (p10_pos e). assert (ha : (0 < a)%R) by lra.
  pose proof (decade_bounds a ha).
  assert (decade a < e + 1)%Z by (apply p10_lt_inv; lra).
  assert (e < decade a + 1)%Z by (apply p10_lt_inv; lra). lia.
Qed.

(** unit of the last displayed place, and displayed magnitude *)
Definition place (fp : nat) (a : R) : R :=
  if rleb (1 / 10) a && rltb a 1000 then (/ 10 ^ fp)%R
  else if rleb (1 / 100) a && rltb a (1 / 10) then (/ 10 ^ S fp)%R
  else (powerRZ 10 (decade a) / 10 ^ fp)%R.
Definition mag (rnd : R -> Z) (fp : nat) (a : R) : R := (place fp a * IZR (rnd (a / place fp a)))%R.
Lemma place_pos fp a : (0 < place fp a)%R.
Proof.
  unfold place. pose proof (pow10_pos fp). pose proof (pow10_pos (S fp)). pose proof (p10_pos (decade a)).
  destruct (_ && _); [now apply Rinv_0_lt_compat|].
  destruct (_ && _); [now apply Rinv_0_lt_compat|].
  apply Rdiv_lt_0_compat; easy.
Qed.
Lemma fval_mag rnd k x : fval rnd k x = (sgn x * (/ 10 ^ k * IZR (rnd (Rabs x / / 10 ^ k))))%R.
Proof.
  unfold fval. pose proof (pow10_pos k). unfold Rdiv. rewrite Rinv_involutive by lra. ring.
Qed.
Lemma ftos_read rnd fp x : near rnd -> x <> 0%R ->
  exists s, ftos rnd fp (Fin x) = Shown s /\ read_number s = Some (sgn x * mag rnd fp (Rabs x))%R.
Proof.
  intros hn hx. unfold ftos, mag, place.
  assert (E : reqb x 0 = false) by (unfold reqb; destruct (Req_EM_T x 0); easy). rewrite E. clear E.
  destruct (rleb (1 / 10) (Rabs x) && rltb (Rabs x) 1000) eqn:E1.
  { eexists; split; [reflexivity|]. rewrite read_number_fixed, fval_mag by easy. easy. }
  destruct (rleb (1 / 100) (Rabs x) && rltb (Rabs x) (1 / 10)) eqn:E2.
  { eexists; split; [reflexivity|]. rewrite read_number_fixed, fval_mag by easy. easy. }
  eexists; split; [reflexivity|]. rewrite read_number_sci by easy. f_equal.
  fold (decade (Rabs x)). set (e := decade (Rabs x)). pose proof (p10_pos e) as he.
  pose proof (pow10_pos fp) as hk. unfold fval.
  assert (hs : sgn (x / powerRZ 10 e) = sgn x).
  { unfold sgn. assert (hi : (0 < / powerRZ 10 e)%R) by now apply Rinv_0_lt_compat.
    destruct (rltb x 0) eqn:F.
    - apply rltb_i in F. assert (G : rltb (x / powerRZ 10 e) 0 = true)
        by (apply rltb_i; unfold Rdiv; nra). now rewrite G.
    - apply rltb_n in F. assert (G : rltb (x / powerRZ 10 e) 0 = false)
        by (apply rltb_n; unfold Rdiv; nra). now rewrite G. }
  rewrite hs.
  assert (ha : Rabs (x / powerRZ 10 e) = (Rabs x * / powerRZ 10 e)%R).
  { unfold Rdiv. rewrite Rabs_mult, (Rabs_pos_eq (/ powerRZ 10 e)); [easy|].
    left; now apply Rinv_0_lt_compat. }
  rewrite ha.
  replace (Rabs x * / powerRZ 10 e * 10 ^ fp)%R with (Rabs x / (powerRZ 10 e / 10 ^ fp))%R by (field; lra).
  field. lra.
Qed.

(** ** rounding to a grid *)
Lemma rnd_mono rnd y y' : near rnd -> (0 <= y <= y')%R -> (rnd y <= rnd y')%Z.
Proof.
  intros hn [h0 h]. destruct (Req_dec y y') as [->|hne]; [lia|].
  pose proof (hn y h0) as a. pose proof (hn y' (Rle_trans _ _ _ h0 h)) as b.
  assert (a1 : (IZR (rnd y) - y <= / 2)%R) by (eapply Rle_trans; [apply Rle_abs|exact a]).
  assert (b1 : (- (IZR (rnd y') - y') <= / 2)%R)
    by (eapply Rle_trans; [apply Rle_abs|rewrite Rabs_Ropp; exact b]).
  apply Z.lt_succ_r, lt_IZR. rewrite succ_IZR. lra.
Qed.
Lemma rnd_lo rnd y (l : Z) : near rnd -> (0 <= y)%R -> (IZR l <= y)%R -> (l <= rnd y)%Z.
Proof.
  intros hn h0 h. pose proof (hn y h0) as b.
  assert (b1 : (- (IZR (rnd y) - y) <= / 2)%R)
    by (eapply Rle_trans; [apply Rle_abs|rewrite Rabs_Ropp; exact b]).
  apply Z.lt_succ_r, lt_IZR. rewrite succ_IZR. lra.
Qed.
Lemma rnd_hi rnd y (l : Z) : near rnd -> (0 <= y)%R -> (y <= IZR l)%R -> (rnd y <= l)%Z.
Proof.
  intros hn h0 h. pose proof (hn y h0) as a.
  assert (a1 : (IZR (rnd y) - y <= / 2)%R) by (eapply Rle_trans; [apply Rle_abs|exact a]).
  apply Z.lt_succ_r, lt_IZR. rewrite succ_IZR. lra.
Qed.
Lemma mag_error rnd fp a : near rnd -> (0 < a)%R -> (Rabs (mag rnd fp a - a) <= place fp a / 2)%R.
Proof.
  intros hn ha. unfold mag. pose proof (place_pos fp a) as hp. set (u := place fp a) in *.
  assert (h0 : (0 <= a / u)%R) by (left; now apply Rdiv_lt_0_compat).
  pose proof (hn _ h0) as h.
  replace (u * IZR (rnd (a / u)) - a)%R with (u * (IZR (rnd (a / u)) - a / u))%R by (field; lra).
  rewrite Rabs_mult, (Rabs_pos_eq u) by lra. nra.
Qed.

(** every positive number lies in an interval [lo, hi) with a single place, whose ends are
    multiples of it *)
Lemma place_sci fp a : (a < 1 / 100 \/ 1000 <= a)%R -> place fp a = (powerRZ 10 (decade a) / 10 ^ fp)%R.
Proof.
  intros h. unfold place.
  assert (E1 : rleb (1 / 10) a && rltb a 1000 = false).
  { apply andb_false_iff. destruct h; [left; apply rleb_n; lra|right; apply rltb_n; lra]. }
  assert (E2 : rleb (1 / 100) a && rltb a (1 / 10) = false).
  { apply andb_false_iff. destruct h; [left; apply rleb_n; lra|right; apply rltb_n; lra]. }
  now rewrite E1, E2.
Qed.
Lemma place_mid fp a : (1 / 10 <= a < 1000)%R -> place fp a = (/ 10 ^ fp)%R.
Proof. intros [h1 h2]. unfold place. apply rleb_i in h1. apply rltb_i in h2. now rewrite h1, h2. Qed.
Lemma place_low fp a : (1 / 100 <= a < 1 / 10)%R -> place fp a = (/ 10 ^ S fp)%R.
Proof.
  intros [h1 h2]. unfold place.
  assert (E : rleb (1 / 10) a = false) by (apply rleb_n; lra). rewrite E.
  apply rleb_i in h1. apply rltb_i in h2. now rewrite h1, h2.
Qed.
Lemma pow10Z1 k : (1 <= 10 ^ Z.of_nat k)%Z.
Proof. assert (0 < 10 ^ Z.of_nat k)%Z by (apply Z.pow_pos_nonneg; lia). lia. Qed.
Lemma p10_S e : powerRZ 10 (e + 1) = (10 * powerRZ 10 e)%R.
Proof. rewrite p10_add. simpl. ring. Qed.
Lemma segment k a (fp := S k) : (0 < a)%R ->
  exists lo hi : Z, (place fp a * IZR lo <= a < place fp a * IZR hi)%R /\ (1 <= lo)%Z /\
    forall b, (place fp a * IZR lo <= b < place fp a * IZR hi)%R -> place fp b = place fp a.
Proof.
  intros ha. pose proof (pow10_pos k) as hk.
  assert (hS : (10 ^ fp = 10 * 10 ^ k)%R) by reflexivity.
  assert (hSS : (10 ^ S fp = 100 * 10 ^ k)%R) by (simpl; ring).
  destruct (Rlt_le_dec a (1 / 100)) as [h1|h1];
    [|destruct (Rlt_le_dec a (1 / 10)) as [h2|h2]; [|destruct (Rlt_le_dec a 1000) as [h3|h3]]].
  - (* below 0.01 *)
    rewrite (place_sci fp a) by (left; lra). set (e := decade a). pose proof (decade_bounds a ha) as hd.
    fold e in hd. exists (10 * 10 ^ Z.of_nat k)%Z, (100 * 10 ^ Z.of_nat k)%Z.
    rewrite !mult_IZR, pow10Z, hS. pose proof (p10_pos e) as he. rewrite p10_S in hd.
    replace (powerRZ 10 e / (10 * 10 ^ k) * (10 * 10 ^ k))%R with (powerRZ 10 e) by (field; lra).
    replace (powerRZ 10 e / (10 * 10 ^ k) * (100 * 10 ^ k))%R with (10 * powerRZ 10 e)%R by (field; lra).
    split; [easy|]. split; [pose proof (pow10Z1 k); lia|]. intros b hb.
    assert (g : (10 * powerRZ 10 e <= 1 / 100)%R).
    { assert (e + 1 <= -2)%Z as w.
      { assert (e < -2)%Z; [|lia]. apply p10_lt_inv. apply Rle_lt_trans with a; [easy|].
        apply Rlt_le_trans with (1 / 100)%R; [easy|]. simpl. lra. }
      apply p10_le in w. rewrite p10_S in w. eapply Rle_trans; [exact w|]. simpl. lra. }
    rewrite place_sci by (left; lra). rewrite hS. do 2 f_equal. apply decade_unique. rewrite p10_S. easy.
  - rewrite (place_low fp a) by lra. exists (10 ^ Z.of_nat k)%Z, (10 * 10 ^ Z.of_nat k)%Z.
    rewrite !mult_IZR, pow10Z, hSS.
    replace (/ (100 * 10 ^ k) * 10 ^ k)%R with (1 / 100)%R by (field; lra).
    replace (/ (100 * 10 ^ k) * (10 * 10 ^ k))%R with (1 / 10)%R by (field; lra).
    split; [easy|]. split; [apply pow10Z1|]. intros b hb. rewrite place_low by easy. now rewrite hSS.
  - rewrite (place_mid fp a) by lra. exists (10 ^ Z.of_nat k)%Z, (10000 * 10 ^ Z.of_nat k)%Z.
    rewrite !mult_IZR, pow10Z, hS.
    replace (/ (10 * 10 ^ k) * 10 ^ k)%R with (1 / 10)%R by (field; lra).
    replace (/ (10 * 10 ^ k) * (10000 * 10 ^ k))%R with 1000%R by (field; lra).
    split; [easy|]. split; [apply pow10Z1|]. intros b hb. rewrite place_mid by easy. now rewrite hS.
  - rewrite (place_sci fp a) by (right; lra). set (e := decade a). pose proof (decade_bounds a ha) as hd.
    fold e in hd. exists (10 * 10 ^ Z.of_nat k)%Z, (100 * 10 ^ Z.of_nat k)%Z.
    rewrite !mult_IZR, pow10Z, hS. pose proof (p10_pos e) as he. rewrite p10_S in hd.
    replace (powerRZ 10 e / (10 * 10 ^ k) * (10 * 10 ^ k))%R with (powerRZ 10 e) by (field; lra).
    replace (powerRZ 10 e / (10 * 10 ^ k) * (100 * 10 ^ k))%R with (10 * powerRZ 10 e)%R by (field; lra).
    split; [easy|]. split; [pose proof (pow10Z1 k); lia|]. intros b hb.
    assert (g : (1000 <= powerRZ 10 e)%R).
    { assert (3 <= e)%Z as w.
      { assert (3 < e + 1)%Z; [|lia]. apply p10_lt_inv. apply Rle_lt_trans with a; [|rewrite p10_S; easy].
        simpl. lra. }
      apply p10_le in w. eapply Rle_trans; [|exact w]. simpl. lra. }
    rewrite place_sci by (right; lra). rewrite hS. do 2 f_equal. apply decade_unique. rewrite p10_S. easy.
Qed.

Lemma mag_mono rnd k a b (fp := S k) : near rnd -> (0 < a <= b)%R -> (mag rnd fp a <= mag rnd fp b)%R.
Proof.
  intros hn [ha hab]. assert (hb : (0 < b)%R) by lra.
  destruct (segment k a ha) as (lo & hi & h1 & hlo & h2). fold fp in h1, h2.
  pose proof (place_pos fp a) as pa. pose proof (place_pos fp b) as pb.
  assert (qa : (0 <= a / place fp a)%R) by (left; now apply Rdiv_lt_0_compat).
  assert (qb : (0 <= b / place fp b)%R) by (left; now apply Rdiv_lt_0_compat).
  assert (same : place fp b = place fp a -> (mag rnd fp a <= mag rnd fp b)%R).
  { intros E. unfold mag. rewrite E in *.
    apply Rmult_le_compat_l; [lra|]. apply IZR_le, rnd_mono; [easy|]. split; [easy|].
    unfold Rdiv. apply Rmult_le_compat_r; [left; now apply Rinv_0_lt_compat|easy]. }
  destruct (Rlt_le_dec b (place fp a * IZR hi)) as [h|h].
  - apply same, h2; lra.
  - destruct (segment k b hb) as (lo' & hi' & h1' & hlo' & h2'). fold fp in h1', h2'.
    assert (A : (mag rnd fp a <= place fp a * IZR hi)%R).
    { unfold mag. apply Rmult_le_compat_l; [lra|]. apply IZR_le, rnd_hi; [easy|easy|].
      apply Rmult_le_reg_l with (place fp a); [easy|]. replace (place fp a * (a / place fp a))%R with a by (field; lra). lra. }
    assert (B : (place fp b * IZR lo' <= mag rnd fp b)%R).
    { unfold mag. apply Rmult_le_compat_l; [lra|]. apply IZR_le, rnd_lo; [easy|easy|].
      apply Rmult_le_reg_l with (place fp b); [easy|]. replace (place fp b * (b / place fp b))%R with b by (field; lra). lra. }
    destruct (Rle_lt_dec (place fp a * IZR hi) (place fp b * IZR lo')) as [|C]; [lra|].
    apply same.
    destruct (Rle_lt_dec (place fp a * IZR lo) (place fp b * IZR lo')) as [D|D].
    + rewrite <- (h2 _ (conj D C)). symmetry. apply h2'; lra.
    + symmetry. apply h2'; lra.
Qed.
Lemma mag_pos rnd k a (fp := S k) : near rnd -> (0 < a)%R -> (0 < mag rnd fp a)%R.
Proof.
  intros hn ha. destruct (segment k a ha) as (lo & hi & h1 & hlo & h2). fold fp in h1.
  pose proof (place_pos fp a) as pa.
  assert (qa : (0 <= a / place fp a)%R) by (left; now apply Rdiv_lt_0_compat).
  assert (B : (lo <= rnd (a / place fp a)%R)%Z).
  { apply rnd_lo; [easy|easy|].
    apply Rmult_le_reg_l with (place fp a); [easy|]. replace (place fp a * (a / place fp a))%R with a by (field; lra). lra. }
  unfold mag. apply Rmult_lt_0_compat; [easy|]. apply IZR_lt. lia.
Qed.
(** the unit is at most [10 / 10 ^ fp] times the number *)
Lemma place_rel fp a : (0 < a)%R -> (place fp a <= 10 / 10 ^ fp * a)%R.
Proof.
  intros ha. pose proof (pow10_pos fp) as hk.
  assert (hi : (0 < / 10 ^ fp)%R) by now apply Rinv_0_lt_compat.
  destruct (Rlt_le_dec a (1 / 100)) as [h1|h1];
    [|destruct (Rlt_le_dec a (1 / 10)) as [h2|h2]; [|destruct (Rlt_le_dec a 1000) as [h3|h3]]].
  - rewrite place_sci by (left; easy). pose proof (decade_bounds a ha). unfold Rdiv. nra.
  - rewrite place_low by easy. simpl. rewrite Rinv_mult_distr by lra. unfold Rdiv. nra.
  - rewrite place_mid by easy. unfold Rdiv. nra.
  - rewrite place_sci by (right; easy). pose proof (decade_bounds a ha). unfold Rdiv. nra.
Qed.
