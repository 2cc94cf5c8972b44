(** Property C143: the dtype argument and the functions that create arrays in the two backends. *)
From Coq Require Import List Arith ZArith Reals Bool Lia Lra Ascii String.
From Verif Require Import ConfigModel ConvModel ConvThms AxisModel AxisThms DtypeModel.
Import ListNotations.
Local Open Scope R_scope.

(** p is a part of s *)
Definition part (p s : string) : Prop := exists a b, s = append a (append p b).

Lemma starts_spec p : forall s, starts p s = true <-> exists b, s = append p b.
Proof.
  induction p as [| c p ih]; intro s; simpl; [split; [eauto | reflexivity] |]. destruct s as [| d s]; [split; [discriminate | intros [b h]; discriminate] |].
  rewrite andb_true_iff, Ascii.eqb_eq, ih. split.
  - intros [-> [b ->]]. now exists b.
  - intros [b [= -> ->]]. eauto.
Qed.
Lemma contains_spec p s : contains p s = true <-> part p s.
Proof.
  induction s as [| c s ih]; cbn [contains]; rewrite orb_true_iff, starts_spec.
  - split; [intros [[b h] | h]; [exists EmptyString, b; exact h | discriminate] |]. intros [[| c a] [b h]]; [left; exists b; exact h | discriminate].
  - rewrite ih. split.
    + intros [[b h] | [a [b ->]]]; [exists EmptyString, b; exact h | exists (String c a), b; reflexivity].
    + intros [[| e a] [b h]]; [left; exists b; exact h |]. injection h as -> ->. right. now exists a, b.
Qed.
Lemma contains_no p s : contains p s = false <-> ~ part p s.
Proof. rewrite <- contains_spec. destruct (contains p s); split; congruence. Qed.

(** The type chosen on Torch for a dtype given by NumPy or by name *)
Theorem C143_resolve : forall s, let has p := part p (lower s) in
  let f32 := has "float32"%string in let f64 := has "float64"%string \/ has "double"%string in
  let i64 := has "int64"%string \/ has "long"%string in let i32 := has "int32"%string in let b8 := has "bool"%string in
  (resolve (DStr s) = Some F32 <-> f32) /\
  (resolve (DStr s) = Some F64 <-> ~ f32 /\ f64) /\
  (resolve (DStr s) = Some I64 <-> ~ f32 /\ ~ f64 /\ i64) /\
  (resolve (DStr s) = Some I32 <-> ~ f32 /\ ~ f64 /\ ~ i64 /\ i32) /\
  (resolve (DStr s) = Some B8 <-> ~ f32 /\ ~ f64 /\ ~ i64 /\ ~ i32 /\ b8) /\
  (resolve (DStr s) = None <-> ~ f32 /\ ~ f64 /\ ~ i64 /\ ~ i32 /\ ~ b8) /\
  (has "uint32"%string -> i32) /\ (has "uint64"%string -> i64).
Proof.
  intros s has f32 f64 i64 i32 b8.
  assert (U : forall c p, has (String c p) -> has p).
  { intros c p [a [b h]]. exists (append a (String c EmptyString)), b. rewrite h. clear. induction a as [| e a ih]; [reflexivity |]. exact (f_equal (String e) ih). }
  assert (D : forall p, (contains p (lower s) = true /\ has p) \/ (contains p (lower s) = false /\ ~ has p)).
  { intro p. destruct (contains p (lower s)) eqn:E; [left | right]; (split; [reflexivity |]); [now apply contains_spec | now apply contains_no]. }
  assert (O : forall p q, (contains p (lower s) || contains q (lower s) = true /\ (has p \/ has q)) \/
                          (contains p (lower s) || contains q (lower s) = false /\ ~ (has p \/ has q))).
  { intros p q. destruct (D p) as [[-> h] | [-> h]], (D q) as [[-> k] | [-> k]]; simpl; tauto. }
  assert (V : (has "uint32"%string -> i32) /\ (has "uint64"%string -> i64)) by (split; [apply (U "u"%char) | left; now apply (U "u"%char)]).
  assert (E1 := D "float32"%string). assert (E2 := O "float64"%string "double"%string). assert (E3 := O "int64"%string "long"%string).
  assert (E4 := D "int32"%string). assert (E5 := D "bool"%string). fold f32 f64 i64 i32 b8 in E1, E2, E3, E4, E5. unfold resolve.
  set (r := if contains "float32" (lower s) then _ else _).
  assert (R : (f32 /\ r = Some F32) \/ (~ f32 /\ f64 /\ r = Some F64) \/ (~ f32 /\ ~ f64 /\ i64 /\ r = Some I64) \/
    (~ f32 /\ ~ f64 /\ ~ i64 /\ i32 /\ r = Some I32) \/ (~ f32 /\ ~ f64 /\ ~ i64 /\ ~ i32 /\ b8 /\ r = Some B8) \/
    (~ f32 /\ ~ f64 /\ ~ i64 /\ ~ i32 /\ ~ b8 /\ r = None)).
  { unfold r. destruct E1 as [[-> h1] | [-> h1]]; [auto |]. destruct E2 as [[-> h2] | [-> h2]]; [auto |]. destruct E3 as [[-> h3] | [-> h3]]; [right; right; left; auto |].
    destruct E4 as [[-> h4] | [-> h4]]; [do 3 right; left; auto |].
    destruct E5 as [[-> h5] | [-> h5]]; [do 4 right; left; auto 7 | do 5 right; auto 7]. }
  clearbody r f32 f64 i64 i32 b8. clear E1 E2 E3 E4 E5 D O U.
  repeat match goal with |- _ /\ _ => split end; try apply V; clear V;
    destruct R as [(?h & ->) | [(?h & ?h & ->) | [(?h & ?h & ?h & ->) | [(?h & ?h & ?h & ?h & ->) | [(?h & ?h & ?h & ?h & ?h & ->) | (?h & ?h & ?h & ?h & ?h & ->)]]]]];
    split; intro; try discriminate; try reflexivity; tauto.
Qed.

(** the names of the NumPy types: the objects numpy.dtype and the classes *)
Theorem C143_names :
  map (fun s => resolve (DStr s)) ["float64"; "float32"; "int64"; "int32"; "bool"; "<class 'numpy.float64'>"; "<class 'numpy.float32'>"; "torch.float64"]%string
    = [Some F64; Some F32; Some I64; Some I32; Some B8; Some F64; Some F32; Some F64] /\
  map (fun s => resolve (DStr s)) ["uint64"; "uint32"; "<class 'numpy.longdouble'>"; "<class 'numpy.clongdouble'>"]%string
    = [Some I64; Some I32; Some F64; Some F64] /\
  map (fun s => resolve (DStr s)) ["float16"; "float128"; "complex64"; "complex128"; "int8"; "int16"; "uint8"; "uint16"; "float"; "int"; "f8"; "i4"]%string = repeat None 12.
Proof. repeat split. Qed.

(** Capital and small letters are not distinguished. *)
Definition same_letter (c d : ascii) : Prop :=
  c = d \/ exists k, (k < 26)%nat /\ (nat_of_ascii c = 65 + k \/ nat_of_ascii c = 97 + k)%nat /\ (nat_of_ascii d = 65 + k \/ nat_of_ascii d = 97 + k)%nat.
Fixpoint same_letters (s t : string) : Prop :=
  match s, t with EmptyString, EmptyString => True | String c s, String d t => same_letter c d /\ same_letters s t | _, _ => False end.
Theorem C143_letters : forall s t, same_letters s t -> resolve (DStr s) = resolve (DStr t).
Proof.
  assert (A : forall c k, (k < 26)%nat -> (nat_of_ascii c = 65 + k \/ nat_of_ascii c = 97 + k)%nat -> lower_char c = ascii_of_nat (97 + k)).
  { intros c k hk [h | h]; unfold lower_char; rewrite h.
    - destruct (Nat.leb_spec 65 (65 + k)), (Nat.leb_spec (65 + k) 90); try lia. cbn [andb]. f_equal. lia.
    - destruct (Nat.leb_spec (97 + k) 90); try lia. rewrite andb_false_r, <- h. symmetry. apply ascii_nat_embedding. }
  assert (B : forall s t, same_letters s t -> lower s = lower t).
  { induction s as [| c s ih]; intros [| d t]; simpl; try easy. intros [h k]. rewrite (ih t k). f_equal.
    destruct h as [-> | [j [hj [h1 h2]]]]; [reflexivity |]. now rewrite (A c j hj h1), (A d j hj h2). }
  intros s t h. unfold resolve. now rewrite (B s t h).
Qed.
Example C143_case_letters : same_letters "Float64" "fLOAT64" /\ resolve (DStr "Float64") = Some F64 /\ resolve (DStr "UINT32") = Some I32.
Proof.
  split; [| split; reflexivity]. cbn [same_letters].
  repeat split; try (left; reflexivity); right; [exists 5%nat | exists 11%nat | exists 14%nat | exists 0%nat | exists 19%nat]; cbn; lia.
Qed.

(** Integers converted with an unsigned dtype: NumPy reduces modulo 2^32 or 2^64, Torch uses the signed type. *)
Theorem C143_unsigned : forall rnd32 dbl odd z, (- 2 ^ 63 <= z < 2 ^ 63)%Z ->
  (cast rnd32 dbl odd I32 (VI z) = VI (np_unsigned 32 z) <-> exists k r, (z = k * 2 ^ 32 + r /\ 0 <= r < 2 ^ 31)%Z) /\
  (cast rnd32 dbl odd I64 (VI z) = VI (np_unsigned 64 z) <-> (0 <= z)%Z) /\
  ((2 ^ 31 <= z < 2 ^ 32)%Z -> np_unsigned 32 z = z /\ cast rnd32 dbl odd I32 (VI z) = VI (z - 2 ^ 32)%Z).
Proof.
  intros rnd32 dbl odd z hz. unfold np_unsigned, cast, wrap32.
  assert (A := Z.div_mod z (2 ^ 32) ltac:(lia)). assert (B := Z.mod_pos_bound z (2 ^ 32) ltac:(lia)).
  assert (C := Z.div_mod (z + 2 ^ 31) (2 ^ 32) ltac:(lia)). assert (E := Z.mod_pos_bound (z + 2 ^ 31) (2 ^ 32) ltac:(lia)).
  assert (F := Z.div_mod z (2 ^ 64) ltac:(lia)). assert (G := Z.mod_pos_bound z (2 ^ 64) ltac:(lia)).
  set (q1 := (z / 2 ^ 32)%Z) in *. set (r1 := (z mod 2 ^ 32)%Z) in *. set (q2 := ((z + 2 ^ 31) / 2 ^ 32)%Z) in *.
  set (r2 := ((z + 2 ^ 31) mod 2 ^ 32)%Z) in *. set (q3 := (z / 2 ^ 64)%Z) in *. set (r3 := (z mod 2 ^ 64)%Z) in *.
  clearbody q1 r1 q2 r2 q3 r3. split; [split | split; [split |]].
  - intros [= h]. exists q1, r1. lia.
  - intros [k [r [h1 h2]]]. f_equal. lia.
  - intros [= h]. lia.
  - intro h. f_equal. lia.
  - intro h. split; [lia | f_equal; lia].
Qed.

(** an element and its conversion *)
Section Thms.
Variables (rnd32 : fl -> fl) (dbl : Z -> fl) (odd : dtype -> fl -> Z).
Definition becomes (d : dtype) (v w : val) : Prop :=
  match d with
  | F64 => match v with VF x => w = VF x | VI z => w = VF (dbl z) | VB b => w = VF (dbl (if b then 1 else 0)%Z) end
  | F32 => match v with VF x => w = VF (rnd32 x) | VI z => w = VF (rnd32 (dbl z)) | VB b => w = VF (rnd32 (dbl (if b then 1 else 0)%Z)) end
  | I64 => forall z, means v z -> (- 2 ^ 63 <= z < 2 ^ 63)%Z -> w = VI z
  | I32 => forall z, means v z -> (- 2 ^ 31 <= z < 2 ^ 31)%Z -> w = VI z
  | B8 => exists b, w = VB b /\ (b = false <-> v = VF (Fin 0) \/ v = VI 0%Z \/ v = VB false)
  end.
Lemma cast_becomes d v : becomes d v (cast rnd32 dbl odd d v).
Proof.
  destruct d.
  - destruct v as [x | z | []]; reflexivity.
  - destruct v as [x | z | []]; reflexivity.
  - intros z h k. now apply (C139_asint rnd32 dbl odd v z h).
  - intros z h k. now apply (C139_asint rnd32 dbl odd v z h).
  - destruct v as [[r | | |] | z | b]; simpl; eexists; (split; [reflexivity |]); simpl.
    + destruct (Req_EM_T r 0) as [-> | n]; split; auto; try discriminate. intros [[= h] | [h | h]]; try discriminate. contradiction.
    + split; [discriminate | intros [h | [h | h]]; discriminate].
    + split; [discriminate | intros [h | [h | h]]; discriminate].
    + split; [discriminate | intros [h | [h | h]]; discriminate].
    + rewrite negb_false_iff, Z.eqb_eq. split; [intros ->; auto | intros [h | [[= h] | h]]; try discriminate; exact h].
    + split; [intros ->; auto | intros [h | [h | [= h]]]; try discriminate; exact h].
Qed.
Lemma map_becomes d l : Forall2 (becomes d) l (map (cast rnd32 dbl odd d) l).
Proof. induction l; simpl; constructor; [apply cast_becomes | assumption]. Qed.
Lemma same_eq d e : same d e = true <-> d = e.
Proof. destruct d, e; simpl; split; congruence. Qed.
Lemma cast_same d l : d <> F32 -> d <> I32 -> Forall (typed d) l -> map (cast rnd32 dbl odd d) l = l.
Proof. intros h1 h2. induction 1 as [| v l h _ ih]; [reflexivity |]. simpl. rewrite ih. destruct d, v; simpl in *; try easy. Qed.

(** With a dtype the two backends give the same type, shape and values; memory is shared exactly when no conversion is needed. *)
Theorem C143_asarray : forall b d x m, valid b m x -> (match x with Lst _ _ e => e <> F32 /\ e <> I32 | _ => True end) ->
  (asarray rnd32 dbl odd b (Some d) x m = None <-> refused b x) /\
  forall a' m', asarray rnd32 dbl odd b (Some d) x m = Some (a', m') ->
    kind a' = b /\ ty a' = d /\ shp a' = oshape x /\
    (otype x = d -> contents m' a' = elems m x) /\ (otype x <> d -> Forall2 (becomes d) (elems m x) (contents m' a')) /\
    (forall a, x = Ar a -> (loc a' = loc a <-> ty a = d)).
Proof.
  assert (A : forall d a m, (loc a < next m)%nat -> let (a', m') := astype rnd32 dbl odd d a m in
    kind a' = kind a /\ ty a' = d /\ shp a' = shp a /\ (ty a = d -> contents m' a' = contents m a) /\
    (ty a <> d -> Forall2 (becomes d) (contents m a) (contents m' a')) /\ (loc a' = loc a <-> ty a = d)).
  { intros d a m hl. unfold astype. destruct (same (ty a) d) eqn:S.
    - apply same_eq in S. repeat split; auto; contradiction.
    - assert (N : ty a <> d) by (intro h; apply same_eq in h; congruence). unfold fresh. cbn [kind ty shp loc].
      split; [reflexivity |]. split; [reflexivity |]. split; [reflexivity |]. split; [contradiction |]. split.
      + intros _. unfold contents at 2. simpl. rewrite upd_eq. apply map_becomes.
      + split; [lia | contradiction]. }
  intros b d x m [ht hv] hx. destruct b; unfold asarray.
  - split; [split; [discriminate | intros [h _]; discriminate] |]. intros a' m' [= E]. destruct x as [v | sh l e | a]; cbn [np_asarray] in E.
    + unfold fresh in E. injection E as <- <-. cbn [kind ty shp oshape otype elems]. repeat split; try discriminate.
      * intros <-. unfold contents; simpl; rewrite upd_eq. destruct v as [x | z | c]; reflexivity.
      * intros _. unfold contents; simpl; rewrite upd_eq. repeat constructor. apply cast_becomes.
    + unfold fresh in E. injection E as <- <-. cbn [kind ty shp oshape otype elems] in *. repeat split; try discriminate.
      * intros <-. unfold contents; simpl; rewrite upd_eq. now apply cast_same.
      * intros _. unfold contents; simpl; rewrite upd_eq. apply map_becomes.
    + destruct hv as [h1 [h2 h3]]. specialize (A d a m h1). rewrite E in A. destruct A as (A1 & A2 & A3 & A4 & A5 & A6).
      rewrite A1, (h3 eq_refl). repeat split; auto; intros ?; injection H as <-; tauto.
  - destruct x as [v | sh l e | a]; cbn [torch_asarray].
    + split; [split; [discriminate | intros [_ []]] |]. intros a' m' E. unfold fresh in E. injection E as <- <-.
      cbn [kind ty shp oshape otype elems]. destruct (same (py_type v) d) eqn:S; repeat split; try discriminate.
      * unfold contents; simpl; now rewrite upd_eq.
      * apply same_eq in S. contradiction.
      * intro h. apply same_eq in h. congruence.
      * intros _. unfold contents; simpl; rewrite upd_eq. repeat constructor. apply cast_becomes.
    + split; [split; [discriminate | intros [_ []]] |]. unfold fresh. intros a' m' [= E].
      match type of E with astype _ _ _ _ ?a ?m = _ => specialize (A d a m ltac:(simpl; lia)) end. rewrite E in A.
      destruct A as (A1 & A2 & A3 & A4 & A5 & _). unfold contents in A4 at 2, A5 at 1. simpl in A1, A3, A4, A5. rewrite upd_eq in A4, A5.
      repeat split; auto; discriminate.
    + destruct hv as [h1 [h2 _]]. destruct (kind a) eqn:K.
      * unfold from_numpy. destruct (neg a) eqn:N.
        { split; [| discriminate]. split; [| reflexivity]. intros _. split; auto. }
        split; [split; [discriminate | intros [_ [_ h]]; simpl in h; congruence] |]. intros a' m' [= E].
        match type of E with astype _ _ _ _ ?a ?m = _ => specialize (A d a m ltac:(simpl; lia)) end. rewrite E in A.
        destruct A as (A1 & A2 & A3 & A4 & A5 & A6). simpl in A1, A3, A4, A5, A6. unfold contents in A4 at 2, A5 at 1. simpl in A4, A5.
        unfold elems, contents. unfold contents in A4, A5. rewrite N. simpl in *. repeat split; auto; intros ?; injection H as <-; tauto.
      * split; [split; [discriminate | intros [_ [h _]]; congruence] |]. intros a' m' [= E]. specialize (A d a m h1). rewrite E in A.
        destruct A as (A1 & A2 & A3 & A4 & A5 & A6). rewrite A1, K. repeat split; auto; intros ?; injection H as <-; tauto.
Qed.

(** Assigning into gnp.full(shape, v) *)
Theorem C143_full : forall v r,
  full_then_set rnd32 dbl odd NumPy v r = VF (Fin r) /\
  (full_then_set rnd32 dbl odd Torch v r = VF (Fin r) <-> exists x, v = VF x) /\
  (forall z k, v = VI z -> means (VF (Fin r)) k -> (- 2 ^ 63 <= k < 2 ^ 63)%Z -> full_then_set rnd32 dbl odd Torch v r = VI k) /\
  (forall c, v = VB c -> full_then_set rnd32 dbl odd Torch v r = VB (if Req_EM_T r 0 then false else true)).
Proof.
  intros v r. split; [reflexivity |]. split; [split |split].
  - destruct v; [eauto | discriminate | discriminate].
  - intros [x ->]. reflexivity.
  - intros z k -> h hk. now apply (C139_asint rnd32 dbl odd (VF (Fin r)) k h).
  - intros c ->. reflexivity.
Qed.
End Thms.

(** Grids: the two backends agree, n equally spaced values from a to b *)
Theorem C143_linspace : forall a b n i, (i < n)%nat ->
  linspace Torch a b n i = linspace NumPy a b n i /\ logspace Torch a b n i = logspace NumPy a b n i /\ 0 < logspace NumPy a b n i /\
  forall k, linspace k a b n 0 = a /\ ((2 <= n)%nat -> linspace k a b n (n - 1) = b /\
    ((S i < n)%nat -> linspace k a b n (S i) - linspace k a b n i = (b - a) / INR (n - 1) /\
       logspace k a b n (S i) = logspace k a b n i * Rpower 10 ((b - a) / INR (n - 1)))).
Proof.
  assert (P : forall n, (2 <= n)%nat -> 0 < INR (n - 1)) by (intros n h; apply lt_0_INR; lia).
  assert (L : forall a b n i, (i < n)%nat -> torch_linspace a b n i = np_linspace a b n i).
  { intros a b n i h. unfold torch_linspace, np_linspace. destruct (Nat.leb_spec n 1); [reflexivity |]. destruct (i <? n / 2)%nat; [lra |].
    rewrite (minus_INR (n - 1) i) by lia. assert (p := P n ltac:(lia)). field. lra. }
  intros a b n i h. split; [now apply L |]. split; [unfold logspace; simpl; now rewrite L |]. split; [apply exp_pos |].
  intro k. assert (Lk : forall i, (i < n)%nat -> linspace k a b n i = np_linspace a b n i) by (intros j hj; destruct k; [reflexivity | now apply L]).
  split; [rewrite Lk by lia; unfold np_linspace; destruct (n <=? 1)%nat; simpl; lra |]. intro h2. assert (p := P n h2).
  split; [rewrite Lk by lia; unfold np_linspace; destruct (Nat.leb_spec n 1); [lia | field; lra] |]. intro h3.
  assert (S1 : linspace k a b n (S i) - linspace k a b n i = (b - a) / INR (n - 1)).
  { rewrite !Lk by lia. unfold np_linspace. destruct (Nat.leb_spec n 1); [lia |]. rewrite S_INR. lra. }
  split; [exact S1 |]. unfold logspace. rewrite <- Rpower_plus. f_equal. lra.
Qed.

(** meshgrid: the same with an indexing; without it the arrays of NumPy are the transposes of those of Torch *)
Theorem C143_meshgrid : forall x y,
  (forall ix, meshgrid NumPy (Some ix) x y = meshgrid Torch (Some ix) x y) /\
  let (X, Y) := meshgrid NumPy None x y in let (X', Y') := meshgrid Torch None x y in
  List.length X = List.length y /\ List.length Y = List.length y /\ List.length X' = List.length x /\ List.length Y' = List.length x /\
  forall i j u v, nth_error x i = Some u -> nth_error y j = Some v ->
    (exists r, nth_error X j = Some r /\ List.length r = List.length x /\ nth_error r i = Some u) /\
    (exists r, nth_error Y j = Some r /\ List.length r = List.length x /\ nth_error r i = Some v) /\
    (exists r, nth_error X' i = Some r /\ List.length r = List.length y /\ nth_error r j = Some u) /\
    (exists r, nth_error Y' i = Some r /\ List.length r = List.length y /\ nth_error r j = Some v).
Proof.
  intros x y. split; [intros []; reflexivity |]. unfold meshgrid. rewrite !map_length. repeat (split; [reflexivity |]).
  intros i j u v hi hj. split; [exists x | split; [exists (map (fun _ => v) x) | split; [exists (map (fun _ => u) y) | exists y]]];
    rewrite nth_error_map, ?hi, ?hj, ?map_length; (split; [reflexivity |]); (split; [reflexivity |]); rewrite ?nth_error_map, ?hi, ?hj; reflexivity.
Qed.

Print Assumptions C143_resolve.
Print Assumptions C143_names.
Print Assumptions C143_letters.
Print Assumptions C143_unsigned.
Print Assumptions C143_asarray.
Print Assumptions C143_full.
Print Assumptions C143_linspace.
Print Assumptions C143_meshgrid.

Example C143_case :
  resolve (DStr "<class 'numpy.uint32'>") = Some I32 /\ np_unsigned 32 3000000000 = 3000000000%Z /\
  (forall rnd32 dbl odd, cast rnd32 dbl odd I32 (VI 3000000000) = VI (-1294967296)%Z) /\
  meshgrid NumPy None [1; 2; 3] [4; 5] = ([[1; 2; 3]; [1; 2; 3]], [[4; 4; 4]; [5; 5; 5]]) /\
  meshgrid Torch None [1; 2; 3] [4; 5] = ([[1; 1]; [2; 2]; [3; 3]], [[4; 5]; [4; 5]; [4; 5]]) /\
  linspace Torch 0 1 5 3 = 3 / 4.
Proof. repeat split; try reflexivity. unfold linspace, torch_linspace. simpl. field. Qed.
(** half, written into an array filled with the integer 0: kept on NumPy, zero on Torch; the argument of asarray: a list of two floats *)
Example C143_case_full : forall rnd32 dbl odd, full_then_set rnd32 dbl odd Torch (VI 0) (1 / 2) = VI 0%Z /\
  full_then_set rnd32 dbl odd NumPy (VI 0) (1 / 2) = VF (Fin (1 / 2)) /\
  (let x := Lst [2%nat] [VF (Fin (1 / 3)); VF NaN] F64 in let m := Mem (fun _ => []) (fun _ => false) 0 0 true in
   valid Torch m x /\ exists a' m', asarray rnd32 dbl odd Torch (Some F32) x m = Some (a', m') /\ contents m' a' = [VF (rnd32 (Fin (1 / 3))); VF (rnd32 NaN)]).
Proof.
  intros rnd32 dbl odd. destruct (C143_full rnd32 dbl odd (VI 0) (1 / 2)) as (A & _ & B & _). split; [| split; [exact A |]].
  - apply (B 0%Z 0%Z eq_refl); [| lia]. simpl. split; intro; lra.
  - split; [split; [repeat constructor | exact I] |]. eexists _, _. split; [reflexivity |]. reflexivity.
Qed.
