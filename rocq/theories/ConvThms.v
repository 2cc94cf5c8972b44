(** Property C139: what the conversions of the two backends do to values, types, shapes, memory and gradient flags. *)
From Coq Require Import List Arith ZArith Reals Bool Lia Lra.
From Verif Require Import ConfigModel ConvModel.
Import ListNotations.
Local Open Scope R_scope.

(** what a user sees of an argument: elements, type, shape *)
Definition elems (m : mem) (x : obj) : list val := match x with Py v => [v] | Lst _ l _ => l | Ar a => contents m a end.
Definition otype (x : obj) : dtype := match x with Py v => py_type v | Lst _ _ d => d | Ar a => ty a end.
Definition oshape (x : obj) : list nat := match x with Py _ => [] | Lst sh _ _ => sh | Ar a => shp a end.
(** arguments of a backend: existing objects, no tensors for NumPy, elements of the stated type *)
Definition typed (d : dtype) (v : val) : Prop :=
  match d, v with (F32 | F64), VF _ | (I32 | I64), VI _ | B8, VB _ => True | _, _ => False end.
Definition valid (b : backend) (m : mem) (x : obj) : Prop :=
  Forall (typed (otype x)) (elems m x) /\
  match x with Ar a => (loc a < next m)%nat /\ (oid a < nexto m)%nat /\ (b = NumPy -> kind a = NumPy) | _ => True end.
Definition widen (d : dtype) : dtype := match d with F32 => F64 | d => d end.
Definition refused (b : backend) (x : obj) : Prop :=
  b = Torch /\ match x with Ar a => kind a = NumPy /\ neg a = true | _ => False end.

Lemma flip_flip c l : flip c (flip c l) = l.
Proof. destruct c; simpl; [apply rev_involutive | reflexivity]. Qed.
Lemma flip_rnil c l : flip c l = if c then rev l else l. Proof. reflexivity. Qed.
Lemma upd_eq {A} (f : nat -> A) k v : upd f k v k = v. Proof. unfold upd. now rewrite Nat.eqb_refl. Qed.
Lemma upd_ne {A} (f : nat -> A) k v i : i <> k -> upd f k v i = f i.
Proof. intro h. unfold upd. destruct (Nat.eqb_spec i k); [contradiction | reflexivity]. Qed.

Section Thms.
Variables (rnd32 : fl -> fl) (dbl : Z -> fl) (odd : dtype -> fl -> Z).
Let cast := cast rnd32 dbl odd.
Let asarray := asarray rnd32 dbl odd.
Let array := array rnd32 dbl odd.
Let copy := copy rnd32 dbl odd.
Let asint := asint rnd32 dbl odd.
Let prepare_param := prepare_param rnd32 dbl odd.

Lemma cast_f64 l : Forall (typed F32) l -> map (cast F64) l = l.
Proof. induction 1 as [| v l h _ ih]; [reflexivity |]. simpl. rewrite ih. destruct v; simpl in h; try easy. Qed.

(** old blocks of memory are left alone *)
Definition keeps (m m' : mem) : Prop :=
  (forall i, (i < next m)%nat -> cells m' i = cells m i) /\ (forall i, (i < nexto m)%nat -> flags m' i = flags m i) /\
  (next m <= next m')%nat /\ (nexto m <= nexto m')%nat.
Lemma keeps_refl m : keeps m m. Proof. repeat split; auto. Qed.
Lemma keeps_trans a b c : keeps a b -> keeps b c -> keeps a c.
Proof.
  intros [h1 [h2 [h3 h4]]] [k1 [k2 [k3 k4]]]. repeat split; try lia; intros i hi.
  - rewrite k1 by lia. auto.
  - rewrite k2 by lia. auto.
Qed.
Lemma keeps_fresh k d sh l r lf m : keeps m (snd (fresh k d sh l r lf m)).
Proof. unfold fresh; repeat split; simpl; try lia; intros i hi; apply upd_ne; lia. Qed.

(** the specification of a conversion to the standard type of a valid array *)
Lemma std_float_spec a m : (loc a < next m)%nat -> Forall (typed (ty a)) (contents m a) ->
  let (a', m') := std_float rnd32 dbl odd a m in
  contents m' a' = contents m a /\ ty a' = widen (ty a) /\ shp a' = shp a /\ kind a' = kind a /\ keeps m m' /\
  (ty a <> F32 -> a' = a /\ m' = m) /\ (ty a = F32 -> loc a' = next m /\ oid a' = nexto m) /\ (loc a' < next m')%nat.
Proof.
  intros hl ht. unfold std_float, astype. destruct (ty a) eqn:E; cbn [is_float same].
  2, 3, 4, 5: repeat split; auto; discriminate.
  unfold fresh. cbn [contents ty shp kind neg loc oid cells next].
  split; [unfold contents at 1; simpl; rewrite upd_eq; now apply cast_f64 |].
  repeat split; simpl; auto; try easy; try lia; intros; apply upd_ne; lia.
Qed.

Lemma fresh_std k d sh l m : Forall (typed d) l ->
  let (a1, m1) := fresh k d sh l false true m in let (a', m') := std_float rnd32 dbl odd a1 m1 in
  contents m' a' = l /\ ty a' = widen d /\ shp a' = sh /\ kind a' = k /\ keeps m m' /\ (next m <= loc a')%nat.
Proof.
  intro ht. assert (K := keeps_fresh k d sh l false true m). unfold fresh in *.
  set (a1 := Arr k d sh (next m) false (nexto m) true). simpl in K. set (m1 := Mem _ _ _ _ _) in *.
  assert (C : contents m1 a1 = l) by (unfold contents; simpl; apply upd_eq).
  assert (S := std_float_spec a1 m1 ltac:(simpl; lia)). rewrite C in S. specialize (S ht).
  destruct (std_float rnd32 dbl odd a1 m1) as [a' m']. destruct S as (S1 & S2 & S3 & S4 & S5 & S6 & S7 & _).
  split; [exact S1 |]. split; [exact S2 |]. split; [exact S3 |]. split; [exact S4 |]. split; [eapply keeps_trans; eauto |].
  destruct (same d F32) eqn:D.
  - destruct S7 as [-> _]; [destruct d; try discriminate; reflexivity | simpl; lia].
  - destruct S6 as [-> _]; [destruct d; try discriminate; simpl; congruence | simpl; lia].
Qed.

(** Without a type argument the values are kept exactly, single precision becomes double, other types stay, and the
    shape stays, except for a number on NumPy, which becomes a vector; arrays read backwards are refused by Torch. *)
Theorem C139_values : forall b x m, valid b m x ->
  (asarray b None x m = None <-> refused b x) /\
  forall a' m', asarray b None x m = Some (a', m') ->
    contents m' a' = elems m x /\ ty a' = widen (otype x) /\ kind a' = b /\ keeps m m' /\
    shp a' = match b, x with NumPy, Py _ => [1%nat] | _, _ => oshape x end.
Proof.
  intros b x m [ht hx]. unfold asarray, ConvModel.asarray. destruct b.
  - split; [split; [discriminate | intros [h _]; discriminate] |]. intros a' m' E. injection E as E. unfold np_asarray in E. destruct x as [v | sh l d | a].
    + unfold fresh in E. injection E as <- <-. unfold contents; cbn. rewrite upd_eq. split; [reflexivity |].
      split; [now destruct v |]. split; [reflexivity |]. split; [apply (keeps_fresh NumPy (py_type v) [1%nat] [v] false true m) | reflexivity].
    + assert (S := fresh_std NumPy d sh l m ht). unfold fresh in S. rewrite E in S.
      destruct S as (S1 & S2 & S3 & S4 & S5 & _). auto.
    + destruct hx as [hl [ho hk]]. assert (S := std_float_spec a m hl ht). rewrite E in S. destruct S as (S1 & S2 & S3 & S4 & S5 & _).
      split; [exact S1 |]. split; [exact S2 |]. split; [rewrite S4; auto |]. split; [exact S5 | exact S3].
  - unfold torch_asarray. destruct x as [v | sh l d | a].
    + split; [split; [discriminate | intros [_ []]] |]. intros a' m' E. injection E as <- <-.
      unfold contents; cbn. rewrite upd_eq. split; [destruct v; reflexivity |]. split; [now destruct v |]. split; [reflexivity |].
      split; [apply (keeps_fresh Torch (py_type v) [] [if same (py_type v) (py_type v) then v else cast (py_type v) v] false true m) | reflexivity].
    + assert (S := fresh_std Torch d sh l m ht). unfold fresh in *.
      split; [split; [discriminate | intros [_ []]] |]. intros a' m' E. injection E as E. rewrite E in S.
      destruct S as (S1 & S2 & S3 & S4 & S5 & _). auto.
    + destruct hx as [hl [ho _]]. unfold refused. destruct (kind a) eqn:KA.
      * unfold from_numpy. destruct (neg a) eqn:N; [split; [tauto | discriminate] |].
        set (t := Arr Torch (ty a) (shp a) (loc a) false (nexto m) true).
        set (m1 := Mem (cells m) (upd (flags m) (nexto m) false) (next m) (Datatypes.S (nexto m)) (rec m)).
        assert (C : contents m1 t = contents m a) by (unfold contents; simpl; now rewrite N).
        assert (S := std_float_spec t m1 hl). rewrite C in S. specialize (S ht).
        split; [split; [discriminate | intros [_ [_ h]]; discriminate] |]. intros a' m' E. injection E as E. rewrite E in S. destruct S as (S1 & S2 & S3 & S4 & S5 & _).
        split; [exact S1 |]. split; [exact S2 |]. split; [exact S4 |]. split; [| exact S3].
        apply keeps_trans with m1; [| exact S5]. repeat split; simpl; auto. intros i hi. apply upd_ne. lia.
      * assert (S := std_float_spec a m hl ht). split; [split; [discriminate | intros [_ [h _]]; discriminate] |].
        intros a' m' E. injection E as E. rewrite E in S. destruct S as (S1 & S2 & S3 & S4 & S5 & _).
        split; [exact S1 |]. split; [exact S2 |]. split; [congruence |]. split; [exact S5 | exact S3].
Qed.

Lemma write_same m a a' l : loc a' = loc a -> neg a' = neg a -> contents (write m a' l) a = l.
Proof. intros h1 h2. unfold contents, write. simpl. rewrite h1, upd_eq, h2. apply flip_flip. Qed.
Lemma write_other m0 m a a' l : keeps m0 m -> (loc a < next m0)%nat -> loc a' <> loc a -> contents (write m a' l) a = contents m0 a.
Proof. intros [K _] hl h. unfold contents, write. simpl. rewrite upd_ne by congruence. now rewrite K. Qed.

Lemma asarray_loc b a m a' m' : valid b m (Ar a) -> asarray b None (Ar a) m = Some (a', m') ->
  (ty a <> F32 -> loc a' = loc a /\ neg a' = neg a) /\ (ty a = F32 -> (next m <= loc a')%nat).
Proof.
  intros [ht [hl [ho hk]]] E. unfold asarray, ConvModel.asarray in E. destruct b.
  - injection E as E. cbn [np_asarray] in E. assert (S := std_float_spec a m hl ht). rewrite E in S. destruct S as (_ & _ & _ & _ & _ & S6 & S7 & _).
    split; intro h; [destruct (S6 h) as [-> _]; auto | destruct (S7 h); lia].
  - unfold torch_asarray in E. destruct (kind a) eqn:KA.
    + unfold from_numpy in E. destruct (neg a) eqn:N; [discriminate |]. injection E as E.
      set (t := Arr Torch (ty a) (shp a) (loc a) false (nexto m) true) in E.
      set (m1 := Mem (cells m) (upd (flags m) (nexto m) false) (next m) (Datatypes.S (nexto m)) (rec m)) in E.
      assert (C : contents m1 t = contents m a) by (unfold contents; simpl; now rewrite N).
      assert (S := std_float_spec t m1 hl). rewrite C in S. specialize (S ht). rewrite E in S. destruct S as (_ & _ & _ & _ & _ & S6 & S7 & _).
      split; intro h; [destruct (S6 h) as [-> _]; auto | destruct (S7 h) as [-> _]; simpl; lia].
    + injection E as E. assert (S := std_float_spec a m hl ht). rewrite E in S. destruct S as (_ & _ & _ & _ & _ & S6 & S7 & _).
      split; intro h; [destruct (S6 h) as [-> _]; auto | destruct (S7 h); lia].
Qed.

(** Writing into the result of a conversion changes the argument exactly when it is not in single precision: asarray on both
    backends, and array on Torch.  array on NumPy and copy are protected. *)
Definition changes (b : backend) (which : nat) (a : arr) : bool :=
  match which, b with 0%nat, _ | 1%nat, Torch => negb (same (ty a) F32) | _, _ => false end.
Definition convert (which : nat) (b : backend) (x : obj) (m : mem) : option (arr * mem) :=
  match which with 0%nat => asarray b None x m | 1%nat => array b None x m | _ => copy b x m end.
Theorem C139_sharing : forall which b a m a' m' l, valid b m (Ar a) -> convert which b (Ar a) m = Some (a', m') ->
  contents m' a' = contents m a /\ contents m' a = contents m a /\
  contents (write m' a' l) a = if changes b which a then l else contents m a.
Proof.
  intros which b a m a' m' l hv E. assert (hv' := hv). destruct hv' as [ht [hl [ho hk]]].
  assert (main : asarray b None (Ar a) m = Some (a', m') ->
    contents m' a' = contents m a /\ contents m' a = contents m a /\
    contents (write m' a' l) a = if negb (same (ty a) F32) then l else contents m a).
  { intro EA. destruct (C139_values b (Ar a) m hv) as [_ V]. destruct (V a' m' EA) as (V1 & _ & _ & K & _). simpl in V1.
    destruct (asarray_loc b a m a' m' hv EA) as [L1 L2]. split; [exact V1 |]. split; [unfold contents; destruct K as [K _]; now rewrite K |].
    destruct (same (ty a) F32) eqn:D; simpl.
    - apply write_other; auto. assert (h : ty a = F32) by (destruct (ty a); try discriminate; reflexivity). specialize (L2 h). lia.
    - assert (h : ty a <> F32) by (intro h; rewrite h in D; discriminate). destruct (L1 h). now apply write_same. }
  destruct which as [| [| which]]; cbn [convert changes] in *; [now apply main | destruct b |].
  - injection E as E. assert (S := fresh_std NumPy (ty a) (shp a) (contents m a) m ht).
    assert (E' : (let (a1, m1) := fresh NumPy (ty a) (shp a) (contents m a) false true m in std_float rnd32 dbl odd a1 m1) = (a', m')) by exact E.
    destruct (fresh NumPy (ty a) (shp a) (contents m a) false true m) as [a1 m1]. rewrite E' in S. destruct S as (S1 & _ & _ & _ & K & S6).
    split; [exact S1 |]. split; [unfold contents; destruct K as [K _]; now rewrite K |]. apply write_other; auto. lia.
  - now apply main.
  - destruct b; unfold copy, ConvModel.copy in E.
    + assert (K := keeps_fresh NumPy (ty a) (shp a) (contents m a) false true m). injection E as <- <-. split; [unfold contents at 1; simpl; now rewrite upd_eq |].
      split; [unfold contents; destruct K as [K _]; simpl in K; simpl; now rewrite K |]. apply write_other; auto. simpl; lia.
    + destruct (torch_asarray rnd32 dbl odd None (Ar a) m) as [[t m1] |] eqn:T; [| discriminate].
      destruct (C139_values Torch (Ar a) m hv) as [_ V]. destruct (V t m1 T) as (V1 & _ & _ & K1 & _). simpl in V1.
      assert (K := keeps_fresh Torch (ty t) (shp t) (contents m1 t) false true m1). injection E as <- <-.
      assert (KK := keeps_trans _ _ _ K1 K). split; [unfold contents at 1; simpl; rewrite upd_eq; exact V1 |].
      split; [unfold contents; destruct KK as [KK _]; simpl in KK; simpl; now rewrite KK |].
      apply write_other; auto. simpl. destruct K1 as (_ & _ & K1 & _). lia.
Qed.

(** From NumPy to Torch and back: the same memory *)
Theorem C139_bridge : forall a m t m' a' m'', valid Torch m (Ar a) -> kind a = NumPy -> ty a <> F32 ->
  asarray Torch None (Ar a) m = Some (t, m') -> to_np Torch t m' = (a', m'') ->
  kind a' = NumPy /\ ty a' = ty a /\ shp a' = shp a /\ loc a' = loc a /\ neg a' = neg a /\ contents m'' a' = contents m a /\
  forall l, contents (write m'' a l) t = l /\ contents (write m'' a l) a' = l.
Proof.
  intros a m t m' a' m'' hv ka nf E T. destruct (C139_values Torch (Ar a) m hv) as [_ V]. destruct (V t m' E) as (V1 & V2 & V3 & K & V5).
  destruct (asarray_loc Torch a m t m' hv E) as [L _]. destruct (L nf) as [L1 L2]. clear L V. simpl in V1, V2, V5.
  assert (N : neg a = false).
  { unfold asarray, ConvModel.asarray, torch_asarray, from_numpy in E. rewrite ka in E. destruct (neg a); [discriminate | reflexivity]. }
  unfold to_np in T. rewrite V3 in T. injection T as <- <-. clear E hv. unfold contents in *. simpl.
  rewrite L1, L2, N in V1 |- *. simpl in V1 |- *. rewrite V2, V5.
  repeat split; auto; try (destruct (ty a); auto; congruence); apply upd_eq.
Qed.

(** asint *)
Lemma wrap32_in z : in_bits 32 z = true -> wrap32 z = z.
Proof. unfold in_bits, wrap32. intro h. apply andb_prop in h. destruct h as [h1 h2]. rewrite Z.mod_small; change (2 ^ (32 - 1))%Z with (2 ^ 31)%Z in *; lia. Qed.
Lemma wrap32_range z : in_bits 32 (wrap32 z) = true.
Proof.
  unfold in_bits, wrap32. assert (h := Z.mod_pos_bound (z + 2 ^ 31) (2 ^ 32) ltac:(lia)). change (2 ^ (32 - 1))%Z with (2 ^ 31)%Z.
  apply andb_true_intro. split; lia.
Qed.

(** The integer meant by an element, when it is a number: decimals are cut off *)
Definition means (v : val) (z : Z) : Prop :=
  match v with
  | VF (Fin r) => (0 <= r -> IZR z <= r < IZR z + 1) /\ (r < 0 -> IZR z - 1 < r <= IZR z)
  | VF _ => False
  | VI z' => z = z'
  | VB b => z = if b then 1%Z else 0%Z
  end.
Lemma means_trunc r z : means (VF (Fin r)) z -> trunc r = z.
Proof.
  simpl. intros [h1 h2]. unfold trunc. destruct (Rle_dec 0 r) as [p | p].
  - destruct (h1 p) as [a b]. destruct (base_Int_part r) as [c d].
    assert (x : IZR (Int_part r) < IZR (z + 1)) by (rewrite plus_IZR; lra). assert (y : IZR z < IZR (Int_part r + 1)) by (rewrite plus_IZR; lra).
    apply lt_IZR in x, y. lia.
  - destruct h2 as [a b]; [lra |]. destruct (base_Int_part (- r)) as [c d].
    assert (x : IZR (Int_part (- r)) < IZR (- z + 1)) by (rewrite plus_IZR, opp_IZR; lra).
    assert (y : IZR (- z) < IZR (Int_part (- r) + 1)) by (rewrite plus_IZR, opp_IZR; lra). apply lt_IZR in x, y. lia.
Qed.
Lemma in_bits_spec n z : in_bits n z = true <-> (- 2 ^ (n - 1) <= z < 2 ^ (n - 1))%Z.
Proof. unfold in_bits. rewrite andb_true_iff. lia. Qed.
Theorem C139_asint : forall v z, means v z ->
  ((- 2 ^ 63 <= z < 2 ^ 63)%Z -> cast I64 v = VI z) /\
  ((- 2 ^ 31 <= z < 2 ^ 31)%Z -> cast I32 v = VI z) /\
  (forall z', v = VI z' -> (cast I32 v = VI z <-> (- 2 ^ 31 <= z < 2 ^ 31)%Z) /\ exists k, cast I32 v = VI (z + k * 2 ^ 32)%Z).
Proof.
  assert (I64b : forall z, in_bits 64 z = true <-> (- 2 ^ 63 <= z < 2 ^ 63)%Z) by (intro; apply in_bits_spec).
  assert (I32b : forall z, in_bits 32 z = true <-> (- 2 ^ 31 <= z < 2 ^ 31)%Z) by (intro; apply in_bits_spec).
  intros v z h. destruct v as [[r | | |] | z' | b]; try contradiction.
  - apply means_trunc in h. unfold cast, ConvModel.cast, to_int. rewrite h.
    split; [intro k; apply I64b in k; now rewrite k |]. split; [intro k; apply I32b in k; now rewrite k | discriminate].
  - simpl in h. subst z'. simpl. split; [reflexivity |]. split; [intro h; apply I32b in h; now rewrite wrap32_in |]. intros z'' [= <-]. split; [split |].
    + intros [= h]. apply I32b. rewrite <- h. apply wrap32_range.
    + intro h. apply I32b in h. now rewrite wrap32_in.
    + exists (- ((z + 2 ^ 31) / 2 ^ 32))%Z. f_equal. unfold wrap32. assert (h := Z.div_mod (z + 2 ^ 31) (2 ^ 32) ltac:(lia)). lia.
  - simpl in h. subst z. split; [destruct b; reflexivity |]. split; [destruct b; reflexivity | discriminate].
Qed.
Theorem C139_asint_type : forall b x m a' m', valid b m x -> asint b x m = Some (a', m') ->
  ty a' = (match b with NumPy => I64 | Torch => I32 end) /\
  contents m' a' = (if same (otype x) (ty a') then elems m x else map (cast (ty a')) (elems m x)).
Proof.
  assert (A : forall d a m, let (a', m') := astype rnd32 dbl odd d a m in
    ty a' = d /\ contents m' a' = if same (ty a) d then contents m a else map (cast d) (contents m a)).
  { intros d a m. unfold astype. destruct (same (ty a) d) eqn:D; [destruct (ty a), d; try discriminate; auto |].
    simpl. split; [reflexivity |]. unfold contents at 1. simpl. now rewrite upd_eq. }
  intros b x m a' m' hv E. destruct b.
  - unfold asint, ConvModel.asint in E. injection E as E. destruct x as [v | sh l d | a]; unfold fresh in E;
      match type of E with astype _ _ _ _ ?a ?m = _ => specialize (A I64 a m) end; rewrite E in A; destruct A as [A1 A2]; rewrite A1; (split; [reflexivity |]);
      rewrite A2; simpl; unfold contents; simpl; rewrite ?upd_eq; reflexivity.
  - unfold asint, ConvModel.asint in E. destruct (torch_asarray rnd32 dbl odd None x m) as [[t m1] |] eqn:T; [| discriminate].
    destruct (C139_values Torch x m hv) as [_ V]. destruct (V t m1 T) as (V1 & V2 & _). injection E as E. specialize (A I32 t m1). rewrite E in A.
    destruct A as [A1 A2]. rewrite A1. split; [reflexivity |]. rewrite A2, V1, V2. destruct (otype x); reflexivity.
Qed.

(** One-element arrays are scalars for Torch only. *)
Theorem C139_isscalar : forall x, (isscalar NumPy x = true <-> exists v, x = Py v) /\
  (isscalar Torch x = true <-> (exists v, x = Py v) \/ exists a, x = Ar a /\ kind a = Torch /\ forall n, In n (shp a) -> n = 1%nat).
Proof.
  intros [v | sh l d | a]; simpl; split; split; intro h; try discriminate; eauto.
  - destruct h as [v h]; discriminate.
  - destruct h as [[v h] | [a [h _]]]; discriminate.
  - destruct h as [v h]; discriminate.
  - destruct (kind a) eqn:K; [discriminate |]. right. exists a. split; [reflexivity |]. split; [exact K |]. apply Nat.eqb_eq in h.
    clear K. revert h. generalize (shp a). intro sh. induction sh as [| k sh ih]; simpl; [easy |]. intros h n [<- | hn].
    + apply Nat.eq_mul_1 in h. tauto.
    + apply ih; [| exact hn]. apply Nat.eq_mul_1 in h. tauto.
  - destruct h as [[v h] | [a' [[= <-] [K h]]]]; [discriminate |]. rewrite K. apply Nat.eqb_eq. revert h. generalize (shp a). intro sh.
    induction sh as [| k sh ih]; simpl; intro h; [reflexivity |]. rewrite ih by auto. rewrite (h k) by auto. reflexivity.
Qed.

(** Infinities and NaN *)
Theorem C139_inf : forall bigf x, inftobigf bigf x <> PInf /\ inftobigf bigf x <> NInf /\ inftobigf bigf NInf = Fin bigf /\
  (inftobigf bigf x = x <-> x <> PInf /\ x <> NInf).
Proof. intros bigf [r | | |]; simpl; repeat split; try discriminate; try tauto; intros [h1 h2]; congruence. Qed.
Theorem C139_nan_to_num : forall b cp nanv pos neg_ a m, (loc a < next m)%nat ->
  (nan_to_num b cp nanv pos neg_ a m = None <-> b = Torch /\ cp = true /\ rec m = true /\ flags m (oid a) = true) /\
  forall a' m', nan_to_num b cp nanv pos neg_ a m = Some (a', m') ->
  ty a' = ty a /\ shp a' = shp a /\ length (contents m' a') = length (contents m a) /\
  (forall i v w, nth_error (contents m a) i = Some v -> nth_error (contents m' a') i = Some w ->
     (v = VF NaN -> w = VF (Fin nanv)) /\ (v = VF PInf -> w = VF (Fin pos)) /\ (v = VF NInf -> w = VF (Fin neg_)) /\
     (v <> VF NaN -> v <> VF PInf -> v <> VF NInf -> w = v)) /\
  contents m' a = (match b, cp with NumPy, false => contents m' a' | _, _ => contents m a end).
Proof.
  intros b cp nanv pos neg_ a m hl. unfold nan_to_num. split.
  { destruct b, cp; try (split; [discriminate | intros [h1 [h2 _]]; discriminate]).
    destruct (rec m) eqn:r, (flags m (oid a)) eqn:g; simpl; split; try discriminate; solve [intros _; auto | intros (_ & _ & h3 & h4); discriminate]. }
  intros a' m' E.
  assert (C : contents m' a' = map (fix_num nanv pos neg_) (contents m a) /\ ty a' = ty a /\ shp a' = shp a).
  { destruct b, cp; [| | destruct (rec m && flags m (oid a)); [discriminate |] |]; unfold fresh in E; injection E as <- <-; unfold contents at 1; simpl;
      rewrite upd_eq; try (split; [reflexivity | split; reflexivity]). split; [apply flip_flip | split; reflexivity]. }
  destruct C as [C [T S]]. split; [exact T |]. split; [exact S |]. split; [rewrite C; apply map_length |]. split.
  - intros i v w hv hw. rewrite C, nth_error_map, hv in hw. injection hw as <-.
    destruct v as [[r | | |] | z | c]; simpl; (split; [| split; [| split]]); try discriminate; try reflexivity; intros; congruence.
  - destruct b, cp; try (destruct (rec m && flags m (oid a)); [discriminate |]); unfold fresh in E; injection E as <- <-; try reflexivity;
      unfold contents at 1; simpl; rewrite upd_ne by lia; reflexivity.
Qed.

(** The gradient flag of the parameter given to the batch criterion *)
Theorem C139_flags : forall x req m, valid Torch m x -> ~ refused Torch x ->
  (prepare_param x req m = None <->
     (req = true /\ is_float (otype x) = false) \/
     (req = false /\ exists a, x = Ar a /\ kind a = Torch /\ ty a <> F32 /\ leaf a = false /\ flags m (oid a) = true)) /\
  forall t m', prepare_param x req m = Some (t, m') ->
    contents m' t = elems m x /\ flags m' (oid t) = req /\
    forall a, x = Ar a -> flags m' (oid a) = (if match kind a with Torch => negb (same (ty a) F32) | NumPy => false end then req else flags m (oid a)).
Proof.
  intros x req m hv nr. set (m0 := Mem (cells m) (flags m) (next m) (nexto m) req).
  assert (hv0 : valid Torch m0 x) by exact hv. destruct (C139_values Torch x m0 hv0) as [V0 V].
  unfold prepare_param, ConvModel.prepare_param. fold m0. change (torch_asarray rnd32 dbl odd None x m0) with (asarray Torch None x m0).
  destruct (asarray Torch None x m0) as [[t m1] |] eqn:T; [| exfalso; tauto].
  destruct (V t m1 eq_refl) as (V1 & V2 & V3 & K & V5). clear V V0.
  assert (F : is_float (ty t) = is_float (otype x)) by (rewrite V2; destruct (otype x); reflexivity).
  assert (G : (leaf t || negb (flags m1 (oid t)) = false /\ req = false) <->
     (req = false /\ exists a, x = Ar a /\ kind a = Torch /\ ty a <> F32 /\ leaf a = false /\ flags m (oid a) = true)).
  { unfold asarray, ConvModel.asarray, torch_asarray in T. destruct x as [v | sh l d | a].
    - injection T as <- <-. simpl. split; [intros [h _]; discriminate | intros [_ [a [h _]]]; discriminate].
    - unfold fresh in T. injection T as T. unfold std_float, astype in T. split; [intros [h _] | intros [_ [a [h _]]]; discriminate].
      destruct d; cbn [is_float ty same] in T; unfold fresh in T; injection T as <- <-; simpl in h; try discriminate. rewrite upd_eq in h. simpl in h.
      destruct req; cbn in h; rewrite ?upd_eq in h; discriminate.
    - destruct (kind a) eqn:KA.
      + unfold from_numpy in T. destruct (neg a); [discriminate |]. injection T as T. split; [intros [h _] | intros [_ [a0 [[= <-] [h _]]]]; congruence].
        unfold std_float, astype in T. cbn [ty] in T. destruct (ty a); cbn [is_float ty same] in T; unfold fresh in T; injection T as <- <-; simpl in h; try discriminate.
        rewrite !upd_eq in h. destruct req; cbn in h; rewrite ?upd_eq in h; discriminate.
      + injection T as T. unfold std_float, astype in T. destruct (ty a) eqn:D; cbn [is_float same] in T.
        2, 3, 4, 5: injection T as <- <-; split;
          [ intros [h ->]; apply orb_false_elim in h; destruct h as [h1 h2]; apply negb_false_iff in h2; split; [reflexivity |]; exists a; rewrite D; repeat split; auto; discriminate
          | intros [-> [a0 [[= <-] (_ & _ & h1 & h2)]]]; simpl; rewrite h1; simpl; change (flags m0 (oid a)) with (flags m (oid a)); rewrite h2; auto ].
        unfold fresh in T. injection T as <- <-. simpl. rewrite upd_eq. split; [intros [h ->]; discriminate | intros [_ [a0 [[= <-] (_ & h & _)]]]; congruence]. }
  split.
  - destruct req.
    + rewrite F. destruct (is_float (otype x)) eqn:D; split; try discriminate; try tauto; intros [[_ h] | [h _]]; discriminate.
    + destruct (leaf t || negb (flags m1 (oid t))) eqn:L; split; try discriminate; try tauto.
      intros [[h _] | h]; [discriminate |]. apply G in h. destruct h; discriminate.
  - intros t' m' E. destruct (if req then is_float (ty t) else leaf t || negb (flags m1 (oid t))); [| discriminate]. injection E as <- <-.
    split; [exact V1 |]. split; [simpl; apply upd_eq |]. intros a ->. destruct hv as [ht [hl [ho _]]]. simpl.
    assert (O : (match kind a with Torch => negb (same (ty a) F32) | NumPy => false end = true -> oid t = oid a) /\
      (match kind a with Torch => negb (same (ty a) F32) | NumPy => false end = false -> (nexto m <= oid t)%nat)).
    { unfold asarray, ConvModel.asarray, torch_asarray in T. destruct (kind a) eqn:KA.
      - unfold from_numpy in T. destruct (neg a); [discriminate |]. injection T as T. split; [discriminate |]. intros _.
        unfold std_float, astype in T. cbn [ty] in T. destruct (ty a); cbn [is_float ty same] in T; unfold fresh in T; injection T as <- <-; simpl; lia.
      - injection T as T. unfold std_float, astype in T. destruct (ty a) eqn:D; cbn [is_float same] in T; unfold fresh in T; injection T as <- <-; simpl; split; intro; try discriminate; auto. }
    destruct (match kind a with Torch => negb (same (ty a) F32) | NumPy => false end).
    + destruct O as [O _]. rewrite O by reflexivity. apply upd_eq.
    + destruct O as [_ O]. specialize (O eq_refl). rewrite upd_ne by lia. destruct K as (_ & K & _). rewrite K by exact ho. reflexivity.
Qed.
End Thms.
Print Assumptions C139_values.
Print Assumptions C139_sharing.
Print Assumptions C139_bridge.
Print Assumptions C139_asint.
Print Assumptions C139_asint_type.
Print Assumptions C139_isscalar.
Print Assumptions C139_inf.
Print Assumptions C139_nan_to_num.
Print Assumptions C139_flags.

(** an array of the caller in double precision: array shares it on Torch and not on NumPy; a flag set by the caller is cleared *)
Definition m_ex : mem := Mem (fun _ => [VF (Fin 1); VF (Fin 2)]) (fun _ => true) 1 1 true.
Definition a_ex (k : backend) : arr := Arr k F64 [2%nat] 0 false 0 true.
Example C139_case : valid NumPy m_ex (Ar (a_ex NumPy)) /\ valid Torch m_ex (Ar (a_ex NumPy)) /\ valid Torch m_ex (Ar (a_ex Torch)) /\
  changes Torch 1 (a_ex NumPy) = true /\ changes NumPy 1 (a_ex NumPy) = false /\ ~ refused Torch (Ar (a_ex Torch)) /\
  (forall rnd32 dbl odd, exists t m', prepare_param rnd32 dbl odd (Ar (a_ex Torch)) false m_ex = Some (t, m') /\ flags m_ex 0 = true /\ flags m' 0 = false) /\
  wrap32 3000000000 = (-1294967296)%Z.
Proof.
  split; [| split; [| split]]; try (split; [repeat constructor | simpl; auto]); try (repeat split; auto; discriminate).
  repeat split; try reflexivity.
  - intros [_ [h _]]; discriminate.
  - intros. do 2 eexists. split; [reflexivity |]. split; reflexivity.
Qed.
