(** Validation of the inputs (C99). *)
From Coq Require Import List Arith Lia Bool.
From Verif Require Import UtilsModel.
Import ListNotations.

Section C99.
Variable A : Type.
Implicit Types xi zi xt : option (input A).
(** an array with n entries per its shape *)
Definition wf (a : arr A) : Prop := length (entries a) = fold_right Nat.mul 1 (shape a).
Definition is_matrix (v : input A) (n d : nat) : Prop := exists l, v = Array (mkArr [n; d] l).
Definition is_vector (v : input A) (n : nat) : Prop := exists l, v = Array (mkArr [n] l).
Definition opt_matrix (v : option (input A)) (n d : nat) : Prop := match v with None => True | Some v => is_matrix v n d end.
Definition opt_values (v : option (input A)) (n : nat) : Prop := match v with None => True | Some v => is_vector v n \/ is_matrix v n 1 end.
Definition opt_wf (v : option (input A)) : Prop := match v with Some (Array a) => wf a | _ => True end.
Definition entries_of (v : input A) : list A := match v with Array a => entries a | Sequence a => entries a end.
(** zi made one-dimensional *)
Definition flat zi (n : nat) : option (input A) := option_map (fun v => Array (mkArr [n] (entries_of v))) zi.

Lemma bind_done {B C} (x : outcome B) (f : B -> outcome C) c : bind x f = Done c <-> exists b, x = Done b /\ f b = Done c.
Proof. destruct x; cbn; split; try discriminate; [intro h; exists b; auto | intros (b' & h & k); injection h; intros ->; exact k | ..]; intros (b & h & _); discriminate. Qed.
Lemma check_done b u : check b = Done u <-> b = true.
Proof. unfold check; destruct b, u; split; congruence. Qed.
Lemma check2_done v u : check2 v = Done u <-> exists n d, opt_matrix v n d.
Proof.
  destruct v as [[[s l] | l] |]; cbn.
  - rewrite check_done, Nat.eqb_eq. split.
    + destruct s as [| n [| d [|]]]; try discriminate. intros _. exists n, d, l. reflexivity.
    + intros (n & d & l' & h). injection h; intros; subst. reflexivity.
  - split; [discriminate | intros (n & d & l' & h); discriminate].
  - destruct u. split; [intros _; exists 0, 0; exact I | reflexivity].
Qed.

(** accepted exactly when xi is (n, d), zi is (n,) or (n, 1), xt is (m, d), for the arguments given; the result is the
    arguments with zi of shape (n,) *)
Theorem C99_ensure convert xi zi xt r : opt_wf zi ->
  ensure_shapes_and_type convert xi zi xt = Done r <->
  exists n d m, opt_matrix xi n d /\ opt_values zi n /\ opt_matrix xt m d /\ r = (xi, flat zi n, xt).
Proof.
  intro w. unfold ensure_shapes_and_type. split.
  - intro h. apply bind_done in h as (u1 & h1 & h). apply bind_done in h as (zi' & h2 & h). apply bind_done in h as (u3 & h3 & h).
    apply bind_done in h as (u4 & h4 & h). apply bind_done in h as (u5 & h5 & h).
    apply check2_done in h1 as (n & d & h1). apply check2_done in h3 as (m & d' & h3).
    assert (Z : exists k, opt_values zi k /\ zi' = flat zi k /\ (xi = None \/ zi = None \/ k = n)).
    { destruct zi as [[[s l] | l] |]; cbn in h2; [| discriminate | injection h2; intros <-; exists 0; cbn; auto].
      destruct s as [| k [| e [|]]]; cbn in h2; try discriminate.
      - injection h2; intros <-. exists k. split; [left; exists l; reflexivity | split; [reflexivity |]].
        destruct xi as [v |]; [| left; reflexivity]. right; right. destruct h1 as (l1 & ->). cbn in h4. apply check_done, Nat.eqb_eq in h4. auto.
      - apply bind_done in h2 as (u & h2 & h2'). apply check_done, Nat.eqb_eq in h2. injection h2'; intros <-. subst e. cbn in w. unfold wf in w. cbn in w.
        assert (length l = k) by lia. exists k. split; [right; exists l; reflexivity | split; [cbn; now rewrite H |]].
        destruct xi as [v |]; [| left; reflexivity]. right; right. destruct h1 as (l1 & ->). cbn in h4. apply check_done, Nat.eqb_eq in h4. lia. }
    destruct Z as (k & hz & -> & hk).
    assert (D : xi = None \/ xt = None \/ d = d').
    { destruct xi as [v |]; [| left; reflexivity]. destruct xt as [v' |]; [| right; left; reflexivity]. right; right.
      destruct h1 as (l1 & ->). destruct h3 as (l3 & ->). cbn in h5. now apply check_done, Nat.eqb_eq in h5. }
    assert (R : r = (xi, flat zi k, xt)).
    { destruct convert; injection h; intros <-; [| reflexivity]. f_equal; [f_equal |].
      - destruct xi as [v |]; [destruct h1 as (l1 & ->)|]; reflexivity.
      - destruct zi; reflexivity.
      - destruct xt as [v |]; [destruct h3 as (l3 & ->)|]; reflexivity. }
    destruct xi as [v |].
    + exists n, d, m. split; [exact h1 |]. split.
      * destruct hk as [hk | [-> | <-]]; [discriminate | exact I | exact hz].
      * split; [destruct D as [D | [-> | <-]]; [discriminate | exact I | exact h3] |].
        rewrite R. destruct hk as [hk | [-> | <-]]; [discriminate | reflexivity | reflexivity].
    + exists k, d', m. repeat split; auto.
  - intros (n & d & m & h1 & h2 & h3 & ->).
    assert (E1 : check2 xi = Done tt) by (apply check2_done; eauto).
    assert (E3 : check2 xt = Done tt) by (apply check2_done; eauto).
    assert (E2 : check_zi zi = Done (flat zi n)).
    { destruct zi as [v |]; [| reflexivity]. cbn in h2. destruct h2 as [(l & ->) | (l & ->)]; cbn; [reflexivity |].
      cbn in w. unfold wf in w; cbn in w. repeat f_equal. lia. }
    rewrite E1; cbn. rewrite E2; cbn. rewrite E3; cbn.
    assert (E4 : check_eq xi (flat zi n) 0 = Done tt).
    { destruct xi as [v |]; [| reflexivity]. destruct zi as [v' |]; [| reflexivity]. destruct h1 as (l & ->). cbn. now rewrite Nat.eqb_refl. }
    assert (E5 : check_eq xi xt 1 = Done tt).
    { destruct xi as [v |]; [| reflexivity]. destruct xt as [v' |]; [| reflexivity]. destruct h1 as (l & ->), h3 as (l' & ->). cbn. now rewrite Nat.eqb_refl. }
    rewrite E4; cbn. rewrite E5; cbn. destruct convert; [| reflexivity].
    assert (forall v a b, opt_matrix v a b -> option_map asarray v = v) as F by (intros [v |] a b hv; [destruct hv as (l & ->)|]; reflexivity).
    rewrite (F xi n d h1), (F xt m d h3). destruct zi; reflexivity.
Qed.
(** applying the function to its own result changes nothing *)
Theorem C99_idempotent c c' xi zi xt a b e : opt_wf zi -> ensure_shapes_and_type c xi zi xt = Done (a, b, e) ->
  ensure_shapes_and_type c' a b e = Done (a, b, e).
Proof.
  intros w h. assert (h' := h). apply C99_ensure in h as (n & d & m & h1 & h2 & h3 & E); [| exact w]. injection E; intros -> -> ->.
  assert (len : zi = None \/ exists v, zi = Some v /\ length (entries_of v) = n).
  { destruct zi as [v |]; [right; exists v; split; [reflexivity |] | left; reflexivity]. destruct h2 as [(l & ->) | (l & ->)]; cbn in *; unfold wf in w; cbn in w; lia. }
  apply C99_ensure.
  - destruct len as [-> | (v & -> & hl)]; cbn; [exact I | unfold wf; cbn; lia].
  - exists n, d, m. repeat split; auto; [| destruct zi; reflexivity]. destruct zi as [v |]; [left; eexists; reflexivity | exact I].
Qed.
(** the checks come before the conversion: a list or a tuple raises AttributeError even with convert=True *)
Theorem C99_lists_refuted c (a : arr A) zi xt : ensure_shapes_and_type c (Some (Sequence a)) zi xt = AttributeError.
Proof. reflexivity. Qed.
(** the mean argument: exact acceptance, and meanparam is never looked at *)
Theorem C99_mean {P} t m (mp : option P) : (validate_model_mean t m mp = Done tt <->
    (t = Zero /\ m = NoMean) \/ ((t = Parameterized \/ t = LinearPredictor) /\ m = Callable)) /\
  (forall Q (mq : option Q), validate_model_mean t m mq = validate_model_mean t m mp).
Proof. split; [destruct t, m; cbn; intuition discriminate | intros; destruct t, m; reflexivity]. Qed.
Theorem C99_missing_meanparam_refuted {P} : validate_model_mean Parameterized Callable (@None P) = Done tt.
Proof. reflexivity. Qed.
(** the source of the data; one of xi, zi given with a loader is ignored *)
Theorem C99_source {X Z L} (xi : option X) (zi : option Z) (loader : option L) :
  (check_xi_zi_or_loader xi zi loader = Done FromArrays <-> xi <> None /\ zi <> None /\ loader = None) /\
  (check_xi_zi_or_loader xi zi loader = Done FromLoader <-> (xi = None \/ zi = None) /\ loader <> None) /\
  (check_xi_zi_or_loader xi zi loader = ValueError <-> ((xi <> None /\ zi <> None) <-> loader <> None)).
Proof. destruct xi, zi, loader; cbn; intuition (discriminate || congruence). Qed.
Theorem C99_partial_arrays_ignored {L} rows cols (x : input A) (l : L) :
  prepare_data rows cols (Some x) None (Some l) = prepare_data rows cols None None (Some l) /\
  prepare_data rows cols None (Some x) (Some l) = prepare_data rows cols (A := A) None None (Some l).
Proof. split; reflexivity. Qed.
(** arrays: n and d are the sizes of xi, a matrix or a list that converts to one; zi becomes one column, whatever its
    shape and length *)
Theorem C99_prepare {L} rows cols (x z : input A) r :
  prepare_data rows cols (Some x) (Some z) (@None L) = Done r <->
  exists n d l, (x = Array (mkArr [n; d] l) \/ x = Sequence (mkArr [n; d] l)) /\
    r = (Some (Array (mkArr [n; d] l)), Some (Array (mkArr [length (entries_of z); 1] (entries_of z))), n, d, FromArrays).
Proof.
  unfold prepare_data. cbn. destruct z as [[sz lz] | [sz lz]], x as [[s l] | [s l]]; cbn.
  all : split; [destruct s as [| n [| d [| ]]]; try discriminate; intro h; injection h; intros <-; exists n, d, l; split; auto |
    intros (n' & d' & l' & [h | h] & ->); try discriminate; injection h; intros; subst; reflexivity].
Qed.
(** xi and zi of different lengths are not refused there *)
Theorem C99_lengths_not_compared_refuted (a b : A) rows cols :
  exists r, prepare_data rows cols (Some (Array (mkArr [1; 1] [a]))) (Some (Array (mkArr [2] [a; b]))) (@None unit) = Done r.
Proof. eexists. reflexivity. Qed.
End C99.
Print Assumptions C99_ensure.
Print Assumptions C99_idempotent.
Print Assumptions C99_lists_refuted.
Print Assumptions C99_mean.
Print Assumptions C99_missing_meanparam_refuted.
Print Assumptions C99_source.
Print Assumptions C99_partial_arrays_ignored.
Print Assumptions C99_prepare.
Print Assumptions C99_lengths_not_compared_refuted.
Example C99_ex : ensure_shapes_and_type true (Some (Array (mkArr [2; 1] [3; 4]))) (Some (Array (mkArr [2; 1] [5; 6]))) None =
  Done (Some (Array (mkArr [2; 1] [3; 4])), Some (Array (mkArr [2] [5; 6])), None).
Proof. reflexivity. Qed.
