(** Proofs about the layout of tables of text. *)
From Coq Require Import String Ascii List Arith ZArith Bool Reals Lia Lra.
From Verif Require Import FlModel ConfigModel FrameModel DispModel DispSpec DispProofs.
Import ListNotations.
Local Open Scope string_scope.

Lemma smap_inv (A B : Type) (f : A -> shown B) l bs :
  smap f l = Shown bs -> Forall2 (fun a b => f a = Shown b) l bs.
Proof.
  revert bs; induction l as [|a l IH]; simpl; intros bs h; [inversion h; constructor|].
  destruct (f a) eqn:E; try discriminate. simpl in h.
  destruct (smap f l) eqn:F; try discriminate. inversion h; subst. constructor; auto.
Qed.
Lemma smap_of (A B : Type) (f : A -> shown B) l bs :
  Forall2 (fun a b => f a = Shown b) l bs -> smap f l = Shown bs.
Proof. induction 1 as [|a b l bs h _ IH]; simpl; [easy|]. now rewrite h; simpl; rewrite IH. Qed.
Lemma smap_ex (A B : Type) (f : A -> shown B) l :
  (forall a, In a l -> exists b, f a = Shown b) -> exists bs, smap f l = Shown bs.
Proof.
  induction l as [|a l IH]; simpl; intros h; [now exists []|].
  destruct (h a) as [b hb]; [now left|]. destruct IH as [t ht]; [intros; apply h; now right|].
  exists (b :: t). now rewrite hb; simpl; rewrite ht.
Qed.
Lemma Forall2_len (A B : Type) (P : A -> B -> Prop) l m : Forall2 P l m -> length l = length m.
Proof. induction 1; simpl; auto. Qed.
Lemma Forall2_at (A B : Type) (P : A -> B -> Prop) l m i a :
  Forall2 P l m -> nth_error l i = Some a -> exists b, nth_error m i = Some b /\ P a b.
Proof.
  intros h; revert i; induction h as [|x y l m hp _ IH]; intros [|i]; simpl; try discriminate.
  - intros E; inversion E; subst; eauto.
  - apply IH.
Qed.
Lemma Forall2_at_r (A B : Type) (P : A -> B -> Prop) l m i b :
  Forall2 P l m -> nth_error m i = Some b -> exists a, nth_error l i = Some a /\ P a b.
Proof.
  intros h; revert i; induction h as [|x y l m hp _ IH]; intros [|i]; simpl; try discriminate.
  - intros E; inversion E; subst; eauto.
  - apply IH.
Qed.

(** ** substrings *)
Lemma substring_skip s t n m : substring (String.length s + n) m (s ++ t) = substring n m t.
Proof. induction s; simpl; auto. Qed.
Lemma substring_head s t : substring 0 (String.length s) (s ++ t) = s.
Proof. induction s as [|c s IH]; simpl; [now destruct t|now rewrite IH]. Qed.
Lemma substring_all s : substring 0 (String.length s) s = s.
Proof. rewrite <- (app_nil_s s) at 2. apply substring_head. Qed.

Lemma length_spaces n : String.length (spaces n) = n.
Proof. induction n; simpl; auto. Qed.
Lemma length_rjust w s : String.length s <= w -> String.length (rjust w s) = w.
Proof. intros h. unfold rjust. rewrite length_app, length_spaces. lia. Qed.
Lemma padded_rjust w s : String.length s <= w -> padded w s (rjust w s).
Proof.
  intros h. split; [now apply length_rjust|]. exists (w - String.length s). unfold rjust.
  induction (w - String.length s); simpl; congruence.
Qed.

Definition cells_fit (ws : list nat) (row : list string) : Prop :=
  forall j w, nth_error ws j = Some w -> exists c, nth_error row j = Some c /\ String.length c <= w.
Lemma cells_fit_tl w ws row : cells_fit (w :: ws) row ->
  exists c r, row = c :: r /\ String.length c <= w /\ cells_fit ws r.
Proof.
  intros h. destruct row as [|c r]; [destruct (h 0 w eq_refl) as (c & E & _); discriminate|].
  exists c, r. split; [easy|]. destruct (h 0 w eq_refl) as (c' & E & hc). inversion E; subst.
  split; [easy|]. intros j v hj. exact (h (S j) v hj).
Qed.
Lemma layout_cons sep w v ws c r :
  layout sep (w :: v :: ws) (c :: r) =
  match r with [] => rjust w c | _ => rjust w c ++ sep ++ layout sep (v :: ws) r end.
Proof. unfold layout. destruct r; reflexivity. Qed.
Lemma layout_length sep ws row : cells_fit ws row ->
  String.length (layout sep ws row) = total_width (String.length sep) ws.
Proof.
  revert row; induction ws as [|w ws IH]; intros row h; [unfold total_width; simpl; lia|].
  destruct (cells_fit_tl _ _ _ h) as (c & r & -> & hc & hr).
  destruct ws as [|v ws].
  - unfold layout, total_width. simpl. rewrite length_rjust by easy. lia.
  - rewrite layout_cons. destruct (cells_fit_tl _ _ _ hr) as (c' & r' & -> & _ & _).
    rewrite !length_app, IH, length_rjust by easy. unfold total_width. simpl. lia.
Qed.
Lemma layout_cell sep ws row j w c : cells_fit ws row ->
  nth_error ws j = Some w -> nth_error row j = Some c ->
  substring (start_of (String.length sep) ws j) w (layout sep ws row) = rjust w c.
Proof.
  revert row j; induction ws as [|v ws IH]; intros row j h hw hc; [destruct j; discriminate|].
  destruct (cells_fit_tl _ _ _ h) as (c0 & r & -> & h0 & hr).
  destruct j as [|j].
  - simpl in hw, hc. inversion hw; inversion hc; subst. cbn [start_of].
    destruct ws as [|v' ws].
    + unfold layout. simpl. rewrite <- (length_rjust w c) at 1 by easy. apply substring_all.
    + rewrite layout_cons. destruct (cells_fit_tl _ _ _ hr) as (c' & r' & -> & _ & _).
      rewrite <- (length_rjust w c) at 1 by easy. apply substring_head.
  - simpl in hw, hc. destruct ws as [|v' ws]; [destruct j; discriminate|].
    rewrite layout_cons. destruct (cells_fit_tl _ _ _ hr) as (c' & r' & -> & _ & _).
    cbn [start_of]. rewrite <- (length_rjust v c0) at 1 by easy.
    rewrite <- Nat.add_assoc, substring_skip, substring_skip. now apply IH.
Qed.

Lemma widest_ge l s : In s l -> String.length s <= widest l.
Proof. unfold widest. induction l as [|a l IH]; simpl; [easy|]. intros [->|h]; [lia|]. specialize (IH h). lia. Qed.
Lemma widest_in l : l <> [] -> exists s, In s l /\ String.length s = widest l.
Proof.
  unfold widest. induction l as [|a l IH]; [easy|]. intros _. destruct l as [|b l].
  - exists a. simpl. split; [now left|lia].
  - destruct IH as (s & hs & E); [easy|].
    destruct (Nat.le_ge_cases (String.length a) (fold_right Nat.max 0 (map String.length (b :: l)))).
    + exists s. split; [now right|]. cbn [map fold_right] in *. lia.
    + exists a. split; [now left|]. cbn [map fold_right] in *. lia.
Qed.

(** ** DataFrame.__repr__ *)
Definition cell_at (j : nat) (r : list string) : shown string :=
  match nth_error r j with Some s => Shown s | None => IndexError end.
Lemma column_inv rows j c : column rows j = Shown c -> Forall2 (fun r s => nth_error r j = Some s) rows c.
Proof.
  intros h. apply smap_inv in h. induction h as [|r s rows c hp _ IH]; constructor; auto.
  destruct (nth_error r j); congruence.
Qed.
Lemma column_ex rows j : (forall r, In r rows -> j < length r) -> exists c, column rows j = Shown c.
Proof.
  intros h. apply smap_ex. intros r hr. apply h in hr. apply nth_error_Some in hr.
  destruct (nth_error r j); [eauto|easy].
Qed.

Definition row_texts (rnd : R -> Z) (d : frame fl) (ir : nat * list fl) : shown (list string) :=
  match nth_error (f_rownames d) (fst ir) with
  | None => IndexError
  | Some n => sbind (smap (ftos rnd 3) (snd ir)) (fun t => Shown ((n ++ ":") :: t))
  end.
Lemma combine_seq_at (A : Type) (l : list A) i a k :
  nth_error l i = Some a -> nth_error (combine (seq k (length l)) l) i = Some (k + i, a).
Proof.
  revert i k; induction l as [|x l IH]; intros [|i] k; simpl; try discriminate.
  - intros E; inversion E. now rewrite Nat.add_0_r.
  - intros h. rewrite (IH i (S k) h). f_equal. f_equal. lia.
Qed.
Lemma combine_seq_in (A : Type) (l : list A) i a k :
  In (i, a) (combine (seq k (length l)) l) -> k <= i < k + length l /\ nth_error l (i - k) = Some a.
Proof.
  revert i k; induction l as [|x l IH]; intros i k; simpl; [easy|]. intros [E|h].
  - inversion E; subst. split; [lia|]. now rewrite Nat.sub_diag.
  - destruct (IH _ _ h) as [h1 h2]. split; [lia|].
    replace (i - k) with (S (i - S k)) by lia. easy.
Qed.

(** the widths of the columns of a table shown *)
Lemma widths_of rows n ws :
  smap (fun j => sbind (column rows j) (fun c => Shown (Nat.max 8 (widest c)))) (seq 0 n) = Shown ws ->
  length ws = n /\
  (forall j w, nth_error ws j = Some w ->
     8 <= w /\ (forall r, In r rows -> exists c, nth_error r j = Some c /\ String.length c <= w) /\
     (rows <> [] -> w = 8 \/ exists r c, In r rows /\ nth_error r j = Some c /\ String.length c = w)).
Proof.
  intros h. apply smap_inv in h. split; [rewrite <- (Forall2_len _ _ _ _ _ h); apply seq_length|].
  intros j w hw. destruct (Forall2_at_r _ _ _ _ _ _ _ h hw) as (j' & hj & E).
  assert (j' = j).
  { assert (hl : j < length (seq 0 n)) by (apply nth_error_Some; congruence).
    rewrite seq_length in hl.
    pose proof (nth_error_nth (seq 0 n) j 0 hj) as e. rewrite seq_nth in e by easy. lia. }
  subst j'. destruct (column rows j) eqn:F; try discriminate. cbn [sbind] in E.
  assert (E' : w = Nat.max 8 (widest a)) by congruence. clear E; subst w.
  pose proof (column_inv _ _ _ F) as hc. split; [lia|]. split.
  - intros r hr. apply In_nth_error in hr. destruct hr as [i hi].
    destruct (Forall2_at _ _ _ _ _ _ _ hc hi) as (s & hs & e). exists s. split; [easy|].
    apply nth_error_In in hs. apply widest_ge in hs. lia.
  - intros hne. destruct (Nat.le_ge_cases (widest a) 8); [left; lia|right].
    assert (ha : a <> []).
    { intros ->. apply Forall2_len in hc. destruct rows; simpl in hc; [easy|discriminate]. }
    destruct (widest_in a ha) as (s & hs & e). apply In_nth_error in hs. destruct hs as [i hi].
    destruct (Forall2_at_r _ _ _ _ _ _ _ hc hi) as (r & hr & g). exists r, s.
    split; [now apply nth_error_In with i|]. split; [easy|lia].
Qed.
Lemma ftos_nan rnd fp v : (exists t, ftos rnd fp v = Shown t) <-> v <> NaN.
Proof.
  unfold ftos. destruct v; split; intros h; try easy; try (eexists; reflexivity).
  - destruct (reqb x 0); [eauto|]. destruct (_ && _); [eauto|]. destruct (_ && _); eauto.
  - destruct h as [t ht]; discriminate.
Qed.
