(** Property C140: extremes, covariances, clipping and splitting in the two backends. *)
From Coq Require Import List Arith ZArith Reals Bool Lia Lra.
From Verif Require Import ConfigModel FlModel PriorModel SmcModel SmcProofs MhModel DataModel DataProofs DataProofs2 ConvModel AxisModel.
Import ListNotations.
Local Open Scope R_scope.

(** arrays with at least one element, all rows of the same length *)
Definition wf (x : nd) : Prop :=
  match x with Sc _ => True | Vec l => l <> [] | Mat c rows => rows <> [] /\ (0 < c)%nat /\ forall r, In r rows -> length r = c end.

Lemma least_spec l : l <> [] -> exists v, least l = Some v /\ In v l /\ forall w, In w l -> v <= w.
Proof.
  induction l as [| a [| b l] ih]; intro h; [easy | exists a; simpl; repeat split; auto; intros w [-> | []]; lra |].
  destruct ih as [v [h1 [h2 h3]]]; [discriminate |]. exists (Rmin a v). split; [change (least (a :: b :: l)) with (match least (b :: l) with Some w => Some (Rmin a w) | None => None end); now rewrite h1 |].
  split; [unfold Rmin; destruct (Rle_dec a v); [now left | now right] |].
  intros w [<- | hw]; [apply Rmin_l | apply Rle_trans with v; [apply Rmin_r | auto]].
Qed.
Lemma greatest_spec l : l <> [] -> exists v, greatest l = Some v /\ In v l /\ forall w, In w l -> v >= w.
Proof.
  induction l as [| a [| b l] ih]; intro h; [easy | exists a; simpl; repeat split; auto; intros w [-> | []]; lra |].
  destruct ih as [v [h1 [h2 h3]]]; [discriminate |]. exists (Rmax a v). split; [change (greatest (a :: b :: l)) with (match greatest (b :: l) with Some w => Some (Rmax a w) | None => None end); now rewrite h1 |].
  split; [unfold Rmax; destruct (Rle_dec a v); [now right | now left] |].
  intros w [<- | hw]; [apply Rle_ge, Rmax_l | apply Rge_trans with v; [apply Rle_ge, Rmax_r | auto]].
Qed.

(** gnp.min and gnp.max without axis: all elements on NumPy; the rows only on Torch, so that a matrix gives a vector *)
Definition is_extreme (f : list R -> option R) (rel : R -> R -> Prop) : Prop := (f = least /\ rel = Rle) \/ (f = greatest /\ rel = Rge).
Lemma extreme_spec f rel : is_extreme f rel ->
  (forall l, l <> [] -> exists v, f l = Some v /\ In v l /\ forall w, In w l -> rel v w) /\ (forall a b, rel a b -> rel b a -> a = b) /\
  (forall a b c, rel a b -> rel b c -> rel a c).
Proof.
  intros [[-> ->] | [-> ->]]; (split; [apply least_spec || apply greatest_spec |]); split; intros; lra.
Qed.
Lemma sequence_some {A} (l : list nat) (g : nat -> option A) (h : nat -> A) : (forall j, In j l -> g j = Some (h j)) -> sequence (map g l) = Some (map h l).
Proof. induction l as [| a l ih]; intro H; [reflexivity |]. simpl. rewrite (H a) by now left. rewrite ih; [reflexivity |]. intros j hj. apply H. now right. Qed.

Theorem C140_extremes : forall f rel x, is_extreme f rel -> wf x ->
  exists v, np_extreme f None false x = Some (Sc v) /\ In v (entries x) /\ (forall w, In w (entries x) -> rel v w) /\
  match x with
  | Mat c rows => exists w, torch_extreme f None false x = Some (Vec w) /\ length w = c /\ f w = Some v /\
      forall j, (j < c)%nat -> In (nth j w 0) (column rows j) /\ forall e, In e (column rows j) -> rel (nth j w 0) e
  | _ => torch_extreme f None false x = Some (Sc v)
  end /\
  forall a k, (match x with Sc _ => False | _ => True end) -> torch_extreme f (Some a) k x = np_extreme f (Some a) k x.
Proof.
  intros f rel x hf hx. destruct (extreme_spec f rel hf) as [S [AS TR]].
  assert (NE : entries x <> []).
  { destruct x as [v | l | c rows]; simpl; [discriminate | exact hx |]. destruct hx as [h1 [h2 h3]]. destruct rows as [| r rows]; [easy |].
    specialize (h3 r (or_introl eq_refl)). destruct r; [simpl in h3; lia | discriminate]. }
  destruct (S _ NE) as [v [h1 [h2 h3]]]. exists v. split; [simpl; now rewrite h1 |]. split; [exact h2 |]. split; [exact h3 |].
  destruct x as [u | l | c rows].
  - split; [| intros ? ? []]. destruct h2 as [-> | []]. reflexivity.
  - split; [simpl in h1 |- *; now rewrite h1 | intros [| a] k _; reflexivity].
  - split; [| intros [| [| a]] k _; reflexivity]. destruct hx as [k1 [k2 k3]].
    assert (CN : forall j, column rows j <> []) by (intros j h; apply k1; unfold column in h; apply map_eq_nil in h; exact h).
    pose (w := map (fun j => match f (column rows j) with Some v => v | None => 0 end) (seq 0 c)).
    assert (W : forall j, (j < c)%nat -> exists e, nth j w 0 = e /\ f (column rows j) = Some e /\ In e (column rows j) /\ forall e', In e' (column rows j) -> rel e e').
    { intros j hj. destruct (S _ (CN j)) as [e [e1 [e2 e3]]]. exists e. split; [| auto]. unfold w.
      set (g := fun j => match f (column rows j) with Some v => v | None => 0 end).
      rewrite (nth_indep (map g (seq 0 c)) 0 (g 0%nat)) by (rewrite map_length, seq_length; exact hj).
      rewrite (map_nth g), seq_nth by exact hj. unfold g. simpl. now rewrite e1. }
    assert (LW : length w = c) by (unfold w; now rewrite map_length, seq_length).
    exists w. split; [| split; [exact LW |]].
    + unfold torch_extreme, along. rewrite (sequence_some _ _ (fun j => match f (column rows j) with Some v => v | None => 0 end)); [reflexivity |].
      intros j _. destruct (S _ (CN j)) as [e [e1 _]]. now rewrite e1.
    + split.
      * assert (WN : w <> []) by (destruct w; [simpl in LW; lia | discriminate]).
        destruct (S w WN) as [v' [f1 [f2 f3]]]. rewrite f1. f_equal. apply AS.
        -- simpl in h2. apply in_concat in h2. destruct h2 as [r [r1 r2]]. apply In_nth with (d := 0) in r2. destruct r2 as [j [j1 j2]].
           rewrite (k3 r r1) in j1. destruct (W j j1) as [e [e1 [e2 [e3 e4]]]]. apply TR with e.
           ++ rewrite <- e1. apply f3. apply nth_In. lia.
           ++ apply e4. unfold column. apply in_map_iff. exists r. split; [exact j2 | exact r1].
        -- apply h3. simpl. apply In_nth with (d := 0) in f2. destruct f2 as [j [j1 j2]]. rewrite LW in j1. destruct (W j j1) as [e [e1 [e2 [e3 e4]]]].
           rewrite j2 in e1. subst e. unfold column in e3. apply in_map_iff in e3. destruct e3 as [r [r1 r2]]. apply in_concat. exists r. split; [exact r2 |].
           rewrite <- r1. apply nth_In. rewrite (k3 r r2). exact j1.
      * intros j hj. destruct (W j hj) as [e [-> [e2 [e3 e4]]]]. split; assumption.
Qed.

(** Along an axis both backends give the extreme of each column or row; keepdims keeps the axis with length one. *)
Lemma sequence_all {A B} (l : list A) (g : A -> option B) : (forall a, In a l -> g a <> None) ->
  exists r, sequence (map g l) = Some r /\ Forall2 (fun a b => g a = Some b) l r.
Proof.
  induction l as [| a l ih]; intro H; [exists []; split; [reflexivity | constructor] |]. destruct (g a) as [b |] eqn:E; [| exfalso; apply (H a (or_introl eq_refl) E)].
  destruct ih as [r [h1 h2]]; [intros x hx; apply H; now right |]. exists (b :: r). simpl. rewrite E, h1. split; [reflexivity | now constructor].
Qed.
Lemma along_seq f rel l : is_extreme f rel -> l <> [] -> f l <> None.
Proof. intros hf h e. destruct (extreme_spec f rel hf) as [S _]. destruct (S l h) as [v [h1 _]]. rewrite e in h1. discriminate. Qed.
Theorem C140_axis : forall f rel c rows, is_extreme f rel -> wf (Mat c rows) ->
  let best l v := In v l /\ forall w, In w l -> rel v w in
  exists cols rws, length cols = c /\ length rws = length rows /\
  (forall j, (j < c)%nat -> best (map (fun r => nth j r 0) rows) (nth j cols 0)) /\
  (forall i, (i < length rows)%nat -> best (nth i rows []) (nth i rws 0)) /\
  (forall be, be = np_extreme \/ be = torch_extreme ->
     be f (Some 0%nat) false (Mat c rows) = Some (Vec cols) /\ be f (Some 0%nat) true (Mat c rows) = Some (Mat c [cols]) /\
     be f (Some 1%nat) false (Mat c rows) = Some (Vec rws) /\ be f (Some 1%nat) true (Mat c rows) = Some (Mat 1 (map (fun v => [v]) rws)) /\
     forall a k, (2 <= a)%nat -> be f (Some a) k (Mat c rows) = None).
Proof.
  intros f rel c rows hf [h1 [h2 h3]] best. destruct (extreme_spec f rel hf) as [S _].
  assert (B : forall l v, l <> [] -> f l = Some v -> best l v).
  { intros l v ne e. destruct (S l ne) as [v' [e' [i1 i2]]]. rewrite e in e'. injection e' as <-. split; assumption. }
  destruct (sequence_all (seq 0 c) (fun j => f (column rows j))) as [cols [C1 C2]].
  { intros j _. apply (along_seq f rel _ hf). unfold column. destruct rows; [easy | discriminate]. }
  destruct (sequence_all rows f) as [rws [R1 R2]].
  { intros r hr. apply (along_seq f rel _ hf). intros ->. specialize (h3 _ hr). simpl in h3. lia. }
  exists cols, rws. assert (FL : forall A B (P : A -> B -> Prop) l r, Forall2 P l r -> length r = length l) by (intros A0 B0 P l r H; induction H; simpl; congruence).
  split; [rewrite (FL _ _ _ _ _ C2); apply seq_length |]. split; [exact (FL _ _ _ _ _ R2) |].
  assert (N : forall A P (l : list A) (r : list R) d, Forall2 P l r -> forall i, (i < length l)%nat -> P (nth i l d) (nth i r 0)).
  { intros A P l r d H. induction H as [| a b l r hab H ih]; intros [| i] hi; simpl in *; try lia; [assumption |]. apply ih. lia. }
  split.
  { intros j hj. specialize (N _ _ _ _ 0%nat C2 j). rewrite seq_length, seq_nth in N by exact hj. apply B; [destruct rows; [easy | discriminate] | exact (N hj)]. }
  split.
  { intros i hi. specialize (N _ _ _ _ [] R2 i hi). apply B; [| exact N]. intro e. assert (hh := nth_In rows [] hi). specialize (h3 _ hh). rewrite e in h3. simpl in h3. lia. }
  intros be [-> | ->]; simpl; rewrite C1, R1; (do 4 (split; [reflexivity |])); intros [| [| a]] k ha; try lia; reflexivity.
Qed.

(** gnp.cov of a vector with rowvar=False *)
Theorem C140_cov : forall l, (2 <= length l)%nat ->
  np_cov_vec false 1 l = CNum (Fin (var1 l)) /\ np_cov_vec true 1 l = CNum (Fin (var1 l)) /\ torch_cov_vec true 1 l = CNum (Fin (var1 l)) /\
  torch_cov_vec false 1 l = CMat (repeat (repeat NaN (length l)) (length l)).
Proof.
  intros l hl. assert (hN : 2 <= INR (length l)) by (replace 2 with (INR 2) by reflexivity; apply le_INR; exact hl).
  assert (V : cov_entry 1 l l = Fin (var1 l)).
  { unfold cov_entry, var1. rewrite Rmax_right by lra. unfold fl_div, reqb. destruct (Req_EM_T _ 0); [lra |]. f_equal. f_equal. f_equal.
    generalize (mean_l l). intro m. clear. induction l as [| a l ih]; [reflexivity |]. simpl. f_equal. exact ih. }
  split; [unfold np_cov_vec; simpl; now rewrite V |]. split; [unfold np_cov_vec; simpl; now rewrite V |].
  split; [unfold torch_cov_vec; simpl; now rewrite V |].
  assert (E : forall a b, cov_entry 1 [a] [b] = NaN).
  { intros a b. unfold cov_entry, mean_l, sum_list. simpl.
    replace (0 + (a - (0 + a) / 1) * (b - (0 + b) / 1)) with 0 by (replace ((0 + a) / 1) with a by lra; replace ((0 + b) / 1) with b by lra; ring).
    replace (Rmax 0 (1 - 1)) with 0 by (rewrite Rmax_left; lra). unfold reqb, rltb. destruct (Req_EM_T 0 0); [| easy]. destruct (Rlt_dec 0 0); [lra | reflexivity]. }
  unfold torch_cov_vec, cov_rows. destruct l as [| a [| b l]]; [simpl in hl; lia | simpl in hl; lia |].
  set (L := a :: b :: l). change (map (fun v => [v]) L) with ([a] :: [b] :: map (fun v => [v]) l).
  cbv iota beta. change ([a] :: [b] :: map (fun v => [v]) l) with (map (fun v : R => [v]) L). f_equal.
  assert (G : forall (g : R -> list fl) (r : list fl) (k : list R), (forall v, g v = r) -> map g k = repeat r (length k)).
  { intros g r k h. induction k as [| v k ih]; [reflexivity |]. simpl. now rewrite h, ih. }
  rewrite map_map. apply G. intro u. rewrite map_map. generalize L. intro k. induction k as [| v k ih]; [reflexivity |]. simpl. now rewrite E, ih.
Qed.

(** Clipping integers *)
Lemma int_part_int k : Int_part (IZR k) = k.
Proof.
  destruct (base_Int_part (IZR k)) as [h1 h2]. apply le_IZR in h1.
  assert (h3 : IZR k < IZR (Int_part (IZR k) + 1)) by (rewrite plus_IZR; lra). apply lt_IZR in h3. lia.
Qed.
Lemma trunc_int k : trunc (IZR k) = k.
Proof.
  unfold trunc. destruct (Rle_dec 0 (IZR k)).
  - apply int_part_int.
  - rewrite <- opp_IZR, int_part_int. lia.
Qed.
Lemma trunc_below z r : r <= IZR z -> (trunc r <= z)%Z.
Proof.
  intro h. unfold trunc. destruct (Rle_dec 0 r) as [p | p].
  - destruct (base_Int_part r) as [h1 _]. apply le_IZR. lra.
  - destruct (base_Int_part (- r)) as [_ h2]. assert (hh : IZR (- z) < IZR (Int_part (- r) + 1)) by (rewrite plus_IZR, opp_IZR; lra). apply lt_IZR in hh. lia.
Qed.
Lemma trunc_above z r : IZR z <= r -> (z <= trunc r)%Z.
Proof.
  intro h. unfold trunc. destruct (Rle_dec 0 r) as [p | p].
  - destruct (base_Int_part r) as [_ h2]. assert (hh : IZR z < IZR (Int_part r + 1)) by (rewrite plus_IZR; lra). apply lt_IZR in hh. lia.
  - destruct (base_Int_part (- r)) as [h1 _]. assert (hh : IZR (Int_part (- r)) <= IZR (- z)) by (rewrite opp_IZR; lra). apply le_IZR in hh. lia.
Qed.
Definition integral (r : R) : Prop := exists k, r = IZR k.
Theorem C140_clip : forall z lo hi, lo <= hi ->
  torch_clip_float (IZR z) lo hi = np_clip (IZR z) lo hi /\ lo <= np_clip (IZR z) lo hi <= hi /\
  (IZR (torch_clip_int z lo hi) = np_clip (IZR z) lo hi <-> (IZR z < lo -> integral lo) /\ (hi < IZR z -> integral hi)) /\
  (0 < lo -> ~ integral lo -> IZR z < lo -> IZR (torch_clip_int z lo hi) < lo).
Proof.
  intros z lo hi h. split; [reflexivity |]. unfold np_clip.
  split; [unfold Rmin, Rmax; destruct (Rle_dec (IZR z) lo), (Rle_dec _ hi); lra |].
  assert (T : (trunc lo <= trunc hi)%Z).
  { unfold trunc. destruct (Rle_dec 0 lo) as [p | p], (Rle_dec 0 hi) as [q | q]; try lra.
    - destruct (base_Int_part lo) as [l1 l2], (base_Int_part hi) as [l3 l4].
      assert (hh : IZR (Int_part lo) < IZR (Int_part hi + 1)) by (rewrite plus_IZR; lra). apply lt_IZR in hh. lia.
    - destruct (base_Int_part (- lo)) as [l1 l2], (base_Int_part hi) as [l3 l4].
      assert (h1 : IZR (-1) < IZR (Int_part (- lo))) by lra. assert (h2 : IZR (-1) < IZR (Int_part hi)) by lra.
      apply lt_IZR in h1, h2. lia.
    - destruct (base_Int_part (- lo)) as [l1 l2], (base_Int_part (- hi)) as [l3 l4].
      assert (hh : IZR (Int_part (- hi)) < IZR (Int_part (- lo) + 1)) by (rewrite plus_IZR; lra). apply lt_IZR in hh. lia. }
  unfold torch_clip_int. split.
  - destruct (Rlt_dec (IZR z) lo) as [a | a]; [| destruct (Rlt_dec hi (IZR z)) as [b | b]].
    + rewrite Rmax_right, Rmin_left by lra. split.
      * intro e. split; [intros _; now eexists; symmetry; apply e | intro; lra].
      * intros [i _]. destruct (i a) as [k ->]. rewrite trunc_int. apply lt_IZR in a. assert (h' := trunc_above k hi h). f_equal. lia.
    + rewrite Rmax_left by lra. rewrite Rmin_right by lra. split.
      * intro e. split; [intro; lra | intros _; now eexists; symmetry; apply e].
      * intros [_ i]. destruct (i b) as [k ->]. rewrite trunc_int. apply lt_IZR in b. assert (h' := trunc_below k lo h). f_equal. lia.
    + rewrite Rmax_left by lra. rewrite Rmin_left by lra. split; [intros _; split; intro; lra |]. intros _.
      assert (h1 := trunc_below z lo ltac:(lra)). assert (h2 := trunc_above z hi ltac:(lra)). f_equal. lia.
  - intros p ni a. assert (e : trunc lo = Int_part lo) by (unfold trunc; destruct (Rle_dec 0 lo); [reflexivity | lra]).
    destruct (base_Int_part lo) as [l1 l2]. assert (l3 : IZR (Int_part lo) < lo) by (destruct l1 as [l1 | l1]; [exact l1 | exfalso; apply ni; now eexists; symmetry; apply l1]).
    assert (hz : (z <= trunc lo)%Z) by (apply trunc_above; lra).
    replace (Z.min (Z.max z (trunc lo)) (trunc hi)) with (trunc lo) by lia. rewrite e. exact l3.
Qed.

(** Splitting at boundaries.  The boundaries of the user: in order, within the array. *)
Fixpoint in_order (st len : nat) (bounds : list nat) : Prop :=
  match bounds with [] => (st <= len)%nat | b :: r => (st <= b)%nat /\ in_order b len r end.
Fixpoint gaps (st len : nat) (bounds : list nat) : list nat :=
  match bounds with [] => [(len - st)%nat] | b :: r => (b - st)%nat :: gaps b len r end.
Lemma in_order_le st len bounds : in_order st len bounds -> (st <= len)%nat.
Proof. revert st. induction bounds as [| b r ih]; simpl; intros st h; [exact h |]. destruct h as [h1 h2]. apply ih in h2. lia. Qed.
Lemma gaps_sum bounds : forall st len, in_order st len bounds -> (st + list_sum (gaps st len bounds))%nat = len.
Proof.
  induction bounds as [| b r ih]; simpl; intros st len h; [lia |]. destruct h as [h1 h2]. specialize (ih b len h2). lia.
Qed.
Lemma z_diff_gaps bounds : forall st len, in_order st len bounds ->
  z_diff (Z.of_nat st) (map Z.of_nat bounds) (Z.of_nat len) = map Z.of_nat (gaps st len bounds).
Proof.
  induction bounds as [| b r ih]; simpl; intros st len h; [f_equal; lia |]. destruct h as [h1 h2]. rewrite ih by exact h2. f_equal. lia.
Qed.
Lemma np_split_gaps A (l : list A) bounds : forall st, in_order st (length l) bounds ->
  np_split_from l st bounds = chop (skipn st l) (gaps st (length l) bounds).
Proof.
  induction bounds as [| b r ih]; simpl; intros st h.
  - rewrite firstn_all2; [reflexivity | rewrite skipn_length; lia].
  - destruct h as [h1 h2]. rewrite ih by exact h2. unfold py_slice. f_equal. rewrite skipn_skipn_add. f_equal. f_equal. lia.
Qed.
Lemma chop_length A sizes : forall l : list A, length (chop l sizes) = length sizes.
Proof. induction sizes as [| s r ih]; simpl; intro l; [reflexivity |]. now rewrite ih. Qed.
Lemma chop_concat A sizes : forall l : list A, list_sum sizes = length l -> concat (chop l sizes) = l.
Proof.
  induction sizes as [| s r ih]; simpl; intros l h; [destruct l; [reflexivity | discriminate] |].
  rewrite ih by (rewrite skipn_length; lia). apply firstn_skipn.
Qed.
Lemma gaps_length st len bounds : length (gaps st len bounds) = S (length bounds).
Proof. revert st. induction bounds as [| b r ih]; simpl; intro st; [reflexivity |]. now rewrite ih. Qed.

(** Torch takes the boundaries for sizes exactly when they add up to the length: one part less, cut elsewhere. *)
Theorem C140_split : forall A (l : list A) bounds, in_order 0 (length l) bounds ->
  exists parts, np_split l bounds = Some parts /\ concat parts = l /\ length parts = S (length bounds) /\
  (bounds = [] -> torch_split l bounds = None) /\
  (bounds <> [] -> list_sum bounds <> length l -> torch_split l bounds = Some parts) /\
  (bounds <> [] -> list_sum bounds = length l ->
     exists parts', torch_split l bounds = Some parts' /\ concat parts' = l /\ map (@length A) parts' = bounds /\ parts' <> parts).
Proof.
  intros A l bounds h. exists (chop l (gaps 0 (length l) bounds)). assert (GS := gaps_sum bounds 0 (length l) h). simpl in GS.
  split; [unfold np_split; f_equal; rewrite np_split_gaps by exact h; reflexivity |]. split; [now apply chop_concat |].
  split; [now rewrite chop_length, gaps_length |]. split; [intros ->; reflexivity |]. unfold torch_split. rewrite z_sum_nat. split.
  - intros ne s. destruct (map Z.of_nat bounds) eqn:E; [destruct bounds; [easy | discriminate] |]. rewrite <- E.
    destruct (Z.eqb_spec (Z.of_nat (list_sum bounds)) (Z.of_nat (length l))); [lia |]. unfold sizes_from_bounds.
    change 0%Z with (Z.of_nat 0). rewrite z_diff_gaps by exact h. now apply torch_split_sizes_ok.
  - intros ne s. exists (chop l bounds). destruct (map Z.of_nat bounds) eqn:E; [destruct bounds; [easy | discriminate] |]. rewrite <- E.
    rewrite s, Z.eqb_refl. split; [now apply torch_split_sizes_ok |]. split; [now apply chop_concat |]. split.
    + clear ne E h GS. revert l s. induction bounds as [| b r ih]; simpl; intros l s; [reflexivity |].
      rewrite firstn_length, ih by (rewrite skipn_length; lia). f_equal. lia.
    + intro e. apply (f_equal (@length _)) in e. rewrite !chop_length, gaps_length in e. lia.
Qed.

(** gnp.split(x, n): n parts on NumPy, parts of n elements on Torch *)
Lemma pieces_spec A n : (0 < n)%nat -> forall fuel (l : list A), (length l < fuel)%nat ->
  concat (pieces fuel l n) = l /\ (l <> [] -> (length l <= n * length (pieces fuel l n) /\ n * length (pieces fuel l n) < length l + n)%nat) /\
  (forall p, In p (pieces fuel l n) -> (length p <= n)%nat) /\
  (forall k, length l = (n * S k)%nat -> pieces fuel l n = chop l (repeat n (S k))).
Proof.
  intro hn. induction fuel as [| fuel ih]; intros l hl; [lia |]. cbn [pieces]. destruct (Nat.leb_spec (length l) n) as [h | h].
  - split; [simpl; apply app_nil_r |]. split; [intro ne; destruct l; [easy |]; simpl in *; lia |]. split; [intros p [<- | []]; exact h |].
    intros [| k] e; [| exfalso; nia]. simpl. rewrite firstn_all2 by lia. reflexivity.
  - destruct (ih (skipn n l)) as (i1 & i2 & i3 & i4); [rewrite skipn_length; lia |]. assert (SL := skipn_length n l).
    split; [simpl; rewrite i1; apply firstn_skipn |]. split.
    + intros _. assert (ne : skipn n l <> []) by (intro e; rewrite e in SL; simpl in SL; lia). specialize (i2 ne). cbn [length]. nia.
    + split; [intros p [<- | hp]; [rewrite firstn_length; lia | auto] |]. intros [| k] e; [lia |].
      cbn [repeat chop]. f_equal. apply i4. rewrite SL. nia.
Qed.
Theorem C140_split_int : forall A (l : list A) n, (0 < n)%nat -> l <> [] ->
  exists parts, torch_split_int l n = Some parts /\ concat parts = l /\ (forall p, In p parts -> (length p <= n)%nat) /\
  (length l <= n * length parts /\ n * length parts < length l + n)%nat /\
  (np_split_int l n = None <-> ~ Nat.divide n (length l)) /\
  (np_split_int l n = torch_split_int l n <-> length l = (n * n)%nat).
Proof.
  intros A l n hn ne. unfold torch_split_int. destruct (pieces_spec A n hn (S (length l)) l ltac:(lia)) as (p1 & p2 & p3 & p4).
  set (parts := pieces (S (length l)) l n) in *. exists parts. specialize (p2 ne).
  split; [reflexivity |]. split; [exact p1 |]. split; [exact p3 |]. split; [exact p2 |]. unfold np_split_int.
  destruct (Nat.eqb_spec (length l mod n) 0) as [e | e].
  - split; [split; [discriminate | intro h; exfalso; apply h; apply Nat.mod_divide; [lia | exact e]] |]. split.
    + intro h. injection h as h. apply (f_equal (@length _)) in h. rewrite chop_length, repeat_length in h. rewrite <- h in p2.
      apply Nat.mod_divide in e; [| lia]. destruct e as [k e]. clear - e p2 hn.
      rewrite e in *. assert (hk : k = n) by (destruct p2 as [q1 q2]; apply Nat.mul_le_mono_pos_r in q1; [| exact hn]; assert (n < k + 1)%nat by nia; lia). now rewrite hk.
    + intro h. f_equal. rewrite h, Nat.div_mul by lia. destruct n as [| n]; [lia |]. symmetry. apply p4. exact h.
  - split; [split; [intros _ h; apply e; apply Nat.mod_divide; [lia | exact h] | reflexivity] |].
    split; [discriminate |]. intro h. exfalso. apply e. rewrite h. apply Nat.mod_mul. lia.
Qed.

Print Assumptions C140_extremes.
Print Assumptions C140_axis.
Print Assumptions C140_cov.
Print Assumptions C140_clip.
Print Assumptions C140_split.
Print Assumptions C140_split_int.

(** boundaries 2 and 4 in six elements: three parts on NumPy, two on Torch *)
Example C140_case : in_order 0 (length [1; 2; 3; 4; 5; 6]) [2; 4]%nat /\
  np_split [1; 2; 3; 4; 5; 6] [2; 4]%nat = Some [[1; 2]; [3; 4]; [5; 6]] /\
  torch_split [1; 2; 3; 4; 5; 6] [2; 4]%nat = Some [[1; 2]; [3; 4; 5; 6]] /\
  torch_split [1; 2; 3; 4; 5; 6] [2; 5]%nat = Some [[1; 2]; [3; 4; 5]; [6]] /\
  wf (Mat 2 [[1; 4]; [3; 2]]) /\ torch_extreme least None false (Mat 2 [[1; 4]; [3; 2]]) <> np_extreme least None false (Mat 2 [[1; 4]; [3; 2]]) /\
  IZR (torch_clip_int 0 (3 / 2) 5) < 3 / 2.
Proof.
  split; [simpl; lia |]. split; [reflexivity |]. split; [reflexivity |]. split; [reflexivity |].
  split; [simpl; split; [discriminate | split; [lia | intros r [<- | [<- | []]]; reflexivity]] |]. split; [simpl; discriminate |].
  apply (C140_clip 0 (3 / 2) 5); try lra. intros [k hk]. assert (h : IZR (2 * k) = IZR 3) by (rewrite mult_IZR; lra). apply eq_IZR in h. lia.
Qed.
