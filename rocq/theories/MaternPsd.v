(* MaternPsd.v: the half-integer Matern kernel is positive semidefinite in every
   dimension.  The kernel is written as a limit of mixtures of Gaussian kernels
   over finite intervals. *)
From Coq Require Import Reals List Lia Lra Psatz.
From Coquelicot Require Import Coquelicot.
From Verif Require Import MaternModel MaternProofs.
Local Open Scope R_scope.

(* quadratic form of a kernel matrix on the indices below n *)
Definition quad (n : nat) (k : nat -> nat -> R) (c : nat -> R) : R :=
  rsum n (fun i => rsum n (fun j => c i * c j * k i j)).
Definition psd (n : nat) (k : nat -> nat -> R) : Prop := forall c, 0 <= quad n k c.

Lemma quad_ext n k l c : (forall i j, (i < n)%nat -> (j < n)%nat -> k i j = l i j) -> quad n k c = quad n l c.
Proof. intros H. apply rsum_ext; intros i Hi. apply rsum_ext; intros j Hj. now rewrite H. Qed.
Lemma psd_ext n k l : (forall i j, (i < n)%nat -> (j < n)%nat -> k i j = l i j) -> psd n k -> psd n l.
Proof. intros H P c. rewrite <- (quad_ext n k l c H). apply P. Qed.
Lemma quad_plus n k l c : quad n (fun i j => k i j + l i j) c = quad n k c + quad n l c.
Proof.
  unfold quad. rewrite <- rsum_plus. apply rsum_ext; intros i Hi.
  rewrite <- rsum_plus. apply rsum_ext; intros; ring.
Qed.
Lemma quad_scal n a k c : quad n (fun i j => a * k i j) c = a * quad n k c.
Proof.
  unfold quad. rewrite <- rsum_scal. apply rsum_ext; intros i Hi.
  rewrite <- rsum_scal. apply rsum_ext; intros; ring.
Qed.
Lemma psd_plus n k l : psd n k -> psd n l -> psd n (fun i j => k i j + l i j).
Proof. intros Hk Hl c. rewrite quad_plus. specialize (Hk c). specialize (Hl c). lra. Qed.
Lemma psd_scal n a k : 0 <= a -> psd n k -> psd n (fun i j => a * k i j).
Proof. intros Ha Hk c. rewrite quad_scal. specialize (Hk c). nra. Qed.
Lemma psd_one n : psd n (fun _ _ => 1).
Proof.
  intros c. unfold quad.
  rewrite (rsum_ext n _ (fun i => c i * rsum n c)).
  - rewrite rsum_scal_r. apply Rle_0_sqr.
  - intros i Hi. rewrite <- rsum_scal. apply rsum_ext; intros; ring.
Qed.
Lemma psd_diag n k u : psd n k -> psd n (fun i j => u i * u j * k i j).
Proof.
  intros Hk c. specialize (Hk (fun i => c i * u i)).
  replace (quad n (fun i j => u i * u j * k i j) c) with (quad n k (fun i => c i * u i)); [exact Hk|].
  apply rsum_ext; intros i Hi. apply rsum_ext; intros; ring.
Qed.
Lemma psd_sum n d (k : nat -> nat -> nat -> R) : (forall l, (l < d)%nat -> psd n (k l)) ->
  psd n (fun i j => rsum d (fun l => k l i j)).
Proof.
  induction d as [|d IH]; intros H.
  - intros c. unfold quad. simpl. rewrite (rsum_ext n _ (fun _ => 0)).
    + rewrite rsum_0; lra.
    + intros. rewrite (rsum_ext n _ (fun _ => 0)); [apply rsum_0|intros; ring].
  - simpl. apply psd_plus; [apply IH; intros; apply H; lia|apply H; lia].
Qed.

(* limits *)
Lemma is_lim_seq_rsum n (f : nat -> nat -> R) (l : nat -> R) :
  (forall i, (i < n)%nat -> is_lim_seq (f i) (l i)) ->
  is_lim_seq (fun m => rsum n (fun i => f i m)) (rsum n l).
Proof.
  induction n as [|n IH]; intros H; simpl; [apply is_lim_seq_const|].
  apply is_lim_seq_plus'; [apply IH; intros; apply H; lia|apply H; lia].
Qed.
Lemma psd_lim n (k : nat -> nat -> nat -> R) (l : nat -> nat -> R) :
  (forall m, psd n (k m)) ->
  (forall i j, (i < n)%nat -> (j < n)%nat -> is_lim_seq (fun m => k m i j) (l i j)) ->
  psd n l.
Proof.
  intros Hp Hl c.
  assert (L : is_lim_seq (fun m => quad n (k m) c) (quad n l c)).
  { unfold quad. apply is_lim_seq_rsum; intros i Hi.
    apply is_lim_seq_rsum; intros j Hj.
    apply (is_lim_seq_scal_l (fun m => k m i j) (c i * c j) (l i j)). now apply Hl. }
  assert (Z : is_lim_seq (fun _ => 0) 0) by apply is_lim_seq_const.
  exact (is_lim_seq_le _ _ _ _ (fun m => Hp m c) Z L).
Qed.

(* Gaussian kernels *)
Definition dot (d : nat) (x y : nat -> R) : R := rsum d (fun k => x k * y k).
Definition dist2 (d : nat) (x y : nat -> R) : R := rsum d (fun k => (x k - y k) ^ 2).

Lemma psd_hadamard_dot n d (x : nat -> nat -> R) k :
  psd n k -> psd n (fun i j => k i j * dot d (x i) (x j)).
Proof.
  intros Hk. apply psd_ext with (fun i j => rsum d (fun l => x i l * x j l * k i j)).
  - intros i j _ _. unfold dot. rewrite <- rsum_scal. apply rsum_ext; intros; ring.
  - apply psd_sum. intros l _. apply (psd_diag n k (fun i => x i l) Hk).
Qed.
Lemma psd_dot_pow n d (x : nat -> nat -> R) m : psd n (fun i j => dot d (x i) (x j) ^ m).
Proof.
  induction m as [|m IH]; [apply psd_one|].
  apply psd_ext with (fun i j => dot d (x i) (x j) ^ m * dot d (x i) (x j)).
  - intros; simpl; ring.
  - now apply psd_hadamard_dot.
Qed.
Lemma psd_exp_dot n d (x : nat -> nat -> R) a : 0 <= a -> psd n (fun i j => exp (a * dot d (x i) (x j))).
Proof.
  intros Ha.
  apply psd_lim with (fun m i j => rsum m (fun l => / INR (fact l) * (a * dot d (x i) (x j)) ^ l)).
  - intros m. apply psd_sum. intros l _.
    apply psd_ext with (fun i j => (/ INR (fact l) * a ^ l) * dot d (x i) (x j) ^ l).
    + intros; rewrite Rpow_mult_distr; ring.
    + apply psd_scal; [|apply psd_dot_pow].
      apply Rmult_le_pos; [left; apply Rinv_0_lt_compat, INR_fact_pos|now apply pow_le].
  - intros i j _ _. apply is_lim_seq_incr_1.
    assert (H := is_exp_Reals (a * dot d (x i) (x j))).
    apply is_pseries_R in H. apply is_lim_seq_Reals.
    assert (H2 : is_series (fun l => / INR (fact l) * (a * dot d (x i) (x j)) ^ l) (exp (a * dot d (x i) (x j)))) by exact H.
    apply is_series_Reals in H2. unfold infinite_sum in H2.
    intros eps He. destruct (H2 eps He) as [N HN]. exists N. intros m Hm.
    rewrite <- sum_f_R0_rsum. now apply HN.
Qed.
Lemma dist2_dot d x y : dist2 d x y = dot d x x + dot d y y - 2 * dot d x y.
Proof.
  unfold dist2, dot. rewrite <- rsum_scal. unfold Rminus.
  assert (E : - rsum d (fun i => 2 * (x i * y i)) = rsum d (fun i => (-1) * (2 * (x i * y i))))
    by (rewrite (rsum_scal d (-1)); ring).
  rewrite E, <- !rsum_plus. apply rsum_ext; intros; ring.
Qed.
Lemma psd_gauss n d (x : nat -> nat -> R) a : 0 <= a -> psd n (fun i j => exp (- (a * dist2 d (x i) (x j)))).
Proof.
  intros Ha.
  apply psd_ext with (fun i j => exp (- (a * dot d (x i) (x i))) * exp (- (a * dot d (x j) (x j)))
     * exp ((2 * a) * dot d (x i) (x j))).
  - intros. rewrite <- !exp_plus. f_equal. rewrite dist2_dot. ring.
  - apply (psd_diag n _ (fun i => exp (- (a * dot d (x i) (x i))))). apply psd_exp_dot. lra.
Qed.

(* integrals of positive semidefinite kernels *)
Lemma is_RInt_rsum n (f : nat -> R -> R) (l : nat -> R) a b :
  (forall i, (i < n)%nat -> is_RInt (f i) a b (l i)) ->
  is_RInt (fun t => rsum n (fun i => f i t)) a b (rsum n l).
Proof.
  induction n as [|n IH]; intros H; simpl.
  - assert (K := is_RInt_const (V := R_NormedModule) a b 0).
    unfold scal in K; simpl in K; unfold mult in K; simpl in K. rewrite Rmult_0_r in K. exact K.
  - apply (is_RInt_plus (V := R_NormedModule)); [apply IH; intros; apply H; lia|apply H; lia].
Qed.
Lemma psd_RInt n (k : R -> nat -> nat -> R) (l : nat -> nat -> R) a b : a <= b ->
  (forall t, a < t < b -> psd n (k t)) ->
  (forall i j, (i < n)%nat -> (j < n)%nat -> is_RInt (fun t => k t i j) a b (l i j)) ->
  psd n l.
Proof.
  intros Hab Hp Hi c.
  assert (I : is_RInt (fun t => quad n (k t) c) a b (quad n l c)).
  { unfold quad. apply is_RInt_rsum; intros i Li. apply is_RInt_rsum; intros j Lj.
    apply (is_RInt_scal (V := R_NormedModule) (fun t => k t i j)). now apply Hi. }
  assert (Z := is_RInt_const (V := R_NormedModule) a b 0).
  unfold scal in Z; simpl in Z; unfold mult in Z; simpl in Z. rewrite Rmult_0_r in Z.
  apply (is_RInt_le (fun _ => 0) (fun t => quad n (k t) c) a b); auto.
  intros t Ht. now apply Hp.
Qed.
