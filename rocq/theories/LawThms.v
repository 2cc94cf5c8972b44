(** C137: the normal law and random choices in the two backends. *)
From Coq Require Import Reals List Arith Lra Lia Permutation.
From Coquelicot Require Import Coquelicot.
From Verif Require Import ConfigModel FlModel GaussProofs DiagModel LawModel.
Import ListNotations.
Local Open Scope R_scope.

Lemma rltb_lt a b : rltb a b = true <-> a < b.
Proof. unfold rltb; destruct (Rlt_dec a b); split; intro; (assumption || reflexivity || discriminate || contradiction). Qed.
Lemma np_pdf_npdf x loc scale : np_pdf x loc scale = npdf ((x - loc) / scale) / scale.
Proof. reflexivity. Qed.
Lemma torch_pdf_npdf x loc scale : torch_pdf x loc scale = npdf ((x - loc) / scale).
Proof.
  unfold torch_pdf, npdf, bell; cbv zeta. set (t := (x - loc) / scale).
  replace (- (1 / 2) * (t * t)) with (- (t * t / 2)) by field. unfold Rdiv; ring.
Qed.

Lemma law_derive (loc scale x : R) : 0 < scale -> is_derive (fun y => ncdf ((y - loc) / scale)) x (npdf ((x - loc) / scale) / scale).
Proof.
  intro hs.
  replace (npdf ((x - loc) / scale) / scale) with (scal (/ scale) (npdf ((x - loc) / scale))) by (unfold scal; cbn; unfold mult; cbn; unfold Rdiv; ring).
  apply (is_derive_comp ncdf (fun y => (y - loc) / scale)); [apply ncdf_derive |].
  auto_derive; [trivial | field; lra].
Qed.

Lemma law_cont (loc scale x : R) : 0 < scale -> continuous (fun y => npdf ((y - loc) / scale)) x.
Proof.
  intro hs. apply (continuous_comp (fun y => (y - loc) / scale) npdf).
  - apply (ex_derive_continuous (fun y => (y - loc) / scale)). auto_derive; trivial.
  - apply (ex_derive_continuous npdf). eexists; apply npdf_derive.
Qed.

Lemma law_int (loc scale a b : R) : 0 < scale ->
  is_RInt (fun y => npdf ((y - loc) / scale)) a b (scale * (ncdf ((b - loc) / scale) - ncdf ((a - loc) / scale))).
Proof.
  intro hs.
  replace (scale * (ncdf ((b - loc) / scale) - ncdf ((a - loc) / scale)))
    with (minus (scale * ncdf ((b - loc) / scale)) (scale * ncdf ((a - loc) / scale))) by (unfold minus, plus, opp; cbn; ring).
  apply (is_RInt_derive (fun y => scale * ncdf ((y - loc) / scale))).
  - intros x _.
    replace (npdf ((x - loc) / scale)) with (scale * (npdf ((x - loc) / scale) / scale)) by (field; lra).
    apply (is_derive_scal (fun y => ncdf ((y - loc) / scale)) x scale), law_derive, hs.
  - intros x _; apply law_cont, hs.
Qed.

(** gnp.normal.pdf of the NumPy backend is the density of the law whose distribution function is gnp.normal.cdf; that of the
    Torch backend is scale times it: its integral over an interval is scale times the probability of the interval, over the line
    it tends to scale, and it is the exponential of gnp.normal.logpdf only for scale 1.  The two logpdf agree. *)
Theorem C137_density loc scale : 0 < scale ->
  (forall x, is_derive (fun y => ncdf ((y - loc) / scale)) x (np_pdf x loc scale)) /\
  (forall a b, RInt (fun x => np_pdf x loc scale) a b = ncdf ((b - loc) / scale) - ncdf ((a - loc) / scale)) /\
  (forall a b, RInt (fun x => torch_pdf x loc scale) a b = scale * (ncdf ((b - loc) / scale) - ncdf ((a - loc) / scale))) /\
  is_lim (fun M => RInt (fun x => torch_pdf x loc scale) (loc - M) (loc + M)) p_infty scale /\
  (forall x, np_logpdf x loc scale = torch_logpdf x loc scale) /\
  (forall x, exp (torch_logpdf x loc scale) = np_pdf x loc scale) /\
  (forall x, exp (torch_logpdf x loc scale) = torch_pdf x loc scale <-> scale = 1).
Proof.
  intro hs.
  assert (J : forall a b, RInt (fun x => torch_pdf x loc scale) a b = scale * (ncdf ((b - loc) / scale) - ncdf ((a - loc) / scale))).
  { intros a b. apply is_RInt_unique. apply (is_RInt_ext (fun y => npdf ((y - loc) / scale))).
    - intros x _; symmetry; apply torch_pdf_npdf.
    - apply law_int, hs. }
  assert (L : forall x, np_logpdf x loc scale = torch_logpdf x loc scale).
  { intro x. unfold np_logpdf, torch_logpdf. pose proof PI_RGT_0 as hp.
    replace (ln (sqrt (2 * PI))) with (ln (2 * PI) / 2).
    - field; lra.
    - rewrite <- (sqrt_sqrt (2 * PI)) at 1 by lra. rewrite ln_mult by apply s2pi. field. }
  assert (E : forall x, exp (torch_logpdf x loc scale) = np_pdf x loc scale).
  { intro x. rewrite <- L. unfold np_logpdf, np_pdf. set (q := (x - loc) / scale * ((x - loc) / scale) / 2).
    pose proof PI_RGT_0 as hp.
    replace (- q - ln (2 * PI) / 2 - ln scale) with (- q + (- ln (sqrt (2 * PI)) + - ln scale)).
    - rewrite 2 exp_plus, (exp_Ropp (ln (sqrt (2 * PI)))), (exp_Ropp (ln scale)), (exp_ln scale hs), (exp_ln _ s2pi). unfold Rdiv; ring.
    - replace (ln (sqrt (2 * PI))) with (ln (2 * PI) / 2); [ring |].
      rewrite <- (sqrt_sqrt (2 * PI)) at 1 by lra. rewrite ln_mult by apply s2pi. field. }
  repeat match goal with |- _ /\ _ => split end; [| | exact J | | exact L | exact E |].
  - intro x; rewrite np_pdf_npdf; apply law_derive, hs.
  - intros a b. apply is_RInt_unique.
    replace (ncdf ((b - loc) / scale) - ncdf ((a - loc) / scale)) with (scal (/ scale) (scale * (ncdf ((b - loc) / scale) - ncdf ((a - loc) / scale))))
      by (unfold scal; cbn; unfold mult; cbn; field; lra).
    apply (is_RInt_ext (fun y => scal (/ scale) (npdf ((y - loc) / scale)))).
    + intros x _. rewrite np_pdf_npdf. unfold scal; cbn; unfold mult; cbn. unfold Rdiv; ring.
    + apply (is_RInt_scal (V := R_NormedModule)), law_int, hs.
  - apply (is_lim_ext (fun M => scale * (2 * ncdf (M / scale) - 1))).
    + intro M. rewrite J. replace (loc - M - loc) with (- M) by ring. replace (loc + M - loc) with M by ring.
      replace (- M / scale) with (- (M / scale)) by (field; lra). rewrite ncdf_sym; ring.
    + replace (Finite scale) with (Rbar_mult scale (Rbar_minus (Rbar_mult 2 1) 1)) by (cbn; f_equal; ring).
      apply is_lim_scal_l. apply is_lim_minus'; [| apply is_lim_const].
      apply (is_lim_scal_l (fun M => ncdf (M / scale)) 2 p_infty 1).
      apply (is_lim_comp ncdf (fun M => M / scale) p_infty 1 p_infty); [apply ncdf_lim_p | | exists 0; intros; discriminate].
      apply (is_lim_ext (fun M => / scale * M)); [intro; unfold Rdiv; ring |].
      replace p_infty with (Rbar_mult (/ scale) p_infty) at 2.
      * apply is_lim_scal_l, is_lim_id.
      * cbn. assert (0 < / scale) by (apply Rinv_0_lt_compat; lra).
        destruct (Rle_dec 0 (/ scale)) as [h | h]; [| lra]. destruct (Rle_lt_or_eq_dec 0 (/ scale) h); [reflexivity | lra].
  - intro x. rewrite E, torch_pdf_npdf, np_pdf_npdf. pose proof (npdf_pos ((x - loc) / scale)) as hp. split.
    + intro e. apply (Rmult_eq_reg_l (npdf ((x - loc) / scale) / scale)).
      * transitivity (npdf ((x - loc) / scale)); [field; lra | lra].
      * apply Rgt_not_eq, Rdiv_lt_0_compat; lra.
    + intros ->. field.
Qed.
Print Assumptions C137_density.

Lemma exp_40 : (5 / 2) ^ 40 <= exp 40.
Proof.
  assert (h : 5 / 2 <= exp 1).
  { pose proof (exp_ineq1 (1 / 8) ltac:(lra)) as h.
    replace 1 with (1/8 + 1/8 + 1/8 + 1/8 + 1/8 + 1/8 + 1/8 + 1/8) by field. rewrite !exp_plus.
    assert (9/8 <= exp (1/8)) as k by lra. set (e := exp (1/8)) in *. clearbody e.
    assert (81/64 <= e * e) by nra. assert (1.6 <= e * e * e * e) by nra.
    replace (e * e * e * e * e * e * e * e) with ((e * e * e * e) * (e * e * e * e)) by ring. nra. }
  replace 40 with (INR 40) by (simpl; ring). rewrite <- (Rmult_1_r (INR 40)).
  replace (exp (INR 40 * 1)) with (exp 1 ^ 40).
  - apply pow_incr; lra.
  - generalize 40%nat; intro m; induction m as [| n IH]; [rewrite Rmult_0_l, exp_0; reflexivity |].
    rewrite S_INR; cbn [pow]; rewrite IH, <- exp_plus; f_equal; ring.
Qed.

Lemma tail_9 t : t <= -9 -> 2 * ncdf t <= / 2 ^ 54.
Proof.
  intro h. assert (ncdf t <= ncdf (-9)).
  { destruct (Rle_lt_or_eq_dec _ _ h) as [l | ->]; [left; now apply ncdf_increasing | lra]. }
  pose proof (mills 9) as m. rewrite <- ncdf_sym in m.
  assert (hb : bell 9 <= / (5 / 2) ^ 40).
  { unfold bell. rewrite exp_Ropp. apply Rinv_le_contravar; [apply pow_lt; lra |].
    apply Rle_trans with (exp 40); [apply exp_40 | left; apply exp_increasing; lra]. }
  assert (hp : npdf 9 <= bell 9).
  { unfold npdf. pose proof (bell_pos 9). assert (1 <= sqrt (2 * PI)).
    { rewrite <- sqrt_1 at 1. apply sqrt_le_1; pose proof PI2_1; unfold PI2 in *; lra. }
    apply Rmult_le_reg_r with (sqrt (2 * PI)); [apply s2pi |]. unfold Rdiv. rewrite Rmult_assoc, Rinv_l by (pose proof s2pi; lra). nra. }
  replace (- (9)) with (-9) in m by lra.
  assert (2 / 9 * / (5 / 2) ^ 40 <= / 2 ^ 54).
  { apply Rmult_le_reg_r with ((5 / 2) ^ 40); [apply pow_lt; lra |]. rewrite Rmult_assoc, Rinv_l by (apply pow_nonzero; lra).
    apply Rmult_le_reg_l with (2 ^ 54); [apply pow_lt; lra |]. rewrite <- Rmult_assoc, Rmult_assoc, <- (Rmult_assoc (2 ^ 54) (/ 2 ^ 54)), Rinv_r by (apply pow_nonzero; lra). lra. }
  lra.
Qed.

(** gnp.normal.logcdf is a real number, at most 0, in exact arithmetic.  The Torch backend takes the logarithm of the rounded
    distribution function: from nine standard deviations below the mean, that is -inf, for any rounding that sends the
    numbers within 2^-54 of -1 to -1, as double precision does; with an exact distribution function the two agree. *)
Theorem C137_logcdf rnd x loc scale : 0 < scale ->
  np_logcdf x loc scale < 0 /\
  ((forall y, -1 <= y <= -1 + / 2 ^ 54 -> rnd y = -1) -> x <= loc - 9 * scale -> torch_logcdf rnd x loc scale = NInf) /\
  ((forall y, rnd y = y) -> torch_logcdf rnd x loc scale = Fin (np_logcdf x loc scale)).
Proof.
  intro hs. set (t := (x - loc) / scale). pose proof (ncdf_range t) as [r0 r1].
  split; [| split].
  - unfold np_logcdf. fold t. rewrite <- ln_1. apply ln_increasing; lra.
  - intros hr hx. unfold torch_logcdf, torch_cdf; cbv zeta; fold t.
    assert (ht : t <= -9).
    { unfold t. apply Rmult_le_reg_r with scale; [exact hs |]. unfold Rdiv. rewrite Rmult_assoc, Rinv_l by lra. lra. }
    pose proof (tail_9 t ht). rewrite hr by lra.
    destruct (Req_EM_T (1 / 2 * (1 + -1)) 0) as [_ | n]; [reflexivity | exfalso; apply n; ring].
  - intro hr. unfold torch_logcdf, torch_cdf, np_logcdf; cbv zeta; fold t. rewrite hr.
    replace (1 / 2 * (1 + (2 * ncdf t - 1))) with (ncdf t) by field.
    destruct (Req_EM_T (ncdf t) 0); [lra | reflexivity].
Qed.
Print Assumptions C137_logcdf.

(** Probability integral transforms: when all the variances are positive the Torch backend gives the values of the NumPy backend;
    a single variance that is zero or negative makes it raise, while NumPy marks that entry by NaN and keeps the others. *)
Theorem C137_pit z m v : List.length z = List.length v -> List.length m = List.length v ->
  ((forall y, In y v -> 0 < y) ->
     exists p, torch_pit (fun y => y) z m v = Some p /\ np_pit z m v = map Fin p /\ List.length p = List.length v) /\
  ((exists y, In y v /\ y <= 0) -> forall rnd, torch_pit rnd z m v = None) /\
  (forall i, (i < List.length v)%nat ->
     nth i (np_pit z m v) (Fin 0) =
     if Rle_dec (nth i v 0) 0 then NaN else Fin (ncdf ((nth i z 0 - nth i m 0) / sqrt (nth i v 0)))).
Proof.
  intros lz lm. split; [| split].
  - intro hv. eexists; split; [| split].
    + unfold torch_pit. replace (forallb _ _) with true; [reflexivity |]. symmetry. apply forallb_forall.
      intros s hs. apply in_map_iff in hs as (y & <- & hy). specialize (hv y hy).
      destruct (Rlt_dec 0 (sqrt (Rmax y 0))) as [| n]; [reflexivity | exfalso; apply n, sqrt_lt_R0, Rlt_le_trans with y; [exact hv | apply Rmax_l]].
    + unfold np_pit. rewrite map_map. apply map_ext_in. intros [[a b] y] hin. cbn [fst snd].
      apply in_combine_r in hin. specialize (hv y hin). unfold pit_one, norm_cdf.
      assert (0 < sqrt (Rmax y 0)) as hq by (apply sqrt_lt_R0, Rlt_le_trans with y; [exact hv | apply Rmax_l]).
      rewrite (proj2 (rltb_lt _ _) hq). f_equal. unfold torch_cdf. field.
    + rewrite map_length, !combine_length. lia.
  - intros (y & hy & h0) rnd. unfold torch_pit. replace (forallb _ _) with false; [reflexivity |]. symmetry.
    apply Bool.not_true_is_false. intro h. rewrite forallb_forall in h.
    specialize (h (sqrt (Rmax y 0)) (in_map (fun y => sqrt (Rmax y 0)) v y hy)).
    rewrite Rmax_right, sqrt_0 in h by exact h0. destruct (Rlt_dec 0 0); [lra | discriminate].
  - revert z m lz lm. induction v as [| y v IH]; intros [| a z] [| b m] lz lm i hi; cbn in *; try lia; try discriminate.
    destruct i as [| i]; [| apply IH; lia].
    unfold np_pit; cbn [combine map nth fst snd]. unfold pit_one, norm_cdf. destruct (Rle_dec y 0) as [h | h].
    + rewrite Rmax_right, sqrt_0 by exact h. destruct (rltb 0 0) eqn:e; [apply rltb_lt in e; lra | reflexivity].
    + rewrite Rmax_left by lra. rewrite (proj2 (rltb_lt 0 (sqrt y))); [reflexivity | apply sqrt_lt_R0; lra].
Qed.
Print Assumptions C137_pit.

Lemma nodup_app_l (A : Type) (l m : list A) : NoDup (l ++ m) -> NoDup l.
Proof.
  induction l as [| x l IH]; intro h; [constructor |]. inversion h as [| ? ? h1 h2]; subst. constructor; [| exact (IH h2)].
  intro hx; apply h1, in_or_app; left; exact hx.
Qed.

(** gnp.choice without replacement, perm being the permutation of the rows that was drawn: when there are enough rows both
    backends give size distinct rows of a; when there are not, NumPy raises and Torch gives all the rows, fewer than asked, without
    notice; without a size NumPy gives a row and Torch an array of one row. *)
Theorem C137_choice (A : Type) (a : list A) (d : A) k perm :
  Permutation perm (seq 0 (List.length a)) -> NoDup a ->
  ((k <= List.length a)%nat ->
     exists l, np_choice a (Some k) perm d = Some (Many l) /\ torch_choice a (Some k) perm d = Some (Many l) /\
               List.length l = k /\ NoDup l /\ incl l a) /\
  ((List.length a < k)%nat ->
     np_choice a (Some k) perm d = None /\
     exists l, torch_choice a (Some k) perm d = Some (Many l) /\ Permutation l a) /\
  (a <> [] -> exists x, In x a /\ np_choice a None perm d = Some (One x) /\ torch_choice a None perm d = Some (Many [x])).
Proof.
  intros hp hn. assert (lp : List.length perm = List.length a) by (rewrite (Permutation_length hp), seq_length; reflexivity).
  assert (hall : Permutation (map (fun i => nth i a d) perm) a).
  { rewrite (Permutation_map _ hp). clear.
    replace (map (fun i => nth i a d) (seq 0 (List.length a))) with a; [reflexivity |].
    induction a as [| x a IH]; [reflexivity |]; cbn [List.length seq map nth]; rewrite <- seq_shift, map_map; f_equal; exact IH. }
  assert (hnd : NoDup (map (fun i => nth i a d) perm)) by (apply (Permutation_NoDup (Permutation_sym hall) hn)).
  split; [| split].
  - intro hk. exists (map (fun i => nth i a d) (firstn k perm)). unfold np_choice, torch_choice.
    rewrite (proj2 (Nat.leb_le _ _) hk). split; [reflexivity |]. split; [reflexivity |].
    rewrite map_length, firstn_length, lp. split; [lia |].
    rewrite <- firstn_map. split.
    + rewrite <- (firstn_skipn k) in hnd. exact (nodup_app_l _ _ _ hnd).
    + intros x hx. apply (Permutation_in _ hall). rewrite <- (firstn_skipn k). apply in_or_app; left; exact hx.
  - intro hk. unfold np_choice, torch_choice. split.
    + destruct (Nat.leb_spec k (List.length a)); [lia | reflexivity].
    + eexists; split; [reflexivity |]. rewrite firstn_all2 by lia. exact hall.
  - intro ha. destruct perm as [| i perm]; [destruct a; [congruence | discriminate lp] |].
    exists (nth i a d). split; [| split; reflexivity].
    apply (Permutation_in _ hall). left; reflexivity.
Qed.
Print Assumptions C137_choice.

(** The mean given with a covariance matrix of size d: a number, or a vector of length d, is understood in the same way; a vector of
    length one with d > 1 is repeated by Torch and refused by NumPy; other lengths are refused by both. *)
Theorem C137_mean mu d : (2 <= d)%nat ->
  torch_mean mu d = np_mean mu d <-> (forall x, mu <> MVector [x]).
Proof.
  intro hd. destruct mu as [m | [| x [| y l]]]; cbn [torch_mean np_mean].
  - split; [intros _ x; discriminate | reflexivity].
  - split; [intros _ x; discriminate | intros _]. destruct (Nat.eqb_spec (List.length (@nil R)) d) as [e | e]; [cbn in e; lia | reflexivity].
  - split; [| intro h; exfalso; apply (h x); reflexivity]. destruct (Nat.eqb_spec (List.length [x]) d) as [e | e]; [cbn in e; lia | discriminate].
  - split; [intros _ z e; discriminate | reflexivity].
Qed.
Print Assumptions C137_mean.

Example C137_ex_mean : torch_mean (MVector [3]) 2 = Some [3; 3] /\ np_mean (MVector [3]) 2 = None.
Proof. split; reflexivity. Qed.
(** the density of Torch at the mean, for a standard deviation of 2, is twice that of the law *)
Example C137_ex_density : torch_pdf 0 0 2 = 2 * np_pdf 0 0 2 /\ exp (torch_logpdf 0 0 2) <> torch_pdf 0 0 2.
Proof.
  split; [rewrite torch_pdf_npdf, np_pdf_npdf; field |].
  destruct (C137_density 0 2 ltac:(lra)) as (_ & _ & _ & _ & _ & _ & h). rewrite (h 0). lra.
Qed.
(** a rounding that meets the hypothesis of C137_logcdf *)
Example C137_ex_logcdf : torch_logcdf (fun y => if Rle_dec y (-1 + / 2 ^ 54) then -1 else y) (-10) 0 1 = NInf.
Proof.
  apply (C137_logcdf _ (-10) 0 1 ltac:(lra)); [| lra]. intros y [_ h]. destruct (Rle_dec y (-1 + / 2 ^ 54)); [reflexivity | contradiction].
Qed.
Example C137_ex_pit : torch_pit (fun y => y) [0; 1] [0; 0] [1; 0] = None /\ exists p, np_pit [0; 1] [0; 0] [1; 0] = [Fin p; NaN].
Proof.
  destruct (C137_pit [0; 1] [0; 0] [1; 0] eq_refl eq_refl) as (_ & h & k). split.
  - apply h. exists 0. split; [right; left; reflexivity | lra].
  - pose proof (k 0%nat ltac:(cbn; lia)) as k0. pose proof (k 1%nat ltac:(cbn; lia)) as k1.
    unfold np_pit in *; cbn [combine map nth] in *. rewrite k0, k1.
    destruct (Rle_dec 1 0); [lra |]. destruct (Rle_dec 0 0); [| lra]. eexists; reflexivity.
Qed.
Example C137_ex_choice :
  np_choice [5; 6; 7]%nat (Some 4%nat) [2; 0; 1]%nat 0%nat = None /\
  torch_choice [5; 6; 7]%nat (Some 4%nat) [2; 0; 1]%nat 0%nat = Some (Many [7; 5; 6]%nat) /\
  np_choice [5; 6; 7]%nat (Some 2%nat) [2; 0; 1]%nat 0%nat = Some (Many [7; 5]%nat).
Proof. repeat split. Qed.
