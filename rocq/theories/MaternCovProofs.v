(* MaternCovProofs.v: Matern covariance matrices (C38-C40). *)
From Coq Require Import Reals Lra.
From mathcomp Require Import all_ssreflect all_algebra ring perm.
From Verif Require Import LinAlg KrigModel Rinst LikModel MaternModel MaternProofs MaternPsd MaternPsd2
  MaternCov CholProofs LinQR KrigProofs KrigProofs2 LikProofs.
Set Implicit Arguments.
Unset Strict Implicit.
Unset Printing Implicit Defensive.
Import Order.TTheory GRing.Theory Num.Theory.
Local Open Scope ring_scope.
Local Arguments exp : clear scopes.
Local Arguments sqrt : clear scopes.
Bind Scope ring_scope with R.

Lemma big_rsum_nat n (f : nat -> R) : \sum_(i < n) f i = rsum n f.
Proof. by elim: n => [|n IH]; rewrite ?big_ord0 // big_ord_recr /= IH. Qed.
Lemma pow2E (t : R) : pow t 2 = t ^+ 2.
Proof. by rewrite expr2 /= Rmult_1_r. Qed.
Definition ext0 n (T : Type) (t0 : T) (f : 'I_n -> T) (i : nat) : T := oapp f t0 (insub i).
Lemma ext0E n T (t0 : T) (f : 'I_n -> T) (i : 'I_n) : ext0 t0 f i = f i.
Proof. by rewrite /ext0 valK. Qed.
Lemma big_rsum n (f : 'I_n -> R) : \sum_i f i = rsum n (ext0 0 f).
Proof. by rewrite -big_rsum_nat; apply: eq_bigr => i _; rewrite ext0E. Qed.

(* squared Euclidean distance of two rows *)
Definition sqdist n m d (x : 'M[R]_(n, d)) (y : 'M[R]_(m, d)) i j : R := \sum_k (x i k - y j k) ^+ 2.

Lemma sqdist_ge0 n m d (x : 'M[R]_(n, d)) (y : 'M[R]_(m, d)) i j : 0 <= sqdist x y i j.
Proof. by apply: sumr_ge0 => k _; exact: sqr_ge0. Qed.
Lemma sqdist_expand n m d (x : 'M[R]_(n, d)) (y : 'M[R]_(m, d)) i j :
  \sum_k x i k ^+ 2 + \sum_k y j k ^+ 2 - 2%:R * (x *m y^T) i j = sqdist x y i j.
Proof.
rewrite /sqdist !mxE mulr_sumr -big_split -sumrB; apply: eq_bigr => k _ /=.
by rewrite mxE sqrrB -mulr_natl; ring.
Qed.
Lemma sqdist_sym n m d (x : 'M[R]_(n, d)) (y : 'M[R]_(m, d)) i j : sqdist x y i j = sqdist y x j i.
Proof. by apply: eq_bigr => k _; rewrite -sqrrN opprB. Qed.
Lemma sqdist_xx n d (x : 'M[R]_(n, d)) i : sqdist x x i i = 0.
Proof. by rewrite /sqdist big1 // => k _; rewrite subrr expr0n. Qed.
Lemma custom_sqrtE (x : R) : custom_sqrt x = sqrt x.
Proof. by rewrite /custom_sqrt; case: eqP => // ->; rewrite sqrt_0. Qed.

Lemma cdist_torch_eq n m d (x : 'M[R]_(n, d)) (y : 'M[R]_(m, d)) : cdist_torch false x y = cdist_np x y.
Proof.
apply/matrixP => i j; rewrite [LHS]mxE [RHS]mxE /= sqdist_expand custom_sqrtE.
by rewrite max_l // sqdist_ge0.
Qed.
Lemma cdist_torch_same n d (x : 'M[R]_(n, d)) : cdist_torch true x x = cdist_np x x.
Proof.
apply/matrixP => i j; rewrite [LHS]mxE [RHS]mxE /= sqdist_expand custom_sqrtE.
case: eqP => [/val_inj <-|_]; last by rewrite max_l // sqdist_ge0.
by rewrite -/(sqdist x x i i) sqdist_xx sqrt_0.
Qed.
Lemma scaled_same b n d l (x : 'M[R]_(n, d)) :
  scaled_distance b true l x x = cdist_np (scale_rows l x) (scale_rows l x).
Proof. by case: b => //; exact: cdist_torch_same. Qed.
Lemma scaled_cross b n m d l (x : 'M[R]_(n, d)) (y : 'M[R]_(m, d)) :
  scaled_distance b false l x y = cdist_np (scale_rows l x) (scale_rows l y).
Proof. by case: b => //; exact: cdist_torch_eq. Qed.

(* the kernel matrix without nugget *)
Definition kern_mx p n m d (x : 'M[R]_(n, d)) (y : 'M[R]_(m, d)) : 'M[R]_(n, m) :=
  \matrix_(i, j) maternp_kernel p (sqrt (sqdist x y i j)).

Lemma kern_sym p n d (x : 'M[R]_(n, d)) : symmetric (kern_mx p x x).
Proof. by apply/matrixP => i j; rewrite !mxE sqdist_sym. Qed.

Lemma kern_psd p n d (x : 'M[R]_(n, d)) : pos_semidef (kern_mx p x x).
Proof.
split; first exact: kern_sym.
move=> c; rewrite /qform bilinE.
pose X (i : nat) (k : nat) : R := ext0 (fun _ => 0) (fun i => ext0 0 (fun k => x i k)) i k.
have H := matern_psd p n d X (ext0 0 (fun i => c i 0)).
apply/leRP; move: H; rewrite /quad.
set a := rsum _ _ => H; suff -> : \sum_i \sum_j c i 0 * kern_mx p x x i j * c j 0 = a by [].
rewrite /a -big_rsum_nat; apply: eq_bigr => i _.
rewrite -big_rsum_nat; apply: eq_bigr => j _.
rewrite !ext0E mxE.
suff -> : sqdist x x i j = dist2 d (X i) (X j).
  have e (u v w : R) : u * w * v = u * v * w by ring.
  exact: e.
rewrite /dist2 -big_rsum_nat; apply: eq_bigr => k _.
by rewrite /X !ext0E pow2E.
Qed.

Lemma kern_diag p n d (x : 'M[R]_(n, d)) i : kern_mx p x x i i = 1.
Proof. by rewrite mxE sqdist_xx sqrt_0 kernel_at_0. Qed.

Section Cov.
Variables (b : backend) (p d : nat) (param : 'rV[R]_(1 + d)).
Notation s2 := (mat_sigma2 param).
Notation l := (mat_loginvrho param).
Notation nug := (mat_nugget param).
Notation Kii := (maternp_covariance_ii b p param).
Notation Kit := (maternp_covariance_it b p param).

Lemma s2_gt0 : 0 < s2. Proof. by apply/ltRP; exact: exp_pos. Qed.
Lemma eps_gt0 : 0 < float_eps. Proof. by rewrite invr_gt0 exprn_gt0 // ltr0n. Qed.
Lemma nug_gt0 : 0 < nug.
Proof. by rewrite !mulr_gt0 ?s2_gt0 ?eps_gt0 ?ltr0n. Qed.

Lemma KiiE n (x : 'M[R]_(n, d)) :
  Kii x = s2 *: kern_mx p (scale_rows l x) (scale_rows l x) + nug%:M.
Proof.
rewrite /maternp_covariance_ii scaled_same; congr (_ + _).
by apply/matrixP => i j; rewrite !mxE.
Qed.
Lemma KitE n m (x : 'M[R]_(n, d)) (y : 'M[R]_(m, d)) :
  Kit x y = s2 *: kern_mx p (scale_rows l x) (scale_rows l y).
Proof. by rewrite /maternp_covariance_it scaled_cross; apply/matrixP => i j; rewrite !mxE. Qed.

Lemma cov_ii_sym n (x : 'M[R]_(n, d)) : symmetric (Kii x).
Proof. by rewrite /symmetric KiiE linearD linearZ /= kern_sym tr_scalar_mx. Qed.
Lemma cov_ii_diag n (x : 'M[R]_(n, d)) i : Kii x i i = s2 + nug.
Proof. by rewrite KiiE mxE [X in X + _]mxE kern_diag mulr1 mxE eqxx mulr1n. Qed.
Lemma cov_ii_off n (x : 'M[R]_(n, d)) i j : i != j -> Kii x i j = Kit x x i j.
Proof. by move=> /negbTE ij; rewrite KiiE KitE mxE [X in _ + X]mxE ij mulr0n addr0. Qed.
Lemma cov_ii_it n (x : 'M[R]_(n, d)) : Kii x = Kit x x + nug%:M.
Proof. by rewrite KiiE KitE. Qed.
Lemma cov_pw n (x : 'M[R]_(n, d)) i : maternp_covariance_ii_pw param x 0 i = s2.
Proof. by rewrite mxE mulr1. Qed.
Lemma elementwise_dist n (x y : 'M[R]_(n, d)) i :
  scaled_distance_elementwise l x y 0 i = scaled_distance b false l x y i i.
Proof.
rewrite scaled_cross !mxE; congr sqrt; apply: eq_bigr => k _.
by rewrite !mxE mulrBr.
Qed.
Lemma cov_it_pw n (x y : 'M[R]_(n, d)) i : maternp_covariance_it_pw p param x y 0 i = Kit x y i i.
Proof. by rewrite [LHS]mxE elementwise_dist [RHS]mxE. Qed.
Lemma cov_it_sym n m (x : 'M[R]_(n, d)) (y : 'M[R]_(m, d)) : (Kit x y)^T = Kit y x.
Proof. by rewrite !KitE linearZ; congr (_ *: _); apply/matrixP => i j; rewrite !mxE sqdist_sym. Qed.
Lemma cov_it_same n m (x : 'M[R]_(n, d)) (y : 'M[R]_(m, d)) i j :
  row i x = row j y -> Kit x y i j = s2.
Proof.
move=> e; rewrite KitE mxE mxE.
have -> : sqdist (scale_rows l x) (scale_rows l y) i j = 0.
  rewrite /sqdist big1 // => k _; rewrite !mxE.
  have -> : x i k = y j k by move/matrixP/(_ 0 k): e; rewrite !mxE.
  by rewrite subrr expr0n.
by rewrite sqrt_0 kernel_at_0 mulr1.
Qed.

Lemma sqdist_gt0 n m (x : 'M[R]_(n, d)) (y : 'M[R]_(m, d)) i j :
  row i x != row j y -> 0 < sqdist (scale_rows l x) (scale_rows l y) i j.
Proof.
move=> ne; rewrite lt_neqAle sqdist_ge0 andbT; apply/negP => /eqP e.
case/eqP: ne; apply/rowP => k; rewrite !mxE.
move/esym/eqP: e; rewrite psumr_eq0; last by move=> k' _; exact: sqr_ge0.
move=> /allP /(_ k); rewrite mem_index_enum => /(_ isT); rewrite /= sqrf_eq0 !mxE -mulrBr mulf_eq0.
by case/orP => [/eqP e|]; [have := exp_pos (param 0 (rshift 1 k)); rewrite e => /Rlt_irrefl | rewrite subr_eq0 => /eqP].
Qed.
Lemma cov_it_range n m (x : 'M[R]_(n, d)) (y : 'M[R]_(m, d)) i j : 0 < Kit x y i j <= s2.
Proof.
rewrite KitE mxE mxE; set h := sqrt _; have h0 : Rle (IZR 0) h by exact: sqrt_pos.
have /ltRP k0 := kernel_pos p h h0; have /leRP k1 := kernel_le_1 p h h0.
by rewrite mulr_gt0 ?s2_gt0 //= ler_pimulr // ltW // s2_gt0.
Qed.
Lemma cov_it_lt n m (x : 'M[R]_(n, d)) (y : 'M[R]_(m, d)) i j :
  row i x != row j y -> Kit x y i j < s2.
Proof.
move=> /sqdist_gt0 /ltRP h; rewrite KitE mxE mxE; have h1 := sqrt_lt_R0 _ h.
have := kernel_decreasing p (IZR 0) _ (conj (Rle_refl _) h1).
rewrite kernel_at_0 => /ltRP h2.
by rewrite -[X in _ < X]mulr1 ltr_pmul2l // s2_gt0.
Qed.

(* positive definiteness *)
Lemma psd_add_scalar n (A : 'M[R]_n) (e : R) : pos_semidef A -> 0 < e -> pos_def (A + e%:M).
Proof.
move=> [sA pA] e0; split; first by rewrite /symmetric linearD /= sA tr_scalar_mx.
move=> x xn; rewrite /qform bilin_addm -[e%:M]scalemx1 bilin_scalem.
apply: ltr_paddl; first exact: pA.
by apply: mulr_gt0 => //; exact: (pos_def1 _ n).2.
Qed.
Lemma psd_scale n (A : 'M[R]_n) (e : R) : pos_semidef A -> 0 <= e -> pos_semidef (e *: A).
Proof.
move=> [sA pA] e0; split; first by rewrite /symmetric linearZ /= sA.
by move=> x; rewrite /qform bilin_scalem; apply: mulr_ge0 => //; exact: pA.
Qed.
Lemma cov_ii_pd n (x : 'M[R]_(n, d)) : pos_def (Kii x).
Proof.
rewrite KiiE; apply: psd_add_scalar; last exact: nug_gt0.
by apply: psd_scale; [exact: kern_psd | exact: ltW s2_gt0].
Qed.

Lemma scale_col n m (x : 'M[R]_(n, d)) (y : 'M[R]_(m, d)) :
  scale_rows l (col_mx x y) = col_mx (scale_rows l x) (scale_rows l y).
Proof.
apply/matrixP => i k; rewrite [LHS]mxE [RHS]mxE [col_mx x y _ _]mxE.
by case: split => i'; rewrite [RHS]mxE.
Qed.
Lemma kern_block n m (x : 'M[R]_(n, d)) (y : 'M[R]_(m, d)) :
  kern_mx p (col_mx x y) (col_mx x y) =
  block_mx (kern_mx p x x) (kern_mx p x y) (kern_mx p x y)^T (kern_mx p y y).
Proof.
apply/matrixP => i j; rewrite [LHS]mxE [RHS]mxE.
have e (i' : 'I_(n + m)) k : col_mx x y i' k = match split i' with inl a => x a k | inr a => y a k end.
  by rewrite mxE; case: split.
have es : sqdist (col_mx x y) (col_mx x y) i j =
  match split i, split j with
  | inl a, inl a' => sqdist x x a a' | inl a, inr a' => sqdist x y a a'
  | inr a, inl a' => sqdist x y a' a | inr a, inr a' => sqdist y y a a' end.
  rewrite /sqdist; under eq_bigr => k _ do rewrite !e.
  case: (split i) => a; case: (split j) => a' //.
  by apply: eq_bigr => k _; rewrite -sqrrN opprB.
by rewrite es; case: (split i) => a; rewrite [RHS]mxE; case: (split j) => a'; rewrite !mxE.
Qed.

Lemma joint0_psd n m (x : 'M[R]_(n, d)) (y : 'M[R]_(m, d)) :
  pos_semidef (joint (Kit x x) (Kit x y) (Kit y y)).
Proof.
have -> : joint (Kit x x) (Kit x y) (Kit y y) = s2 *: kern_mx p (scale_rows l (col_mx x y)) (scale_rows l (col_mx x y)).
  by rewrite scale_col kern_block scale_block_mx -!KitE -linearZ /= -KitE.
by apply: psd_scale; [exact: kern_psd | exact: ltW s2_gt0].
Qed.
Lemma psd_add n (A B : 'M[R]_n) : pos_semidef A -> pos_semidef B -> pos_semidef (A + B).
Proof.
move=> [sA pA] [sB pB]; split; first by rewrite /symmetric linearD /= sA sB.
by move=> x; rewrite /qform bilin_addm addr_ge0 //; [exact: pA | exact: pB].
Qed.
Lemma psd1 n : pos_semidef (1%:M : 'M[R]_n).
Proof. by apply: pd_psd; exact: pos_def1. Qed.
Lemma joint_psd n m (x : 'M[R]_(n, d)) (y : 'M[R]_(m, d)) :
  pos_semidef (joint (Kii x) (Kit x y) (Kii y)).
Proof.
have -> : joint (Kii x) (Kit x y) (Kii y) = joint (Kit x x) (Kit x y) (Kit y y) + nug%:M.
  by rewrite /joint !cov_ii_it (scalar_mx_block n m nug) add_block_mx !addr0.
by apply: psd_add; [exact: joint0_psd | rewrite -scalemx1; apply: psd_scale (psd1 _) (ltW nug_gt0)].
Qed.

(* zero-mean kriging with this covariance *)
Lemma krig_matern n m (x : 'M[R]_(n, d)) (y : 'M[R]_(m, d)) :
  exists lam v,
    kriging_predictor_with_zero_mean (Kii x) (Kit x y) (matern_tt b p param y) 0 = Ok (lam, PVVar v) /\
    forall j, [/\ 0 < v 0 j, v 0 j <= s2
      & forall i, row i x = row j y -> v 0 j <= nug].
Proof.
have pd := cov_ii_pd x.
exists (zm_lambda (Kii x) (Kit x y)); eexists; split; first exact: krig_zero_ok.
move=> j; rewrite rsubE /= cov_pw; set lam := zm_lambda _ _.
have E w := zm_mse (Kit x y) (Kit y y) w j pd.
have E1 : s2 - einsum_ii lam (Kit x y) 0 j = Kit y y j j - einsum_ii lam (Kit x y) 0 j.
  by rewrite (@cov_it_same _ _ y y j j).
have le w : s2 - einsum_ii lam (Kit x y) 0 j <= mse (joint (Kii x) (Kit x y) (Kit y y)) w j.
  by rewrite E E1 ler_addl; apply: (pd_psd pd).2.
split.
- have := E (col j lam); rewrite subrr qform0 addr0 -E1 => <-.
  have -> : joint (Kii x) (Kit x y) (Kit y y) =
            joint (Kit x x) (Kit x y) (Kit y y) + block_mx nug%:M 0 0 0.
    by rewrite /joint cov_ii_it add_block_mx !addr0.
  rewrite /mse /qform bilin_addm -/(qform _ _).
  have e2 : bilin (block_mx nug%:M 0 0 (0 : 'M[R]_m)) (col_mx (- col j lam) (delta_mx j 0))
      (col_mx (- col j lam) (delta_mx j 0)) = nug * qform 1%:M (col j lam).
    rewrite /bilin tr_col_mx mul_row_block !mulmx0 !addr0 mul_row_col mul0mx addr0.
    rewrite -[nug%:M]scalemx1 -scalemxAr -scalemxAl mxE; congr (_ * _).
    by rewrite -/(bilin _ _ _) -/(qform _ _) qformN.
  rewrite e2; have p1 := (joint0_psd x y).2.
  case: (eqVneq (col j lam) 0) => [l0|ln0].
    rewrite l0 qform0 mulr0 addr0 oppr0.
    have -> : qform (joint (Kit x x) (Kit x y) (Kit y y)) (col_mx 0 (delta_mx j 0)) = s2.
      rewrite /qform /bilin /joint tr_col_mx mul_row_block trmx0 !mul0mx !add0r mul_row_col mulmx0 add0r.
      by rewrite -/(bilin _ _ _) -/(qform _ _) qform_delta (@cov_it_same _ _ y y j j).
    exact: s2_gt0.
  by apply: ltr_paddl (p1 _) (mulr_gt0 nug_gt0 _); exact: (pos_def1 _ n).2.
- apply: le_trans (le 0) _; rewrite mseE qform0 (@cov_it_same _ _ y y j j) //.
  have -> : bilin 1%:M 0 (col j (Kit x y)) = 0 by rewrite /bilin trmx0 !mul0mx mxE.
  by rewrite mulr0 subr0 addr0.
- move=> i e; apply: le_trans (le (delta_mx i 0)) _.
  rewrite mseE qform_delta cov_ii_diag (@cov_it_same _ _ y y j j) //.
  have -> : bilin 1%:M (delta_mx i 0) (col j (Kit x y)) = s2.
    by rewrite /bilin mulmx1 trmx_delta -rowE [LHS]mxE [LHS]mxE (@cov_it_same _ _ x y i j).
  have h (u v : R) : u - 2%:R * u + (u + v) = v by ring.
  by rewrite h.
Qed.

(* universal kriging with a full-rank trend: always well posed *)
Lemma uk_matern n q m (x : 'M[R]_(n, d)) (y : 'M[R]_(m, d)) (P : 'M[R]_(n, q)) (Pt : 'M[R]_(m, q)) :
  full_col_rank P ->
  exists lam v,
    kriging_predictor_block (Kii x) P (Kit x y) Pt (matern_tt b p param y) 0 = Ok (lam, PVVar v) /\
    forall j, 0 < v 0 j.
Proof.
move=> fr.
have [l0 [v0 [l1 [v1 [e0 e1 le]]]]] := uk_var_ge_zm (Kit x y) Pt (matern_tt b p param y) (cov_ii_pd x) fr.
exists l1, v1; split=> // j; apply: lt_le_trans (le j).
have [l2 [v2 [e2 h]]] := krig_matern x y.
by move: e0; rewrite e2 => -[_ <-]; case: (h j).
Qed.

(* invariance: translation *)
Definition shift_rows n (t : 'rV[R]_d) (x : 'M[R]_(n, d)) : 'M[R]_(n, d) := \matrix_(i, k) (x i k + t 0 k).
Lemma sqdist_shift n m t (x : 'M[R]_(n, d)) (y : 'M[R]_(m, d)) i j :
  sqdist (scale_rows l (shift_rows t x)) (scale_rows l (shift_rows t y)) i j =
  sqdist (scale_rows l x) (scale_rows l y) i j.
Proof.
apply: eq_bigr => k _; congr (_ ^+ 2); rewrite !mxE.
have h (e a c u : R) : e * (a + u) - e * (c + u) = e * a - e * c by ring.
exact: h.
Qed.
Lemma kern_shift n m t (x : 'M[R]_(n, d)) (y : 'M[R]_(m, d)) :
  kern_mx p (scale_rows l (shift_rows t x)) (scale_rows l (shift_rows t y)) =
  kern_mx p (scale_rows l x) (scale_rows l y).
Proof. by apply/matrixP => i j; rewrite [LHS]mxE [RHS]mxE sqdist_shift. Qed.
Lemma cov_shift n m t (x : 'M[R]_(n, d)) (y : 'M[R]_(m, d)) :
  Kit (shift_rows t x) (shift_rows t y) = Kit x y /\ Kii (shift_rows t x) = Kii x.
Proof. by rewrite !KitE !KiiE !kern_shift. Qed.
End Cov.

(* rescaling the axes, with the length scales *)
Definition stretch n d (a : 'rV[R]_d) (x : 'M[R]_(n, d)) : 'M[R]_(n, d) := \matrix_(i, k) (a 0 k * x i k).
Definition mkparam d (ls2 : R) (l : 'rV[R]_d) : 'rV[R]_(1 + d) := row_mx (ls2%:M) l.
Lemma mkparam_s2 d (u : R) (l : 'rV[R]_d) : mat_sigma2 (mkparam u l) = exp u.
Proof. by rewrite /mat_sigma2 /mkparam row_mxEl mxE eqxx mulr1n. Qed.
Lemma mkparam_l d (u : R) (l : 'rV[R]_d) : mat_loginvrho (mkparam u l) = l.
Proof. by rewrite /mat_loginvrho /mkparam row_mxKr. Qed.

Lemma scale_stretch n d (a l : 'rV[R]_d) (x : 'M[R]_(n, d)) : (forall k, 0 < a 0 k) ->
  scale_rows (\row_k (l 0 k - ln (a 0 k))) (stretch a x) = scale_rows l x.
Proof.
move=> a0; apply/matrixP => i k; rewrite !mxE.
have -> : exp (l 0 k - ln (a 0 k)) = exp (l 0 k) / a 0 k.
  have /ltRP h := a0 k.
  rewrite [exp _]exp_plus exp_Ropp exp_ln // Rinv_ring // gt_eqF //; exact: a0.
by rewrite mulrA divfK // gt_eqF.
Qed.
Lemma cov_stretch b p d (u : R) (a l : 'rV[R]_d) n m (x : 'M[R]_(n, d)) (y : 'M[R]_(m, d)) :
  (forall k, 0 < a 0 k) ->
  let param := mkparam u l in
  let param' := mkparam u (\row_k (l 0 k - ln (a 0 k))) in
  maternp_covariance_it b p param' (stretch a x) (stretch a y) = maternp_covariance_it b p param x y /\
  maternp_covariance_ii b p param' (stretch a x) = maternp_covariance_ii b p param x.
Proof.
move=> a0 param param'.
by rewrite !KitE !KiiE /mat_nugget !mkparam_s2 !mkparam_l !scale_stretch.
Qed.
Lemma cov_sigma2 b p d (u c : R) (l : 'rV[R]_d) n m (x : 'M[R]_(n, d)) (y : 'M[R]_(m, d)) : 0 < c ->
  [/\ maternp_covariance_it b p (mkparam (u + ln c) l) x y = c *: maternp_covariance_it b p (mkparam u l) x y,
      maternp_covariance_ii b p (mkparam (u + ln c) l) x = c *: maternp_covariance_ii b p (mkparam u l) x
    & maternp_covariance_ii_pw (mkparam (u + ln c) l) x = c *: maternp_covariance_ii_pw (mkparam u l) x].
Proof.
move=> /ltRP c0; have e : exp (u + ln c) = c * exp u by rewrite [exp _]exp_plus exp_ln // Rmult_comm.
rewrite !KitE !KiiE /mat_nugget !mkparam_s2 !mkparam_l e; split.
- by rewrite scalerA.
- rewrite scalerDr scalerA scale_scalar_mx; congr (_ + _%:M).
  by have h (q w z t : R) : q * (w * z) * t = w * (q * z * t) by ring.
- by apply/rowP => i; rewrite !mxE !mkparam_s2 e mulrA.
Qed.
(* renaming the coordinates together with their length scales *)
Lemma cov_perm_coords b p d (s : {perm 'I_d}) (u : R) (l : 'rV[R]_d) n m (x : 'M[R]_(n, d)) (y : 'M[R]_(m, d)) :
  maternp_covariance_it b p (mkparam u (col_perm s l)) (col_perm s x) (col_perm s y) =
    maternp_covariance_it b p (mkparam u l) x y /\
  maternp_covariance_ii b p (mkparam u (col_perm s l)) (col_perm s x) = maternp_covariance_ii b p (mkparam u l) x.
Proof.
rewrite !KitE !KiiE /mat_nugget !mkparam_s2 !mkparam_l.
have E n' m' (x' : 'M[R]_(n', d)) (y' : 'M[R]_(m', d)) :
  kern_mx p (scale_rows (col_perm s l) (col_perm s x')) (scale_rows (col_perm s l) (col_perm s y')) =
  kern_mx p (scale_rows l x') (scale_rows l y').
  apply/matrixP => i j; rewrite [LHS]mxE [RHS]mxE; congr (maternp_kernel p (sqrt _)).
  rewrite /sqdist [RHS](reindex_inj (@perm_inj _ s)); apply: eq_bigr => k _.
  by rewrite !mxE.
by rewrite !E.
Qed.
