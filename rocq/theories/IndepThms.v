(* IndepThms.v
   Property C127: groups of observations that are not correlated with each other. *)
From Coq Require Import Reals.
From mathcomp Require Import all_ssreflect all_fingroup all_algebra ring.
From Verif Require Import LinAlg KrigModel RealAux Rinst LikModel CholProofs LinQR KrigProofs KrigProofs2 KrigProofs3 LooProofs
  PathProofs LikProofs OrderModel OrderProofs UpdProofs UpdThms InfoProofs InfoThms LinkProofs LinkThms NormProofs NormThms FishThms FarThms.
Set Implicit Arguments.
Unset Strict Implicit.
Unset Printing Implicit Defensive.
Import Order.TTheory GRing.Theory Num.Theory.
Local Open Scope ring_scope.
Local Arguments ln : clear scopes.
Local Notation RR := R_rcfType.

Section Indep.
Variables (R : rcfType) (X : Type) (q : nat).

(* the observations outside of the group f are uncorrelated with those of the group *)
Definition cut n k (c : kernel R X) (x : 'I_n -> X) (f : 'I_k -> 'I_n) : Prop :=
  forall i, (forall a, f a != i) -> forall a, kfun c (x i) (x (f a)) = 0.
(* and with the targets *)
Definition cut_off n k m (c : kernel R X) (x : 'I_n -> X) (f : 'I_k -> 'I_n) (xt : 'I_m -> X) : Prop :=
  forall i, (forall a, f a != i) -> forall j, kfun c (x i) (xt j) = 0.

Lemma in_or_out n k (f : 'I_k -> 'I_n) i : (exists a, i = f a) \/ forall a, f a != i.
Proof.
case: (pickP (fun a => f a == i)) => [a /eqP <-|h]; first by left; exists a.
by right=> a; rewrite h.
Qed.

(* a matrix that vanishes between the group and the rest *)
Lemma cut_mx n k (f : 'I_k -> 'I_n) (M : 'M[R]_n) : injective f ->
  (forall i, (forall a, f a != i) -> forall a, M i (f a) = 0) -> M *m sel R f = sel R f *m ((sel R f)^T *m M *m sel R f).
Proof.
move=> fi h; rewrite -both_ofE -cols_ofE; apply/matrixP => i j; rewrite mxE [RHS]mxE.
have [[a ->]|o] := in_or_out f i.
  rewrite (bigD1 a) //= !mxE eqxx mul1r big1 ?addr0 // => b ba.
  by rewrite mxE (inj_eq fi) eq_sym (negbTE ba) mul0r.
rewrite h // big1 // => b _; by rewrite mxE eq_sym (negbTE (o b)) mul0r.
Qed.
Lemma cut_rows n k m (f : 'I_k -> 'I_n) (A : 'M[R]_(n, m)) : injective f ->
  (forall i, (forall a, f a != i) -> forall j, A i j = 0) -> A = sel R f *m ((sel R f)^T *m A).
Proof.
move=> fi h; rewrite -rows_ofE; apply/matrixP => i j; rewrite [RHS]mxE.
have [[a ->]|o] := in_or_out f i.
  rewrite (bigD1 a) //= !mxE eqxx mul1r big1 ?addr0 // => b ba.
  by rewrite mxE (inj_eq fi) eq_sym (negbTE ba) mul0r.
rewrite h // big1 // => b _; by rewrite mxE eq_sym (negbTE (o b)) mul0r.
Qed.

Lemma known0 (mk : mean_kind R X q) a b (A : 'M[R]_(a, rq mk)) (B : 'M[R]_(rq mk, b)) : known mk -> A *m B = 0.
Proof. by case: mk A B => [|p|h] //= A B _; apply/matrixP => i j; rewrite !mxE big_ord0. Qed.
Lemma knownE (mk : mean_kind R X q) a (A B : 'M[R]_(rq mk, a)) : known mk -> A = B.
Proof. by case: mk A B => [|p|h] //= A B _; apply/matrixP => -[]. Qed.

Section Group.
Variables (r r' : nat) (qr : qr_fun R q r) (qr' : qr_fun R q r') (mk : mean_kind R X q) (c : kernel R X).
Variables (x : 'I_(q + r) -> X) (z : 'cV[R]_(q + r)) (f : 'I_(q + r') -> 'I_(q + r)).
Hypothesis kn : known mk.
Hypothesis fK : fits mk (cov_same c x) x.
Hypothesis fi : injective f.
Hypothesis hc : cut c x f.
Let x' := fun a => x (f a).
Let z' : 'cV[R]_(q + r') := \col_a z (f a) 0.
Let S := sel R f.
Let K := cov_same c x.
Let K' := cov_same c x'.

Lemma fits_known : pos_def K.
Proof. by move: fK kn; case: (mk) => [|p|[h|]]. Qed.
Lemma fits_group : fits mk K' x'.
Proof.
have pK' : pos_def K' by rewrite /K' cov_same_sub //; apply: sub_pd => //; exact: fits_known.
by move: fK kn; case: (mk) => [|p|[h|]].
Qed.
Lemma KS : K *m S = S *m K'.
Proof.
rewrite /K' cov_same_sub //; apply: cut_mx => // i o a; rewrite /K !mxE hc //.
by rewrite eq_sym (negbTE (o a)) addr0.
Qed.
Lemma z'E : z' = S^T *m z. Proof. by rewrite -rows_ofE; apply/matrixP => i j; rewrite !mxE ord1. Qed.
Lemma resE : z' - mean_col (rm mk) x' = S^T *m (z - mean_col (rm mk) x).
Proof. by rewrite -rows_ofE; apply/colP => i; rewrite !mxE. Qed.

Theorem C127_predict m ss (xt : 'I_m -> X) neg : cut_off c x f xt ->
  exists mu v lam lam',
    [/\ predict_at qr ss mk c x z xt neg = Ok (mu, v, lam), predict_at qr' ss mk c x' z' xt neg = Ok (mu, v, lam'),
        forall a j, lam (f a) j = lam' a j & forall i j, (forall a, f a != i) -> lam i j = 0].
Proof.
move=> ho; have [cK fP nN] := fits_rep fK; have [cK' fP' _] := fits_rep fits_group.
have u := uk_lhs_unit cK fP; have u' := uk_lhs_unit cK' fP'.
set P := design _ x in cK fP u; set P' := design _ x' in cK' fP' u'.
set Kit := cov_cross c x xt; set Kit' := cov_cross c x' xt; set Pt := design (@rp _ _ q mk) xt.
have oS : S^T *m S = 1%:M by exact: sel_inj_orth.
have eK : Kit = S *m Kit'.
  by rewrite /Kit' cov_cross_sub; apply: cut_rows => // i o j; rewrite mxE ho.
have [e1 e2] := uk_eqs Kit' Pt u'.
have [L _] : S *m uk_lambda K' P' Kit' Pt = uk_lambda K P Kit Pt /\ uk_mu K' P' Kit' Pt = uk_mu K P Kit Pt.
  apply: uk_uniq => //; last exact: knownE.
  rewrite (known0 P') // addr0 in e1.
  by rewrite mulmxA KS -mulmxA (known0 P) // addr0 e1 -eK.
exists (\row_j (((uk_lambda K P Kit Pt)^T *m (z - mean_col (rm mk) x)) j 0 + rm mk (xt j))).
do 3 eexists; split; first exact: predict_rep.
- rewrite (@predict_rep _ _ q r' m qr' ss mk c x' z' xt neg) // -/K' -/P' -/Kit' -/Pt.
  congr (Ok (_, _, _)).
    by apply/rowP => j; rewrite [LHS]mxE [RHS]mxE -L trmx_mul resE mulmxA.
  have E : cov_same_pairwise c xt - einsum_ii (uk_sol K' P' Kit' Pt) (uk_rhs Kit' Pt) =
           cov_same_pairwise c xt - einsum_ii (uk_sol K P Kit Pt) (uk_rhs Kit Pt).
    congr (_ - _); apply/rowP => j; rewrite !einsum_iiE !uk_sol_rhs -L trmx_mul eK.
    have t0 (A : 'M[R]_(rq mk, m)) : A^T *m Pt^T = 0 by apply: known0.
    by rewrite !t0 !addr0 -!mulmxA (mulmxA S^T) oS mul1mx.
  by rewrite E.
- move=> a j; rewrite -L -[RHS](congr1 (fun M : 'M[R]_(_, _) => M a j) (mul1mx _)) -oS -mulmxA -rows_ofE.
  by rewrite [RHS]mxE.
- move=> i j o; rewrite -L mxE big1 // => a _; by rewrite [S _ _]mxE eq_sym (negbTE (o a)) mul0r.
Qed.

Hypothesis hqr : forall P, is_qr P (qr P).
Hypothesis hqr' : forall P, is_qr P (qr' P).

(* any inverse covariance acts on the group as that of the group *)
Lemma BS (B B' : 'M[R]_(_)) (C : 'M[R]_(rq mk, _)) (C' : 'M[R]_(rq mk, _)) P P' :
  K *m B + P *m C = 1%:M -> K' *m B' + P' *m C' = 1%:M -> B *m S = S *m B'.
Proof.
rewrite (known0 P) // (known0 P') // !addr0 => e e'; have uK := pd_unit fits_known.
by rewrite -[LHS](mulKmx uK) (mulmxA K B) e mul1mx -[RHS](mulKmx uK) (mulmxA K S) KS -(mulmxA S) e' mulmx1.
Qed.

Theorem C127_loo : exists zl s2 el zl' s2' el',
  [/\ loo_at qr mk c x z = Ok (zl, s2, el), loo_at qr' mk c x' z' = Ok (zl', s2', el')
    & forall a, [/\ zl (f a) 0 = zl' a 0, s2 (f a) 0 = s2' a 0 & el (f a) 0 = el' a 0]].
Proof.
have [cK fP nN] := fits_rep fK; have [cK' fP' _] := fits_rep fits_group.
have [B [C [sB _ KB E]]] := loo_rep z hqr cK fP nN.
have [B' [C' [sB' _ KB' E']]] := loo_rep z' hqr' cK' fP' nN.
have b := BS KB KB'; have oS : S^T *m S = 1%:M by exact: sel_inj_orth.
do 6 eexists; split; [exact: E | exact: E' |] => a.
have bt : S^T *m B = B' *m S^T by have := congr1 trmx b; rewrite !trmx_mul sB sB'.
have e1 : B (f a) (f a) = B' a a.
  have -> : B (f a) (f a) = both_of f B a a by rewrite mxE.
  by rewrite both_ofE -mulmxA b mulmxA oS mul1mx.
have e2 : (B *m (z - mean_col (rm mk) x)) (f a) 0 = (B' *m (z' - mean_col (rm mk) x')) a 0.
  by rewrite resE mulmxA -bt -mulmxA -rows_ofE [RHS]mxE.
by split; rewrite [LHS]mxE [RHS]mxE ?e1 ?e2 // [z' _ _]mxE.
Qed.
End Group.

Lemma inter_mul n k (S : 'M[R]_(n, k)) (M N : 'M[R]_n) M1 N1 :
  M *m S = S *m M1 -> N *m S = S *m N1 -> M *m N *m S = S *m (M1 *m N1).
Proof. by move=> e1 e2; rewrite -mulmxA e2 mulmxA e1 mulmxA. Qed.

(* --- all the observations, in two groups --- *)
Section Split.
Variables (n n1 n2 : nat) (g : 'I_(n1 + n2) -> 'I_n).
Hypothesis bg : bijective g.
Definition in1 (a : 'I_n1) := g (lshift n2 a).
Definition in2 (b : 'I_n2) := g (rshift n1 b).
Let S1 := sel R in1.
Let S2 := sel R in2.

Lemma in1_inj : injective in1. Proof. by move=> a b /(bij_inj bg) /lshift_inj. Qed.
Lemma in2_inj : injective in2. Proof. by move=> a b /(bij_inj bg) /rshift_inj. Qed.
Lemma in12 a b : in1 a != in2 b.
Proof. by apply/eqP => /(bij_inj bg) /(congr1 (fun i => split i)); rewrite (unsplitK (inl a)) (unsplitK (inr b)). Qed.
Lemma in_cases i : (exists a, i = in1 a) \/ exists b, i = in2 b.
Proof.
have [h gh hg] := bg; rewrite -(hg i); case: (splitP (h i)) => k e; [left | right]; exists k; congr g; exact: val_inj.
Qed.
Lemma sizes : n = (n1 + n2)%N. Proof. by have := bij_eq_card bg; rewrite !card_ord. Qed.

Lemma selg : sel R g = row_mx S1 S2.
Proof.
apply/matrixP => i k; rewrite mxE; case: (splitP k) => a e.
  have -> : k = lshift n2 a by exact: val_inj.
  by rewrite row_mxEl mxE.
have -> : k = rshift n1 a by exact: val_inj.
by rewrite row_mxEr mxE.
Qed.
Lemma part1 : S1 *m S1^T + S2 *m S2^T = 1%:M.
Proof.
have [h gh hg] := bg.
rewrite [RHS](@cut_rows _ _ _ g) ?mulmx1; first by rewrite selg tr_row_mx mul_row_col.
  exact: bij_inj.
by move=> i o; have := o (h i); rewrite hg eqxx.
Qed.
Lemma orth12 : S1^T *m S2 = 0.
Proof. by rewrite -rows_ofE; apply/matrixP => a b; rewrite !mxE (negbTE (in12 a b)). Qed.

Lemma qform_split (B : 'M[R]_n) B1 B2 (y : 'cV[R]_n) : B *m S1 = S1 *m B1 -> B *m S2 = S2 *m B2 ->
  qform B y = qform B1 (S1^T *m y) + qform B2 (S2^T *m y).
Proof.
move=> e1 e2; have h : B *m y = S1 *m B1 *m (S1^T *m y) + S2 *m B2 *m (S2^T *m y).
  by rewrite -e1 -e2 -!(mulmxA B) -mulmxDr !(mulmxA _ _ y) -mulmxDl part1 mul1mx.
rewrite /qform /bilin -mulmxA h mulmxDr [LHS]mxE; congr (_ + _).
  by rewrite trmx_mul trmxK !mulmxA.
by rewrite trmx_mul trmxK !mulmxA.
Qed.
Lemma trace_split (M : 'M[R]_n) M1 M2 : M *m S1 = S1 *m M1 -> M *m S2 = S2 *m M2 -> \tr M = \tr M1 + \tr M2.
Proof.
move=> e1 e2; rewrite -[M]mulmx1 -part1 mulmxDr !mulmxA e1 e2 mxtraceD; congr (_ + _).
  by rewrite mxtrace_mulC mulmxA (sel_inj_orth _ in1_inj) mul1mx.
by rewrite mxtrace_mulC mulmxA (sel_inj_orth _ in2_inj) mul1mx.
Qed.
Lemma det_same m m' (K : 'M[R]_m) (W : 'M[R]_(m, m')) : m = m' -> W^T *m W = 1%:M -> \det (W^T *m K *m W) = \det K.
Proof.
move=> e; case: m' / e W => W oW.
by rewrite !det_mulmx mulrAC -det_mulmx oW det1 mul1r.
Qed.
Lemma det_split (K : 'M[R]_n) K1 K2 : K *m S1 = S1 *m K1 -> K *m S2 = S2 *m K2 -> \det K = \det K1 * \det K2.
Proof.
move=> e1 e2; have oW : (sel R g)^T *m sel R g = 1%:M by apply: sel_inj_orth; exact: bij_inj.
rewrite -(det_same K sizes oW) -mulmxA selg mul_mx_row e1 e2 tr_row_mx mul_col_row !mulmxA.
rewrite (sel_inj_orth _ in1_inj) (sel_inj_orth _ in2_inj) !mul1mx orth12 mul0mx.
have -> : S2^T *m S1 = 0 by rewrite -[S1]trmxK -trmx_mul orth12 trmx0.
by rewrite mul0mx det_ublock.
Qed.
End Split.

(* the two groups are uncorrelated *)
Definition apart n n1 n2 (c : kernel R X) (x : 'I_n -> X) (g : 'I_(n1 + n2) -> 'I_n) : Prop :=
  forall a b, kfun c (x (in1 g a)) (x (in2 g b)) = 0 /\ kfun c (x (in2 g b)) (x (in1 g a)) = 0.

Lemma apart1 n n1 n2 c (x : 'I_n -> X) (g : 'I_(n1 + n2) -> 'I_n) : bijective g -> apart c x g -> cut c x (in1 g).
Proof.
move=> bg h i o a; have [[a' e]|[b ->]] := in_cases bg i; last exact: (h a b).2.
by have := o a'; rewrite e eqxx.
Qed.
Lemma apart2 n n1 n2 c (x : 'I_n -> X) (g : 'I_(n1 + n2) -> 'I_n) : bijective g -> apart c x g -> cut c x (in2 g).
Proof.
move=> bg h i o b; have [[a ->]|[b' e]] := in_cases bg i; first exact: (h a b).1.
by have := o b'; rewrite e eqxx.
Qed.

Section Two.
Variables (r r1 r2 : nat) (qr : qr_fun R q r) (qr1 : qr_fun R q r1) (qr2 : qr_fun R q r2) (mk : mean_kind R X q).
Variables (x : 'I_(q + r) -> X) (z : 'cV[R]_(q + r)) (g : 'I_((q + r1) + (q + r2)) -> 'I_(q + r)).
Hypothesis kn : known mk.
Hypothesis bg : bijective g.
Hypothesis hqr : forall P, is_qr P (qr P).
Hypothesis hqr1 : forall P, is_qr P (qr1 P).
Hypothesis hqr2 : forall P, is_qr P (qr2 P).
Let x1 := fun a => x (in1 g a).
Let x2 := fun b => x (in2 g b).
Let z1 : 'cV[R]_(q + r1) := \col_a z (in1 g a) 0.
Let z2 : 'cV[R]_(q + r2) := \col_b z (in2 g b) 0.

Theorem C127_norm c : fits mk (cov_same c x) x -> apart c x g ->
  exists s s1 s2, [/\ norm_at qr mk c x z = Ok s, norm_at qr1 mk c x1 z1 = Ok s1, norm_at qr2 mk c x2 z2 = Ok s2
    & s = s1 + s2].
Proof.
move=> fK ap; have i1 := in1_inj bg; have i2 := in2_inj bg; have c1 := apart1 bg ap; have c2 := apart2 bg ap.
have [B [C [_ _ KB _ E]]] := norm_ex z hqr fK.
have [B1 [C1 [_ _ KB1 _ E1]]] := norm_ex z1 hqr1 (fits_group kn fK i1).
have [B2 [C2 [_ _ KB2 _ E2]]] := norm_ex z2 hqr2 (fits_group kn fK i2).
do 3 eexists; split; [exact: E | exact: E1 | exact: E2 |].
rewrite (qform_split bg _ (BS kn fK i1 c1 KB KB1) (BS kn fK i2 c2 KB KB2)).
by congr (_ + _); rewrite resE.
Qed.

Theorem C127_fisher p (c : 'rV[R]_p -> kernel R X) theta eps : fits mk (cov_same (c theta) x) x -> (forall th, apart (c th) x g) ->
  exists I I1 I2, [/\ fisher_at qr mk c theta eps x = Ok I, fisher_at qr1 mk c theta eps x1 = Ok I1,
    fisher_at qr2 mk c theta eps x2 = Ok I2 & I = I1 + I2].
Proof.
move=> fK ap; have i1 := in1_inj bg; have i2 := in2_inj bg.
have c1 := apart1 bg (ap theta); have c2 := apart2 bg (ap theta).
have [B [C [l [N [_ _ KB _ E]]]]] := fisher_rep eps hqr fK.
have [B1 [C1 [l1 [N1 [_ _ KB1 _ E1]]]]] := fisher_rep eps hqr1 (fits_group kn fK i1).
have [B2 [C2 [l2 [N2 [_ _ KB2 _ E2]]]]] := fisher_rep eps hqr2 (fits_group kn fK i2).
do 3 eexists; split; [exact: E | exact: E1 | exact: E2 |].
have b1 := BS kn fK i1 c1 KB KB1; have b2 := BS kn fK i2 c2 KB KB2.
apply/matrixP => i j; rewrite maddE [LHS]mxE [X in _ = X + _]mxE [X in _ = _ + X]mxE.
have dS n' (f : 'I_n' -> 'I_(q + r)) k : injective f -> (forall th, cut (c th) x f) ->
    derivative_finite_diff (fun v => cov_same (c (set_coord theta k v)) x) (theta 0 k) eps *m sel R f =
    sel R f *m derivative_finite_diff (fun v => cov_same (c (set_coord theta k v)) (fun a => x (f a))) (theta 0 k) eps.
  move=> fi hc; rewrite (dK_sub c theta eps x k fi); apply: cut_mx => // i' o a.
  by rewrite !mxE !hc // eq_sym (negbTE (o a)) !addr0 !mulr0 oppr0 !addr0 mulr0.
have D1 k := dS _ _ k i1 (fun th => apart1 bg (ap th)); have D2 k := dS _ _ k i2 (fun th => apart2 bg (ap th)).
rewrite /fisher_trace -mulrDr; congr (_ * _); apply: (trace_split bg).
  by do 3! [apply: inter_mul => //].
by do 3! [apply: inter_mul => //].
Qed.
End Two.
End Indep.

Theorem C127_criterion (X : Type) q r r1 r2 b (qr : qr_fun RR q r) (qr1 : qr_fun RR q r1) (qr2 : qr_fun RR q r2)
  (mk : mean_kind RR X q) c (x : 'I_(q + r) -> X) z (g : 'I_((q + r1) + (q + r2)) -> 'I_(q + r)) :
  known mk -> bijective g -> fits mk (cov_same c x) x -> apart c x g ->
  exists a a1 a2,
   [/\ crit_at b qr mk c x z = Ok (Fin a),
       crit_at b qr1 mk c (fun i => x (in1 g i)) (\col_i z (in1 g i) 0) = Ok (Fin a1),
       crit_at b qr2 mk c (fun i => x (in2 g i)) (\col_i z (in2 g i) 0) = Ok (Fin a2)
     & a = a1 + a2].
Proof.
move=> kn bg fK ap; have i1 := in1_inj bg; have i2 := in2_inj bg; have c1 := apart1 bg ap; have c2 := apart2 bg ap.
have pK := fits_known kn fK; have f1 := fits_group kn fK i1; have f2 := fits_group kn fK i2.
have p1 := fits_known kn f1; have p2 := fits_known kn f2.
have k1 := KS i1 c1; have k2 := KS i2 c2.
have R0 n (K : 'M[RR]_n) : pos_def K -> K *m invmx K + (0 : 'M_(n, rq mk)) *m (0 : 'M_(rq mk, n)) = 1%:M.
  by move=> p; rewrite mul0mx addr0 mulmxV // pd_unit.
have b1 := BS kn fK i1 c1 (R0 _ _ pK) (R0 _ _ p1); have b2 := BS kn fK i2 c2 (R0 _ _ pK) (R0 _ _ p2).
have cE r' (qr' : qr_fun RR q r') (x' : 'I_(q + r') -> X) z' : fits mk (cov_same c x') x' ->
    crit_at b qr' mk c x' z' = Ok (Fin (gauss_nll (cov_same c x') (z' - mean_col (rm mk) x'))).
  have m0 : z' - mean_col (fun _ : X => 0) x' = z' by apply/colP => i; rewrite !mxE oppr0 addr0.
  move=> f'; move: kn f'; case: (mk) => [|p|[h|]] //= _ p'; rewrite ?m0; exact: nll_zero_ok.
do 3 eexists; split; [exact: cE | exact: cE | exact: cE |].
rewrite /gauss_nll (qform_split bg _ b1 b2) (det_split bg k1 k2) (lnM (pd_det p1) (pd_det p2)) !resE.
have nE : (q + r)%:R = (q + r1)%:R + (q + r2)%:R :> R by rewrite -natrD -(sizes bg).
rewrite nE.
have h (l u v w w1 t s : R) : ((u + v) * l + (w + w1) + (t + s)) / 2%:R = (u * l + w + t) / 2%:R + (v * l + w1 + s) / 2%:R by ring.
exact: h.
Qed.
Print Assumptions C127_predict.
Print Assumptions C127_loo.
Print Assumptions C127_norm.
Print Assumptions C127_fisher.
Print Assumptions C127_criterion.

(* Three points: the first two are correlated, the third is not correlated with them. *)
Example C127_case (R : rcfType) :
  let k : kernel R nat := Kernel (fun a b => ((a < 2) == (b < 2))%N%:R) 1 in
  let x : 'I_(0 + 3) -> nat := fun i => i in
  let g : 'I_((0 + 2) + (0 + 1)) -> 'I_(0 + 3) := fun i => i in
  [/\ fits (KZero : mean_kind R nat 0) (cov_same k x) x, bijective g, apart k x g, cut k x (in1 g)
    & kfun k (x (in1 g ord0)) (x (in1 g ord_max)) != 0 /\ cut_off k x (in1 g) (fun _ : 'I_1 => 0%N)].
Proof.
move=> k x g.
have bg : bijective g by exists (fun i => i).
have ap : apart k x g.
  move=> a b; have -> : x (in2 g b) = 2%N by rewrite /x /in2 /g /= ord1.
  have ha : (x (in1 g a) < 2)%N by exact: (ltn_ord a).
  by rewrite /= ha.
split=> //.
- have s : symmetric (cov_same k x) by apply/matrixP => i j; rewrite !mxE /= eq_sym [j == i]eq_sym.
  split=> // w wn; rewrite nug_form mul1r.
  have f0 : 0 <= form (kfun k) x (fun i => w i 0).
    have -> : form (kfun k) x (fun i => w i 0) = (\sum_i w i 0 * (x i < 2)%N%:R) ^+ 2 + (\sum_i w i 0 * (~~ (x i < 2)%N)%:R) ^+ 2.
      have sq (F : 'I_(0 + 3) -> R) : (\sum_i F i) ^+ 2 = \sum_i \sum_j F i * F j.
        by rewrite expr2 mulr_suml; apply: eq_bigr => i _; rewrite mulr_sumr.
      rewrite !sq -big_split; apply: eq_bigr => i _; rewrite -big_split; apply: eq_bigr => j _ /=.
      by case: (x i < 2)%N; case: (x j < 2)%N; rewrite /= !(mulr0, mulr1, mul0r, addr0, add0r).
    by apply: addr_ge0; exact: sqr_ge0.
  apply: ltr_paddl => //; have [i wi] : exists i, w i 0 != 0.
    apply/existsP; apply: contraNT wn; rewrite negb_exists => /forallP h; apply/eqP/colP => i.
    by apply/eqP; rewrite [X in _ == X]mxE; have := h i; rewrite negbK.
  by rewrite (bigD1 i) //= ltr_paddr ?sumr_ge0 // => [j _|]; rewrite ?sqr_ge0 // lt_def sqr_ge0 sqrf_eq0 wi.
- exact: apart1.
- split; first by rewrite /= oner_eq0.
  move=> i o j; rewrite /=; have [[a e]|[b ->]] := in_cases bg i; first by have := o a; rewrite e eqxx.
  by have -> : x (in2 g b) = 2%N by rewrite /x /in2 /g /= ord1.
Qed.
