(* InfoThms.v
   Property C121: less information never makes the variances of Model.predict and
   Model.loo smaller. *)
From mathcomp Require Import all_ssreflect all_fingroup all_algebra ring.
From Verif Require Import LinAlg KrigModel CholProofs LinQR KrigProofs KrigProofs2
  KrigProofs3 LooProofs OrderModel OrderProofs UpdProofs UpdThms ReplModel ReplProofs ReplThms InfoProofs.
Set Implicit Arguments.
Unset Strict Implicit.
Unset Printing Implicit Defensive.
Import Order.TTheory GRing.Theory Num.Theory.
Local Open Scope ring_scope.

Section Means.
Variables (R : rcfType) (X : Type).

(* The mean functions that the model admits, and the differences between them: what is
   left unknown of the mean. *)
Definition admits q (mk : mean_kind R X q) (h : X -> R) : Prop :=
  match mk with
  | KZero => forall y, h y = 0
  | KLinear p => exists b : 'I_q -> R, forall y, h y = \sum_k p y k * b k
  | KParam (Some g) => forall y, h y = g y
  | KParam None => False
  end.
Definition left_unknown q (mk : mean_kind R X q) (d : X -> R) : Prop :=
  exists h h', [/\ admits mk h, admits mk h' & forall y, d y = h y - h' y].
Definition mean_le q q' (mk : mean_kind R X q) (mk' : mean_kind R X q') : Prop :=
  forall d, left_unknown mk d -> left_unknown mk' d.

(* The first covariance function is below the second one: k' - k is positive semi-definite. *)
Definition form n (k : X -> X -> R) (y : 'I_n -> X) (v : 'I_n -> R) : R :=
  \sum_i \sum_j v i * v j * k (y i) (y j).
Definition kern_le (k k' : X -> X -> R) : Prop :=
  forall n (y : 'I_n -> X) (v : 'I_n -> R), form k y v <= form k' y v.
Definition sym_kern (k : X -> X -> R) : Prop := forall a b, k a b = k b a.

(* what makes predictions exist, as in C113 *)
Definition fits q r (mk : mean_kind R X q) (K : 'M[R]_(q + r)) (x : 'I_(q + r) -> X) : Prop :=
  match mk with
  | KLinear p => cond_pos_def K (design p x) /\ full_col_rank (design p x)
  | KParam None => False
  | _ => pos_def K
  end.
(* the trend is identified from the points x without the i-th *)
Definition identified_without q (mk : mean_kind R X q) n (x : 'I_n -> X) (i : 'I_n) : Prop :=
  match mk with
  | KLinear p => forall b : 'I_q -> R, (forall l, l != i -> \sum_k p (x l) k * b k = 0) -> forall k, b k = 0
  | _ => True
  end.

Lemma fits_rep q r mk K (x : 'I_(q + r) -> X) : fits mk K x ->
  [/\ cond_pos_def K (design (@rp _ _ q mk) x), full_col_rank (design (@rp _ _ q mk) x) & mk <> KParam None].
Proof.
case: mk => [|p|[h|]] //=.
- by move=> pK; split=> //; [exact: pd_cpd | move=> b _; apply/colP => -[]].
- by case.
- by move=> pK; split=> //; [exact: pd_cpd | move=> b _; apply/colP => -[]].
Qed.

Lemma idw_rep q mk n (x : 'I_n -> X) i : identified_without mk x i ->
  full_col_rank (P_wo i (design (@rp _ _ q mk) x)).
Proof.
case: mk => [|p|h] /=; try by move=> _ b _; apply/colP => -[].
move=> H b hb; apply/colP => k; rewrite [RHS]mxE; apply: (H (fun k => b k 0)) => l.
rewrite eq_sym => li; have [l' -> _] := unlift_some li.
have := hb; rewrite /P_wo => /colP /(_ l'); rewrite [RHS]mxE => h; rewrite -[RHS]h.
by rewrite [RHS]mxE; apply: eq_bigr => t _; rewrite !mxE.
Qed.

Lemma mean_span q q' mk mk' : @mean_le q q' mk mk' ->
  exists A : 'M[R]_(rq mk', rq mk), forall y k, @rp _ _ q mk y k = \sum_l @rp _ _ q' mk' y l * A l k.
Proof.
move=> H.
suff S (k : 'I_(rq mk)) : exists a : 'I_(rq mk') -> R, forall y, @rp _ _ q mk y k = \sum_l @rp _ _ q' mk' y l * a l.
  have [F hF] := fin_all_exists S; exists (\matrix_(l, k) F k l) => y k.
  by rewrite hF; apply: eq_bigr => l _; rewrite mxE.
have : left_unknown mk (fun y => @rp _ _ q mk y k).
  case: (mk) k => [|p|h] /=; try by case.
  move=> k; exists (fun y => p y k), (fun=> 0); split=> [||y]; last by rewrite subr0.
    exists (fun l => (l == k)%:R) => y; rewrite (bigD1 k) //= eqxx mulr1 big1 ?addr0 // => l lk.
    by rewrite (negbTE lk) mulr0.
  by exists (fun=> 0) => y; rewrite big1 // => l _; rewrite mulr0.
move/H => [h [h' [H1 H2 H3]]]; move: H1 H2; case: (mk') => [|p'|[g|]] //= H1 H2.
- by exists (fun=> 0) => y; rewrite H3 H1 H2 subr0 big_ord0.
- case: H1 => b1 H1; case: H2 => b2 H2; exists (fun l => b1 l - b2 l) => y.
  by rewrite H3 H1 H2 -sumrB; apply: eq_bigr => l _; rewrite mulrBr.
- by exists (fun=> 0) => y; rewrite H3 H1 H2 subrr big_ord0.
Qed.

Lemma formE n (k : X -> X -> R) (y : 'I_n -> X) (v : 'cV[R]_n) :
  form k y (fun i => v i 0) = qform (\matrix_(i, j) k (y i) (y j)) v.
Proof.
rewrite /form /qform /bilin [RHS]mxE exchange_big; apply: eq_bigr => j _ /=.
rewrite [X in _ = X * _]mxE mulr_suml; apply: eq_bigr => i _; rewrite !mxE.
by rewrite mulrAC.
Qed.

Lemma form1 n (k : X -> X -> R) (y : 'I_n -> X) (w : 'cV[R]_n) (t : X) : sym_kern k ->
  form k (fun i : 'I_(n + 1) => match split i with inl a => y a | inr _ => t end)
    (fun i => match split i with inl a => - w a 0 | inr _ => 1 end) =
  k t t - 2%:R * (\sum_i w i 0 * k (y i) t) + qform (\matrix_(i, j) k (y i) (y j)) w.
Proof.
move=> sk; rewrite -formE /form big_split_ord big_ord1 /=.
under eq_bigr => i _.
  rewrite big_split_ord big_ord1 /= (unsplitK (inl i)) (unsplitK (inr ord0)) /=.
  under eq_bigr => j _ do rewrite (unsplitK (inl j)) /= mulrNN.
  rewrite mulr1; over.
rewrite big_split /= big_split_ord big_ord1 /= (unsplitK (inr ord0)) /=.
under [X in _ + (X + _)]eq_bigr => j _ do rewrite (unsplitK (inl j)) /= mul1r sk.
rewrite mul1r mul1r.
have e : \sum_i - w i 0 * k (y i) t = - \sum_i w i 0 * k (y i) t.
  by rewrite -sumrN; apply: eq_bigr => i _; rewrite mulNr.
rewrite e; move: (\sum_i w i 0 * _) (\sum_i \sum_j _) (k t t) => a b d; clear; ring.
Qed.

Lemma design_span q q' n (p : X -> 'I_q -> R) (p' : X -> 'I_q' -> R) (A : 'M[R]_(q', q)) (x : 'I_n -> X) :
  (forall y k, p y k = \sum_l p' y l * A l k) -> design p x = design p' x *m A.
Proof. by move=> h; apply/matrixP => i j; rewrite mxE h [RHS]mxE; apply: eq_bigr => l _; rewrite mxE. Qed.
End Means.

Section Kernels.
Variables (R : rcfType) (X : Type) (q q' r r' : nat).

(* What the second model is given is no more than what the first one is: some of the
   observations (f), a mean at least as unknown, a covariance function and a nugget at
   least as large. *)
Definition less_informed (mk : mean_kind R X q) (mk' : mean_kind R X q') (c c' : kernel R X)
  (f : 'I_(q' + r') -> 'I_(q + r)) : Prop :=
  [/\ injective f, mean_le mk mk', kern_le (kfun c) (kfun c') & knug c <= knug c'].

Lemma nug_form n (c : kernel R X) (x : 'I_n -> X) (w : 'cV[R]_n) :
  qform (cov_same c x) w = form (kfun c) x (fun i => w i 0) + knug c * \sum_i w i 0 ^+ 2.
Proof.
rewrite formE; have -> : cov_same c x = \matrix_(i, j) kfun c (x i) (x j) + diag_mx (const_mx (knug c)).
  by apply/matrixP => i j; rewrite !mxE.
rewrite /qform bilin_addm -!/(qform _ _) qform_diag mulr_sumr; congr (_ + _).
by apply: eq_bigr => i _; rewrite !mxE.
Qed.

Theorem C121_predict m (qr : qr_fun R q r) (qr' : qr_fun R q' r') ss ss' mk mk' c c' f
  (x : 'I_(q + r) -> X) z z' (xt : 'I_m -> X) neg :
  less_informed mk mk' c c' f -> sym_kern (kfun c) -> sym_kern (kfun c') ->
  fits mk (cov_same c x) x -> fits mk' (cov_same c' (fun i => x (f i))) (fun i => x (f i)) ->
  exists mu v lam mu' v' lam',
    [/\ predict_at qr ss mk c x z xt neg = Ok (mu, v, lam),
        predict_at qr' ss' mk' c' (fun i => x (f i)) z' xt neg = Ok (mu', v', lam')
      & forall j, v 0 j <= v' 0 j].
Proof.
case=> fi ml kl nl sc sc' /fits_rep [cK fP nN] /fits_rep [cK' fP' nN'].
have [A hA] := mean_span ml.
do 6 eexists; split; [exact: predict_rep | exact: predict_rep |].
move=> j; set v := _ - _; set v' := _ - _.
suff h : v 0 j <= v' 0 j.
  case: (neg) => //; rewrite [clip0 _ _ _]mxE [X in _ <= X]mxE le_maxl !le_maxr h lexx /=.
  by rewrite orbT.
rewrite /v /v'; apply: (@info_var _ _ _ _ _ _ _ _ _ _ (sel R f) A) => //.
- by rewrite -design_sub; exact: design_span.
- exact: design_span.
move=> w; rewrite -cov_cross_sub qform_mul -cov_same_sub // !nug_form.
rewrite [cov_same_pairwise _ _ _ _]mxE [cov_same_pairwise _ _ _ _]mxE.
have e (k : X -> X -> R) : \sum_i w i 0 * k (x (f i)) (xt j) = (w^T *m kmx k (fun i => x (f i)) xt) 0 j.
  by rewrite [RHS]mxE; apply: eq_bigr => i _; rewrite !mxE.
rewrite !addrA; apply: ler_add; last by apply: ler_wpmul2r => //; apply: sumr_ge0 => i _; exact: sqr_ge0.
by rewrite !formE -!e -!form1 //; exact: kl.
Qed.

Theorem C121_loo (qr : qr_fun R q r) (qr' : qr_fun R q' r') mk mk' c c' f (x : 'I_(q + r) -> X) z z' :
  (forall P, is_qr P (qr P)) -> (forall P, is_qr P (qr' P)) ->
  less_informed mk mk' c c' f ->
  fits mk (cov_same c x) x -> fits mk' (cov_same c' (fun i => x (f i))) (fun i => x (f i)) ->
  exists zl s2 el zl' s2' el',
    [/\ loo_at qr mk c x z = Ok (zl, s2, el),
        loo_at qr' mk' c' (fun i => x (f i)) z' = Ok (zl', s2', el')
      & forall i, identified_without mk' (fun i => x (f i)) i -> s2 (f i) 0 <= s2' i 0].
Proof.
move=> hqr hqr' [fi ml kl nl] /fits_rep [cK fP nN] /fits_rep [cK' fP' nN'].
have [A hA] := mean_span ml.
have [B [C [sB PB KB E]]] := loo_rep z hqr cK fP nN.
have [B' [C' [sB' PB' KB' E']]] := loo_rep z' hqr' cK' fP' nN'.
do 6 eexists; split; [exact: E | exact: E' |].
move=> i /idw_rep fw; rewrite [X in X <= _]mxE [X in _ <= X]mxE.
apply: (@info_loo _ _ _ _ _ _ _ _ _ (sel R f) A cK cK' _ B C B' C') => //.
- by rewrite -design_sub; exact: design_span.
- move=> w; rewrite qform_mul -cov_same_sub // !nug_form; apply: ler_add; first exact: kl.
  by apply: ler_wpmul2r => //; apply: sumr_ge0 => l _; exact: sqr_ge0.
- move=> w; rewrite mxE (bigD1 i) //= !mxE eqxx mul1r big1 ?addr0 // => l li.
  by rewrite !mxE (inj_eq fi) eq_sym (negbTE li) mul0r.
Qed.
End Kernels.

Section Noise.
Variables (R : rcfType) (C : Type) (q q' r r' : nat).

(* The same for the noisy covariance of the regression examples: fewer observations, larger
   noise variances, a larger latent covariance, a mean at least as unknown. *)
Definition less_informed_noisy (mk : mean_kind R C q) (mk' : mean_kind R C q') (c c' : noisy R C)
  (f : 'I_(q' + r') -> 'I_(q + r)) (x : 'I_(q + r) -> flagged R C) (x' : 'I_(q' + r') -> flagged R C) : Prop :=
  [/\ injective f, mean_le mk mk', kern_le (lat c) (lat c'), (forall i, (x' i).1 = (x (f i)).1)
    & forall i, tau c * (x (f i)).2 <= tau c' * (x' i).2].

Lemma ncov_form n (c : noisy R C) (x : 'I_n -> flagged R C) (w : 'cV[R]_n) :
  qform (ncov_same c x) w =
  form (lat c) (fun i => (x i).1) (fun i => w i 0) + \sum_i tau c * (x i).2 * w i 0 ^+ 2.
Proof.
rewrite formE /ncov_same /qform bilin_addm -!/(qform _ _) qform_diag; congr (_ + _).
by apply: eq_bigr => i _; rewrite !mxE.
Qed.
Lemma ncov_sub n k (c : noisy R C) (x : 'I_n -> flagged R C) (f : 'I_k -> 'I_n) : injective f ->
  (sel R f)^T *m ncov_same c x *m sel R f = ncov_same c (fun i => x (f i)).
Proof. by move=> fi; rewrite -both_ofE; apply/matrixP => i j; rewrite !mxE (inj_eq fi). Qed.

Theorem C121_noise_predict m (qr : qr_fun R q r) (qr' : qr_fun R q' r') ss ss' mk mk' c c' f
  (x : 'I_(q + r) -> flagged R C) x' z z' (xt xt' : 'I_m -> flagged R C) neg :
  less_informed_noisy mk mk' c c' f x x' -> sym_kern (lat c) -> sym_kern (lat c') ->
  (forall j, (xt' j).1 = (xt j).1) -> (forall j, tau c * (xt j).2 <= tau c' * (xt' j).2) ->
  fits mk (ncov_same c x) (fun i => (x i).1) -> fits mk' (ncov_same c' x') (fun i => (x' i).1) ->
  exists mu v lam mu' v' lam',
    [/\ npredict_at qr ss mk c x z xt neg = Ok (mu, v, lam),
        npredict_at qr' ss' mk' c' x' z' xt' neg = Ok (mu', v', lam')
      & forall j, v 0 j <= v' 0 j].
Proof.
case=> fi ml kl ex nx sc sc' et nt /fits_rep [cK fP nN] /fits_rep [cK' fP' nN'].
have [A hA] := mean_span ml.
do 6 eexists; split; [exact: npredict_rep | exact: npredict_rep |].
move=> j; set v := _ - _; set v' := _ - _.
suff h : v 0 j <= v' 0 j.
  case: (neg) => //; rewrite [clip0 _ _ _]mxE [X in _ <= X]mxE le_maxl !le_maxr h lexx /=.
  by rewrite orbT.
rewrite /v /v'; apply: (@info_var _ _ _ _ _ _ _ _ _ _ (sel R f) A) => //.
- rewrite -(design_sub (@nrp _ _ _ mk)); apply/matrixP => i k; rewrite mxE /nrp -ex hA [RHS]mxE.
  by apply: eq_bigr => l _; rewrite mxE.
- apply/matrixP => i k; rewrite mxE /nrp -et hA [RHS]mxE; by apply: eq_bigr => l _; rewrite mxE.
move=> w; rewrite qform_mul ncov_sub // !ncov_form.
rewrite [ncov_pairwise _ _ _ _]mxE [ncov_pairwise _ _ _ _]mxE et.
have e (k : C -> C -> R) : \sum_i w i 0 * k (x' i).1 (xt j).1 =
    (w^T *m ((sel R f)^T *m (\matrix_(i, j) k (x i).1 (xt j).1))) 0 j.
  by rewrite -rows_ofE [RHS]mxE; apply: eq_bigr => i _; rewrite !mxE ex.
have e' (k : C -> C -> R) : \sum_i w i 0 * k (x' i).1 (xt j).1 =
    (w^T *m (\matrix_(i, j) k (x' i).1 (xt' j).1)) 0 j.
  by rewrite [RHS]mxE; apply: eq_bigr => i _; rewrite !mxE et.
rewrite -e -e'.
have -> : form (lat c) (fun i => (x (f i)).1) (fun i => w i 0) = form (lat c) (fun i => (x' i).1) (fun i => w i 0).
  by rewrite /form; apply: eq_bigr => i _; apply: eq_bigr => l _; rewrite !ex.
have nw : \sum_i tau c * (x (f i)).2 * w i 0 ^+ 2 <= \sum_i tau c' * (x' i).2 * w i 0 ^+ 2.
  by apply: ler_sum => i _; apply: ler_wpmul2r; rewrite ?sqr_ge0.
have k0 := kl _ (fun i : 'I_((q' + r') + 1) => match split i with inl a => (x' a).1 | inr _ => (xt j).1 end)
   (fun i => match split i with inl a => - w a 0 | inr _ => 1 end).
rewrite !form1 // -!formE in k0.
have al (a b d f' g : R) : a + b - d + (f' + g) = a - d + f' + (b + g) by clear; ring.
by rewrite !al //; apply: ler_add => //; exact: ler_add.
Qed.

Theorem C121_noise_loo (qr : qr_fun R q r) (qr' : qr_fun R q' r') mk mk' c c' f
  (x : 'I_(q + r) -> flagged R C) x' z z' :
  (forall P, is_qr P (qr P)) -> (forall P, is_qr P (qr' P)) ->
  less_informed_noisy mk mk' c c' f x x' ->
  fits mk (ncov_same c x) (fun i => (x i).1) -> fits mk' (ncov_same c' x') (fun i => (x' i).1) ->
  exists zl s2 el zl' s2' el',
    [/\ nloo_at qr mk c x z = Ok (zl, s2, el), nloo_at qr' mk' c' x' z' = Ok (zl', s2', el')
      & forall i, identified_without mk' (fun i => (x' i).1) i -> s2 (f i) 0 <= s2' i 0].
Proof.
move=> hqr hqr' [fi ml kl ex nx] /fits_rep [cK fP nN] /fits_rep [cK' fP' nN'].
have [A hA] := mean_span ml.
have [B [D [sB PB KB E]]] := nloo_rep z hqr cK fP nN.
have [B' [D' [sB' PB' KB' E']]] := nloo_rep z' hqr' cK' fP' nN'.
do 6 eexists; split; [exact: E | exact: E' |].
move=> i /idw_rep fw; rewrite [X in X <= _]mxE [X in _ <= X]mxE.
apply: (@info_loo _ _ _ _ _ _ _ _ _ (sel R f) A cK cK' _ B D B' D') => //.
- rewrite -(design_sub (@nrp _ _ _ mk)); apply/matrixP => l k; rewrite mxE /nrp -ex hA [RHS]mxE.
  by apply: eq_bigr => t _; rewrite mxE.
- move=> w; rewrite qform_mul ncov_sub // !ncov_form; apply: ler_add; last first.
    by apply: ler_sum => l _; apply: ler_wpmul2r; rewrite ?sqr_ge0.
  have -> : form (lat c) (fun i => (x (f i)).1) (fun i => w i 0) = form (lat c) (fun i => (x' i).1) (fun i => w i 0).
    by rewrite /form; apply: eq_bigr => l _; apply: eq_bigr => t _; rewrite !ex.
  exact: kl.
- move=> w; rewrite mxE (bigD1 i) //= !mxE eqxx mul1r big1 ?addr0 // => l li.
  by rewrite !mxE (inj_eq fi) eq_sym (negbTE li) mul0r.
Qed.
End Noise.
Print Assumptions C121_predict.
Print Assumptions C121_loo.
Print Assumptions C121_noise_predict.
Print Assumptions C121_noise_loo.

(* A concrete case: of the two observations of C113_case, the first one only, with a constant
   but unknown mean instead of a known one, twice the covariance and a nugget. *)
Section Case.
Variable R : rcfType.
Let X := 'I_(1 + 1).
Let c : kernel R X := Kernel (fun i j => w_K R i j) 0.
Let c' : kernel R X := Kernel (fun i j => 2%:R * w_K R i j) 1.
Let f : 'I_(1 + 0) -> 'I_(1 + 1) := fun i => lshift 1 i.
Let x : 'I_(1 + 1) -> X := id.
Let mk : mean_kind R X 1 := KParam (Some (fun _ => 3%:R)).
Let mk' : mean_kind R X 1 := KLinear (fun _ _ => 1).

Example C121_case : [/\ less_informed (r := 1) mk mk' c c' f, sym_kern (kfun c) /\ sym_kern (kfun c'),
  fits (r := 1) mk (cov_same c x) x & fits (r := 0) mk' (cov_same c' (fun i => x (f i))) (fun i => x (f i))].
Proof.
have wp := w_pd R.
have sK : sym_kern (kfun c) by move=> a b /=; have := wp.1; rewrite /symmetric => h; rewrite -{1}h mxE.
have eK : cov_same c x = w_K R.
  by rewrite /cov_same /= raddf0 addr0; apply/matrixP => i j; rewrite [LHS]mxE.
split.
- split.
  + exact: lshift_inj.
  + move=> d [h [h' [H1 H2 H3]]]; exists (fun=> 0), (fun=> 0).
    have z0 : admits mk' (fun=> 0) by exists (fun=> 0) => y; rewrite big_ord1 mulr0.
    by split=> // y; rewrite H3 H1 H2 !subrr.
  + move=> n y v; have p0 : 0 <= form (kfun c) y v.
      pose S : 'M[R]_(1 + 1, n) := \matrix_(a, i) (a == y i)%:R.
      have := (pd_psd wp).2 (S *m \col_i v i); rewrite qform_mul.
      have -> : S^T *m w_K R *m S = \matrix_(i, j) w_K R (y i) (y j).
        apply/matrixP => i j; rewrite mxE (bigD1 (y j)) //= big1 ?addr0 => [|a aj].
          rewrite !mxE eqxx mulr1 (bigD1 (y i)) //= big1 ?addr0 => [|a ai]; first by rewrite !mxE eqxx mul1r.
          by rewrite !mxE (negbTE ai) mul0r.
        by rewrite [S _ _]mxE (negbTE aj) mulr0.
      rewrite -formE; congr (0 <= _); apply: eq_bigr => i _; apply: eq_bigr => j _.
      by rewrite [(\col_i0 v i0) i 0]mxE [(\col_i0 v i0) j 0]mxE.
    have -> : form (kfun c') y v = form (kfun c) y v + form (kfun c) y v.
      rewrite /form -big_split; apply: eq_bigr => i _ /=; rewrite -big_split; apply: eq_bigr => j _ /=.
      by rewrite mulrCA mulr_natl mulr2n.
    by rewrite ler_addl.
  + by rewrite /= ler01.
- by split=> // a b /=; rewrite -[w_K R a b]/(kfun c a b) sK.
- by rewrite /fits eK.
- split; last first.
    move=> b /colP /(_ 0); rewrite !mxE big_ord1 mxE mul1r => h.
    by apply/colP => a; rewrite ord1 h mxE.
  split; first by apply/matrixP => i j; rewrite mxE !ord1.
  move=> v /colP /(_ 0); rewrite mxE big_ord1 mxE [design _ _ _ _]mxE mul1r [RHS]mxE => h.
  by move=> /eqP; case; apply/colP => a; rewrite (ord1 a) [RHS]mxE; exact: h.
Qed.
End Case.
Print Assumptions C121_case.
