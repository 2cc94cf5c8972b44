(* BasisThms.v
   Property C122: of the trend functions of a linear predictor only the functions that they
   span matter. *)
From Coq Require Import Reals.
From mathcomp Require Import all_ssreflect all_fingroup all_algebra ring.
From Verif Require Import LinAlg KrigModel RealAux Rinst LikModel CholProofs LinQR KrigProofs KrigProofs2
  KrigProofs3 LooProofs LikProofs OrderModel OrderProofs UpdProofs UpdThms LinkProofs LinkThms VagueThms
  ReplModel ReplThms InfoThms.
Set Implicit Arguments.
Unset Strict Implicit.
Unset Printing Implicit Defensive.
Import Order.TTheory GRing.Theory Num.Theory.
Local Open Scope ring_scope.

Section Basis.
Variables (R : rcfType) (X : Type) (q : nat).

(* The two lists of functions have the same linear combinations. *)
Definition same_span (p p' : X -> 'I_q -> R) : Prop :=
  forall h : X -> R, (exists b : 'I_q -> R, forall y, h y = \sum_k p y k * b k) <->
                     (exists b : 'I_q -> R, forall y, h y = \sum_k p' y k * b k).

Lemma span_mx p p' : (forall h : X -> R, (exists b : 'I_q -> R, forall y, h y = \sum_k p y k * b k) ->
     (exists b : 'I_q -> R, forall y, h y = \sum_k p' y k * b k)) ->
  exists A : 'M[R]_q, forall n (y : 'I_n -> X), design p y = design p' y *m A.
Proof.
move=> H.
have S (k : 'I_q) : exists a : 'I_q -> R, forall y, p y k = \sum_l p' y l * a l.
  apply: (H (fun y => p y k)); exists (fun l => (l == k)%:R) => y.
  by rewrite (bigD1 k) //= eqxx mulr1 big1 ?addr0 // => l lk; rewrite (negbTE lk) mulr0.
have [F hF] := fin_all_exists S; exists (\matrix_(l, k) F k l) => n y.
by apply/matrixP => i k; rewrite mxE hF [RHS]mxE; apply: eq_bigr => l _; rewrite !mxE.
Qed.

Lemma span_unit p p' n (x : 'I_n -> X) : same_span p p' -> full_col_rank (design p x) ->
  exists A A' : 'M[R]_q, [/\ forall k (y : 'I_k -> X), design p y = design p' y *m A,
     forall k (y : 'I_k -> X), design p' y = design p y *m A' & A' *m A = 1%:M].
Proof.
move=> H fP; have [A hA] := span_mx (fun h => (H h).1); have [A' hA'] := span_mx (fun h => (H h).2).
exists A, A'; split=> //; apply/eqP; rewrite -subr_eq0; apply/eqP.
apply/matrixP => i j; have e : design p x *m (A' *m A - 1%:M) = 0.
  by rewrite mulmxBr mulmx1 mulmxA -hA' -hA subrr.
have := fP (col j (A' *m A - 1%:M)); rewrite -col_mulmx e col0 => /(_ erefl) /colP /(_ i).
by rewrite [LHS]mxE => ->; rewrite !mxE.
Qed.

Lemma span_full p p' n (x : 'I_n -> X) : same_span p p' -> full_col_rank (design p x) ->
  full_col_rank (design p' x).
Proof.
move=> H fP b; have [A [A' [_ hA' e]]] := span_unit H fP; rewrite hA' -mulmxA => h.
have := fP _ h => h2; have := mulmx1C e => e'.
by rewrite -[b]mul1mx -e' -mulmxA h2 mulmx0.
Qed.

Theorem C122_predict r m (qr qr' : qr_fun R q r) ss ss' (c : kernel R X) (p p' : X -> 'I_q -> R)
  (x : 'I_(q + r) -> X) (z : 'cV[R]_(q + r)) (xt : 'I_m -> X) neg :
  same_span p p' -> identified p c x ->
  exists mu v lam, predict_at qr ss (KLinear p) c x z xt neg = Ok (mu, v, lam) /\
                   predict_at qr' ss' (KLinear p') c x z xt neg = Ok (mu, v, lam).
Proof.
move=> H [cK fP]; have [A [A' [hA hA' e]]] := span_unit H fP; have fP' := span_full H fP.
have nN (p0 : X -> 'I_q -> R) : (KLinear p0 : mean_kind R X q) <> KParam None by [].
have cK' : cond_pos_def (cov_same c x) (design p' x).
  split; first exact: cK.1.
  by move=> v hv; apply: cK.2; rewrite hA trmx_mul -mulmxA hv mulmx0.
do 3 eexists; split; first by apply: predict_rep => //; exact: nN.
rewrite (@predict_rep _ _ q r m qr' ss' (KLinear p') c x z xt neg) //.
have u := uk_lhs_unit cK fP; have u' := uk_lhs_unit cK' fP'.
have [e1 e2] := uk_eqs (cov_cross c x xt) (design p xt) u.
have [el em] := @uk_uniq _ _ _ _ (cov_same c x) (design p' x) (cov_cross c x xt) (design p' xt)
  (uk_lambda (cov_same c x) (design p x) (cov_cross c x xt) (design p xt))
  (A *m uk_mu (cov_same c x) (design p x) (cov_cross c x xt) (design p xt)) u'
  ltac:(by rewrite mulmxA -hA) ltac:(by rewrite [in LHS]hA' trmx_mul -mulmxA e2 -trmx_mul -hA').
rewrite -[uk_lambda _ (design (rp (mk:=KLinear p')) x) _ _]el.
congr (Ok (_, _, _)).
suff -> : einsum_ii (uk_sol (cov_same c x) (design (rp (mk:=KLinear p')) x) (cov_cross c x xt) (design (rp (mk:=KLinear p')) xt))
      (uk_rhs (cov_cross c x xt) (design (rp (mk:=KLinear p')) xt)) =
    einsum_ii (uk_sol (cov_same c x) (design (rp (mk:=KLinear p)) x) (cov_cross c x xt) (design (rp (mk:=KLinear p)) xt))
      (uk_rhs (cov_cross c x xt) (design (rp (mk:=KLinear p)) xt)) by [].
apply/rowP => j; rewrite !einsum_iiE !uk_sol_rhs /= -el -em.
by rewrite (trmx_mul A) -(mulmxA _ A^T) -(trmx_mul (design p' xt)) -hA.
Qed.

Theorem C122_loo r (qr qr' : qr_fun R q r) (c : kernel R X) (p p' : X -> 'I_q -> R)
  (x : 'I_(q + r) -> X) (z : 'cV[R]_(q + r)) :
  (forall P, is_qr P (qr P)) -> (forall P, is_qr P (qr' P)) -> same_span p p' -> identified p c x ->
  exists zl s2 el, loo_at qr (KLinear p) c x z = Ok (zl, s2, el) /\
                   loo_at qr' (KLinear p') c x z = Ok (zl, s2, el).
Proof.
move=> hqr hqr' H [cK fP]; have [A [A' [hA hA' e]]] := span_unit H fP; have fP' := span_full H fP.
have nN (p0 : X -> 'I_q -> R) : (KLinear p0 : mean_kind R X q) <> KParam None by [].
have cK' : cond_pos_def (cov_same c x) (design p' x).
  split; first exact: cK.1.
  by move=> v hv; apply: cK.2; rewrite hA trmx_mul -mulmxA hv mulmx0.
have [B [C [sB PB KB E]]] := @loo_rep _ _ q r qr (KLinear p) c x z hqr cK fP (nN p).
have [B' [C' [sB' PB' KB' E']]] := @loo_rep _ _ q r qr' (KLinear p') c x z hqr' cK' fP' (nN p').
have eB : B' = B.
  apply: uniq_B (uk_lhs_unit cK fP) _ _ PB KB.
    by rewrite /= hA trmx_mul -mulmxA PB' mulmx0.
  by instantiate (1 := A' *m C'); rewrite mulmxA -hA'.
do 3 eexists; split; first exact: E.
by rewrite E' eB.
Qed.
End Basis.

Section Criterion.
Variables (X : Type) (q : nat).
Local Notation RR := R_rcfType.

Theorem C122_criterion b r (qr qr' : qr_fun RR q r) (c : kernel RR X) (p p' : X -> 'I_q -> R)
  (x : 'I_(q + r) -> X) (z : 'cV[R]_(q + r)) :
  (forall P, is_qr P (qr P)) -> (forall P, is_qr P (qr' P)) -> same_span p p' -> identified p c x ->
  exists a, crit_at b qr (KLinear p) c x z = Ok (Fin a) /\ crit_at b qr' (KLinear p') c x z = Ok (Fin a).
Proof.
move=> hqr hqr' H [cK fP]; have [A [A' [hA hA' e]]] := span_unit H fP; have fP' := span_full H fP.
have nN (p0 : X -> 'I_q -> RR) : (KLinear p0 : mean_kind RR X q) <> KParam None by [].
have cK' : cond_pos_def (cov_same c x) (design p' x).
  split; first exact: cK.1.
  by move=> v hv; apply: cK.2; rewrite hA trmx_mul -mulmxA hv mulmx0.
have [B [C [sB PB KB _]]] := @loo_rep _ _ q r qr (KLinear p) c x z hqr cK fP (nN p).
have PB' : (design (@rp _ _ q (KLinear p')) x)^T *m B = 0 by rewrite /= hA' trmx_mul -mulmxA PB mulmx0.
have KB' : cov_same c x *m B + design (@rp _ _ q (KLinear p')) x *m (A *m C) = 1%:M by rewrite mulmxA -hA.
have [dp E] := @crit_rep _ q b r qr (KLinear p) c x z B C hqr cK fP (nN p) PB KB.
have [dp' E'] := @crit_rep _ q b r qr' (KLinear p') c x z B _ hqr' cK' fP' (nN p') PB' KB'.
eexists; split; first exact: E.
rewrite E' /=; rewrite /= in dp dp'.
have dA : \det A' != 0 by rewrite -unitfE -unitmxE; case/mulmx1_unit: e.
have d2 : 0 < \det A' ^+ 2 :> RR by rewrite lt_def sqrf_eq0 dA sqr_ge0.
have gp := pd_det (full_gram_pd fP).
have e1 : \det ((design p' x)^T *m design p' x) = \det A' ^+ 2 * \det ((design p x)^T *m design p x).
  by rewrite hA' trmx_mul -mulmxA [_^T *m (_ *m A')]mulmxA !det_mulmx det_tr expr2 -mulrA; congr (_ * _); rewrite mulrC.
have e2 : \det (uk_lhs (cov_same c x) (design p' x)) = \det A' ^+ 2 * \det (uk_lhs (cov_same c x) (design p x)).
  pose T : 'M[RR]_(q + r + q) := block_mx 1%:M 0 0 A'.
  have -> : uk_lhs (cov_same c x) (design p' x) = T^T *m uk_lhs (cov_same c x) (design p x) *m T.
    rewrite /T /uk_lhs tr_block_mx trmx1 !trmx0 !mulmx_block !mul1mx !mul0mx !mulmx0 !mulmx1 !addr0 !add0r.
    by rewrite mul0mx hA' trmx_mul.
  rewrite !det_mulmx det_tr /T det_ublock det1 mul1r expr2 -!mulrA; congr (_ * _); exact: mulrC.
have -> : (-1) ^+ q * \det (uk_lhs (cov_same c x) (design p' x)) =
    \det A' ^+ 2 * ((-1) ^+ q * \det (uk_lhs (cov_same c x) (design p x))) by rewrite e2 mulrCA.
rewrite e1 (lnM d2 dp) (lnM d2 gp).
have al (a' b' d' : RR) : d' + a' - (d' + b') = a' - b' by clear; ring.
by rewrite al.
Qed.
End Criterion.
Print Assumptions C122_predict.
Print Assumptions C122_loo.
Print Assumptions C122_criterion.

(* A concrete case: 1, x and x - 1, 1 + x at three points 0, 1, 2 of the line, covariance 1. *)
Section Case.
Let c : kernel R_rcfType R := Kernel (fun _ _ => 0) 1.
Let x : 'I_(2 + 1) -> R := fun i => (i : nat)%:R.
Let p : R -> 'I_2 -> R := fun y k => if k == 0 then 1 else y.
Let p' : R -> 'I_2 -> R := fun y k => if k == 0 then y - 1 else y + 1.
Example C122_case : same_span (R := R_rcfType) p p' /\ identified (R := R_rcfType) p c x.
Proof.
have s2 (F : 'I_2 -> R_rcfType) : \sum_k F k = F 0 + F 1 by rewrite big_ord_recl big_ord1; congr (_ + F _); apply: val_inj.
split.
- move=> h; split=> -[b hb].
  + exists (fun k => if k == 0 then (b 1 - b 0) / 2%:R else (b 1 + b 0) / 2%:R) => y.
    rewrite hb !s2 /p /p' /=; move: (b 0) (b 1) => b0 b1; have n2 : (2%:R : R_rcfType) != 0 by rewrite pnatr_eq0.
    by field.
  + exists (fun k => if k == 0 then b 1 - b 0 else b 1 + b 0) => y.
    rewrite hb !s2 /p /p' /=; move: (b 0) (b 1) => b0 b1; clear; ring.
- split.
  + apply: pd_cpd.
    have -> : cov_same c x = 1%:M by apply/matrixP => i j; rewrite !mxE add0r.
    exact: pos_def1.
  + move=> b hb.
    have h0 : b 0 0 = 0.
      by move/colP: hb => /(_ 0); rewrite !mxE s2 !mxE /p /x /= mul1r mul0r addr0.
    have h1 : b 1 0 = 0.
      move/colP: hb => /(_ 1); rewrite !mxE s2 !mxE /p /x /= h0 mulr0 add0r => <-; by rewrite mul1r.
    apply/colP => k; rewrite mxE; case: k => -[|[|//]] hk.
      by rewrite -[RHS]h0; congr (b _ _); apply: val_inj.
    by rewrite -[RHS]h1; congr (b _ _); apply: val_inj.
Qed.
End Case.
Print Assumptions C122_case.
