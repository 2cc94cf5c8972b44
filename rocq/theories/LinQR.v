(* LinQR.v: the contract of a complete QR factorisation and of a symmetric SVD,
   consequences used by the theorems, and a Householder construction showing
   that the QR contract can be met for every matrix. *)
From mathcomp Require Import all_ssreflect all_algebra ring.
From Verif Require Import LinAlg KrigModel CholProofs.
Set Implicit Arguments.
Unset Strict Implicit.
Unset Printing Implicit Defensive.
Import Order.TTheory GRing.Theory Num.Theory.
Local Open Scope ring_scope.

Section QR.
Variable R : rcfType.

(* Documented contract of qr(P, mode="complete"). *)
Definition is_qr q r (P : 'M[R]_(q + r, q)) (QR : 'M[R]_(q + r) * 'M[R]_(q + r, q)) :=
  [/\ QR.1^T *m QR.1 = 1%:M,
      QR.1 *m QR.2 = P
    & forall (i : 'I_(q + r)) (j : 'I_q), (j < i)%N -> QR.2 i j = 0].

(* An orthonormal basis of the orthogonal complement of the columns of P. *)
Definition is_contrast_basis n q r (P : 'M[R]_(n, q)) (W : 'M[R]_(n, r)) : Prop :=
  [/\ W^T *m W = 1%:M, P^T *m W = 0 & (n = q + r)%N].

Lemma qr_dsub q r (P : 'M[R]_(q + r, q)) QR : is_qr P QR -> dsubmx QR.2 = 0.
Proof.
case=> _ _ up; apply/matrixP => i j; rewrite !mxE; apply: up => /=.
by rewrite ltn_addr.
Qed.

Lemma qr_blocks q r (P : 'M[R]_(q + r, q)) QR : is_qr P QR ->
  let Q1 := lsubmx QR.1 in let W := rsubmx QR.1 in let Rq := usubmx QR.2 in
  [/\ P = Q1 *m Rq, Q1^T *m Q1 = 1%:M, W^T *m W = 1%:M, Q1^T *m W = 0
    & Q1 *m Q1^T + W *m W^T = 1%:M].
Proof.
move=> qrP; have dR := qr_dsub qrP; case: qrP => QtQ QR_P _.
have bQ : QR.1 = row_mx (lsubmx QR.1) (rsubmx QR.1) by rewrite hsubmxK.
have := QtQ; rewrite {1 2}bQ tr_row_mx mul_col_row scalar_mx_block.
move=> /eq_block_mx [e11 e12 _ e22]; split=> //.
- by rewrite -QR_P {1}bQ -{1}[QR.2]vsubmxK mul_row_col dR mulmx0 addr0.
- have := mulmx1C QtQ; rewrite {1 2}bQ tr_row_mx mul_row_col -scalar_mx_block => <- //.
Qed.

Lemma qr_contrast q r (P : 'M[R]_(q + r, q)) QR : is_qr P QR ->
  is_contrast_basis P (rsubmx QR.1).
Proof.
move=> /qr_blocks [eP _ WW QW _]; split=> //.
by rewrite eP trmx_mul -mulmxA QW mulmx0.
Qed.

Lemma orth_full_rank n r (W : 'M[R]_(n, r)) : W^T *m W = 1%:M -> full_col_rank W.
Proof. by move=> WW b /(congr1 (mulmx W^T)); rewrite mulmxA WW mul1mx mulmx0. Qed.

Lemma qr_Rq_unit q r (P : 'M[R]_(q + r, q)) QR : is_qr P QR -> full_col_rank P ->
  usubmx QR.2 \in unitmx.
Proof.
move=> /qr_blocks [eP _ _ _ _] fP; apply: unit_of_inj => x Rx.
by apply: fP; rewrite eP -mulmxA Rx mulmx0.
Qed.

(* Householder reflections *)
Definition sqn n (v : 'cV[R]_n) : R := qform 1%:M v.
Definition house n (v : 'cV[R]_(1 + n)) : 'M[R]_(1 + n) :=
  let s := Num.sqrt (sqn v) in
  let u := v - col_mx s%:M 0 in
  1%:M - (2%:R / sqn u) *: (u *m u^T).

Lemma mulTv n (u v : 'cV[R]_n) : u^T *m v = (bilin 1%:M u v)%:M.
Proof. by rewrite [LHS]mx11E /bilin mulmx1. Qed.

Lemma house_sym n (v : 'cV[R]_(1 + n)) : (house v)^T = house v.
Proof. by rewrite /house linearB /= trmx1 linearZ /= trmx_mul trmxK. Qed.

Lemma refl_sq n (u : 'cV[R]_n) :
  (1%:M - (2%:R / sqn u) *: (u *m u^T)) *m (1%:M - (2%:R / sqn u) *: (u *m u^T)) = 1%:M.
Proof.
have [u0|un0] := eqVneq (sqn u) 0.
  by rewrite u0 invr0 mulr0 scale0r subr0 mulmx1.
rewrite mulmxBl mul1mx mulmxBr mulmx1 -scalemxAl -scalemxAr.
rewrite -mulmxA [u^T *m (u *m _)]mulmxA mulTv mul_scalar_mx -scalemxAr !scalerA.
rewrite -[bilin _ u u]/(sqn u).
have -> : 2%:R / sqn u * (2%:R / sqn u * sqn u) = 2%:R / sqn u + 2%:R / sqn u :> R by field.
rewrite scalerDl; move: (_ *: _) => A.
have -> : A - (A + A) = - A by rewrite opprD addrA subrr sub0r.
by rewrite opprK subrK.
Qed.

Lemma house_orth n (v : 'cV[R]_(1 + n)) : house v *m house v = 1%:M.
Proof. exact: refl_sq. Qed.

Lemma house_mul n (v : 'cV[R]_(1 + n)) :
  house v *m v = col_mx (Num.sqrt (sqn v))%:M 0.
Proof.
rewrite /house; set s := Num.sqrt _; set e : 'cV_(1 + n) := col_mx _ _; set u := v - e.
have ss : s ^+ 2 = sqn v by rewrite sqr_sqrtr // qform1_ge0.
have see : sqn e = s ^+ 2.
  rewrite /sqn qform1 big_split_ord /= big_ord1 col_mxEu mxE eqxx mulr1n.
  rewrite big1 ?addr0 // => i _; by rewrite col_mxEd mxE expr0n.
have evu : bilin 1%:M u v = sqn v - bilin 1%:M v e.
  rewrite /u bilinDl bilinNl -/(sqn v); congr (_ - _).
  by rewrite bilin_tr trmx1.
have euu : sqn u = 2%:R * (sqn v - bilin 1%:M v e).
  rewrite /sqn /u qformD ?bilinNr ?qformN -?/(sqn _); last exact: trmx1.
  rewrite -/(sqn e) see ss; ring.
rewrite mulmxBl mul1mx -scalemxAl -mulmxA mulTv mul_mx_scalar scalerA evu.
have [u0|un0] := eqVneq (sqn u) 0.
  have uz : u = 0 by apply: qform1_eq0.
  by rewrite uz scaler0 subr0; apply/eqP; rewrite -subr_eq0 -/u uz.
have h : sqn v - bilin 1%:M v e != 0 by apply: contra un0 => /eqP; rewrite euu => ->; rewrite mulr0.
rewrite euu; have -> : 2%:R / (2%:R * (sqn v - bilin 1%:M v e)) * (sqn v - bilin 1%:M v e) = 1 :> R.
  by field; rewrite h.
by rewrite scale1r opprB addrCA subrr addr0.
Qed.

Fixpoint hqr q r : 'M[R]_(q + r, q) -> 'M[R]_(q + r) * 'M[R]_(q + r, q) :=
  match q return 'M[R]_(q + r, q) -> 'M[R]_(q + r) * 'M[R]_(q + r, q) with
  | 0 => fun P => (1%:M, P)
  | q'.+1 => fun P0 =>
      let P : 'M[R]_(1 + (q' + r), 1 + q') := P0 in
      let H := house (lsubmx P) in
      let P' := H *m P in
      let QR2 := hqr (drsubmx P') in
      ((H *m block_mx 1%:M 0 0 QR2.1 : 'M[R]_(1 + (q' + r))),
       (block_mx (ulsubmx P') (ursubmx P') 0 QR2.2 : 'M[R]_(1 + (q' + r), 1 + q')))
  end.

Lemma block_upper m n (x : 'M[R]_1) (y : 'rV[R]_n) (B : 'M[R]_(m, n)) :
  (forall (i : 'I_m) (j : 'I_n), (j < i)%N -> B i j = 0) ->
  forall (i : 'I_(1 + m)) (j : 'I_(1 + n)), (j < i)%N -> block_mx x y 0 B i j = 0.
Proof.
move=> up i j; rewrite -[i]splitK -[j]splitK.
case: (split j) => j'; case: (split i) => i' /=.
- by rewrite !ord1.
- by rewrite block_mxEdl mxE.
- by rewrite !ord1.
- by rewrite block_mxEdr ltn_add2l; apply: up.
Qed.

Lemma hqr_ok q r (P : 'M[R]_(q + r, q)) : is_qr P (hqr P).
Proof.
elim: q P => [|q IH].
  move=> P; split=> /=; [by rewrite trmx1 mulmx1| by rewrite mul1mx| by move=> i []].
rewrite -[q.+1]/(1 + q)%N => P0; set P : 'M[R]_(1 + (q + r), 1 + q) := P0.
rewrite /is_qr /= -/P; set H := house _; set P' := H *m P; set QR2 := hqr _.
have [QQ QR up] : is_qr (drsubmx P') QR2 := IH _.
have HH : H *m H = 1%:M := house_orth _.
have HT : H^T = H := house_sym _.
have dl0 : dlsubmx P' = 0.
  have -> : P' = row_mx (H *m lsubmx P) (H *m rsubmx P).
    by rewrite -mul_mx_row hsubmxK.
  by rewrite house_mul -[H *m rsubmx P]vsubmxK -block_mxEh block_mxKdl.
split.
- change ((H *m block_mx 1%:M 0 0 QR2.1)^T *m (H *m block_mx 1%:M 0 0 QR2.1) = 1%:M :> 'M[R]_(1 + (q + r))).
  rewrite trmx_mul HT -mulmxA (mulmxA H) HH mul1mx tr_block_mx !trmx0 trmx1 mulmx_block.
  by rewrite !mul0mx !mulmx0 !mulmx1 !addr0 !add0r QQ -scalar_mx_block.
- change (H *m block_mx 1%:M 0 0 QR2.1 *m block_mx (ulsubmx P') (ursubmx P') 0 QR2.2 = P :> 'M[R]_(1 + (q + r), 1 + q)).
  rewrite -mulmxA mulmx_block !mul1mx !mul0mx !mulmx0 !addr0 !add0r QR -dl0.
  by rewrite submxK /P' mulmxA HH mul1mx.
- exact: (@block_upper (q + r) q (ulsubmx P') (ursubmx P') QR2.2 up).
Qed.

Lemma qr_exists q r : exists qr : qr_fun R q r, forall P, is_qr P (qr P).
Proof. by exists (@hqr q r) => P; apply: hqr_ok. Qed.

End QR.
