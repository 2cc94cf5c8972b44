(* ReplProofs.v: linear algebra of repeated noisy observations (property C119). *)
From Coq Require Import Reals.
From mathcomp Require Import all_ssreflect all_algebra.
From Verif Require Import LinAlg KrigModel CholProofs KrigProofs LooProofs.
Set Implicit Arguments.
Unset Strict Implicit.
Unset Printing Implicit Defensive.
Import Order.TTheory GRing.Theory Num.Theory.
Local Open Scope ring_scope.

Section Repl.
Variable R : rcfType.

(* non-negative on the contrasts *)
Definition cond_psd n q (A : 'M[R]_n) (P : 'M[R]_(n, q)) : Prop :=
  symmetric A /\ forall v, P^T *m v = 0 -> 0 <= qform A v.

Lemma det_swap n m (X : 'M[R]_(n, m)) (Y : 'M[R]_(m, n)) :
  \det (1%:M + X *m Y) = \det (1%:M + Y *m X).
Proof.
have e1 : \det (block_mx 1%:M (- X) Y 1%:M) = \det (1%:M + Y *m X).
  by rewrite det_schur ?unitmx1 // det1 mul1r invmx1 mulmx1 mulmxN opprK.
have : \det (block_mx 1%:M (- X) Y 1%:M *m block_mx 1%:M 0 (- Y) 1%:M) = \det (1%:M + X *m Y).
  rewrite mulmx_block !mulmx1 !mulmx0 !add0r mulNmx mulmxN opprK mul1mx subrr.
  by rewrite det_ublock det1 mulr1.
by rewrite det_mulmx det_lblock !det1 !mulr1 e1.
Qed.

Lemma act1 n q m (A B : 'M[R]_n) (P : 'M[R]_(n, q)) C (z : 'M[R]_(n, m)) :
  A *m B + P *m C = 1%:M -> A *m (B *m z) + P *m (C *m z) = z.
Proof. by move=> h; rewrite (mulmxA A) (mulmxA P) -mulmxDl h mul1mx. Qed.

Section Groups.
Variables (n n1 q : nat) (G : 'M[R]_(n, n1)) (D : 'M[R]_n) (T K0 : 'M[R]_n1) (P0 : 'M[R]_(n1, q)).
Hypothesis pD : pos_def D.
Hypothesis pT : pos_def T.
Let S := G^T *m invmx D *m G.
Hypothesis TS : T *m S = 1%:M.
Hypothesis cK : cond_psd K0 P0.
Hypothesis fP : full_col_rank P0.
Hypothesis fG : full_col_rank G.

Let K := G *m K0 *m G^T + D.
Let K1 := K0 + T.
Let P := G *m P0.

Lemma repl_ST : S *m T = 1%:M. Proof. exact: mulmx1C TS. Qed.
Lemma repl_uD : D \in unitmx. Proof. exact: pd_unit. Qed.
Lemma repl_sDi : (invmx D)^T = invmx D. Proof. by rewrite trmx_inv pD.1. Qed.

Lemma repl_cpd : cond_pos_def K P.
Proof.
split; first by rewrite /symmetric /K linearD /= !trmx_mul trmxK cK.1 pD.1 mulmxA.
move=> v Pv vn; rewrite /K /qform bilin_addm -!/(qform _ _).
have -> : qform (G *m K0 *m G^T) v = qform K0 (G^T *m v) by rewrite qform_mul trmxK.
apply: ltr_paddl; last exact: pD.2.
by apply: cK.2; rewrite mulmxA -trmx_mul.
Qed.

Lemma repl_cpd1 : cond_pos_def K1 P0.
Proof.
split; first by rewrite /symmetric /K1 linearD /= cK.1 pT.1.
move=> v Pv vn; rewrite /K1 /qform bilin_addm -!/(qform _ _).
by apply: ltr_paddl; [exact: cK.2 | exact: pT.2].
Qed.

Lemma repl_rank : full_col_rank P.
Proof. by move=> b; rewrite /P -mulmxA => /fG /fP. Qed.

Lemma repl_unit : uk_lhs K P \in unitmx.
Proof. exact: uk_lhs_unit repl_cpd repl_rank. Qed.
Lemma repl_unit1 : uk_lhs K1 P0 \in unitmx.
Proof. exact: uk_lhs_unit repl_cpd1 fP. Qed.

(* solutions of the block system of the groups give solutions of the whole one *)
Lemma repl_eqs m (e : 'M[R]_(n, m)) (b1 z1 : 'M[R]_(n1, m)) (mu : 'M[R]_(q, m)) :
  G^T *m (invmx D *m e) = 0 -> K1 *m b1 + P0 *m mu = z1 ->
  let b := invmx D *m e + invmx D *m (G *m (T *m b1)) in
  K *m b + P *m mu = e + G *m z1 /\ P^T *m b = P0^T *m b1 /\ G^T *m b = b1.
Proof.
move=> Ge e1 b.
have Gb : G^T *m b = b1.
  by rewrite /b mulmxDr Ge add0r !mulmxA -/S repl_ST mul1mx.
split; last by split=> //; rewrite /P trmx_mul -mulmxA Gb.
have -> : K *m b = G *m (K0 *m b1) + D *m b.
  by rewrite /K mulmxDl -Gb !mulmxA.
have -> : D *m b = e + G *m (T *m b1).
  by rewrite /b mulmxDr !mulKVmx ?repl_uD.
have -> : P *m mu = G *m (P0 *m mu) by rewrite /P mulmxA.
rewrite -e1 /K1 mulmxDl !mulmxDr.
by rewrite [X in X + _]addrCA -!addrA.
Qed.

Lemma repl_sol m (Kit : 'M[R]_(n1, m)) Pt :
  uk_lambda K P (G *m Kit) Pt = invmx D *m (G *m (T *m uk_lambda K1 P0 Kit Pt)) /\
  uk_mu K P (G *m Kit) Pt = uk_mu K1 P0 Kit Pt.
Proof.
have [e1 e2] := uk_eqs Kit Pt repl_unit1.
have g0 : G^T *m (invmx D *m (0 : 'M[R]_(n, m))) = 0 by rewrite !mulmx0.
have [h1 [h2 _]] := repl_eqs g0 e1.
move: h1 h2; rewrite mulmx0 !add0r => h1 h2.
have [-> ->] := uk_uniq repl_unit h1 (etrans h2 e2).
by [].
Qed.

Lemma repl_var m (Kit : 'M[R]_(n1, m)) Pt j :
  einsum_ii (uk_sol K P (G *m Kit) Pt) (uk_rhs (G *m Kit) Pt) 0 j =
  einsum_ii (uk_sol K1 P0 Kit Pt) (uk_rhs Kit Pt) 0 j.
Proof.
rewrite !einsum_iiE !uk_sol_rhs; have [-> ->] := repl_sol Kit Pt.
rewrite !maddE; congr (_ + _); rewrite !trmx_mul repl_sDi pT.1 -!mulmxA.
by rewrite [G^T *m _]mulmxA [(G^T *m _) *m _]mulmxA -/S [T *m _]mulmxA TS mul1mx.
Qed.

(* the observation that stands for each group *)
Definition zbar m (z : 'M[R]_(n, m)) := T *m (G^T *m (invmx D *m z)).

Lemma repl_pred m m' (Kit : 'M[R]_(n1, m)) Pt (z : 'M[R]_(n, m')) :
  (uk_lambda K P (G *m Kit) Pt)^T *m z = (uk_lambda K1 P0 Kit Pt)^T *m zbar z.
Proof.
have [-> _] := repl_sol Kit Pt.
by rewrite !trmx_mul repl_sDi pT.1 -!mulmxA.
Qed.

Lemma repl_res m (z : 'M[R]_(n, m)) : G^T *m (invmx D *m (z - G *m zbar z)) = 0.
Proof. by rewrite !mulmxBr !mulmxA -/S repl_ST mul1mx subrr. Qed.

Lemma repl_quad (z : 'cV[R]_n) B C B1 C1 :
  P^T *m B = 0 -> K *m B + P *m C = 1%:M ->
  P0^T *m B1 = 0 -> K1 *m B1 + P0 *m C1 = 1%:M ->
  qform B z = qform B1 (zbar z) + qform (invmx D) (z - G *m zbar z).
Proof.
move=> PB KB PB1 KB1; set z1 := zbar z; set e := z - G *m z1.
have e1 : K1 *m (B1 *m z1) + P0 *m (C1 *m z1) = z1 by exact: act1.
have [h1 [h2 h3]] := repl_eqs (repl_res z) e1; rewrite -/e in h1 h2 h3.
set b := invmx D *m e + _ in h1 h2 h3.
have ez : e + G *m z1 = z by rewrite /e subrK.
have h2' : P^T *m b = (0 : 'M[R]_(1, q))^T by rewrite h2 mulmxA PB1 mul0mx trmx0.
have k1 : K *m (B *m z) + P *m (C *m z) = z by exact: act1.
have k2 : P^T *m (B *m z) = (0 : 'M[R]_(1, q))^T by rewrite mulmxA PB mul0mx trmx0.
rewrite ez in h1.
have [eb _] := uk_uniq repl_unit h1 h2'; have [eB _] := uk_uniq repl_unit k1 k2.
have Bz : B *m z = b by rewrite eb eB.
rewrite /qform /bilin -!mulmxA Bz -[in LHS]ez [(e + _)^T]linearD /= mulmxDl [LHS]mxE.
rewrite addrC; congr (_ + _); first by rewrite trmx_mul -mulmxA h3.
rewrite /b mulmxDr [LHS]mxE.
suff -> : e^T *m (invmx D *m (G *m (T *m (B1 *m z1)))) = 0 by rewrite [X in _ + X]mxE addr0.
have : (G^T *m (invmx D *m e))^T = 0 by rewrite (repl_res z) trmx0.
move: (T *m _) => y; rewrite !trmx_mul trmxK repl_sDi => h.
by rewrite (mulmxA _ _ (G *m y)) (mulmxA _ G y) h mul0mx.
Qed.

Lemma repl_det : \det (uk_lhs K P) = \det D * \det S * \det (uk_lhs K1 P0).
Proof.
pose Dq := block_mx D 0 0 1%:M : 'M[R]_(n + q).
pose Di := block_mx (invmx D) 0 0 1%:M : 'M[R]_(n + q).
pose Gq := block_mx G 0 0 1%:M : 'M[R]_(n + q, n1 + q).
pose Gt := block_mx G^T 0 0 1%:M : 'M[R]_(n1 + q, n + q).
pose M := block_mx K0 P0 P0^T (- 1%:M) : 'M[R]_(n1 + q).
pose Sq := block_mx S 0 0 1%:M : 'M[R]_(n1 + q).
have DDi : Dq *m Di = 1%:M.
  by rewrite mulmx_block !mulmx0 !mul0mx !addr0 !add0r mul1mx mulmxV ?repl_uD // -scalar_mx_block.
have e1 : uk_lhs K P = Dq *m (1%:M + (Di *m Gq *m M) *m Gt).
  rewrite mulmxDr mulmx1 !mulmxA DDi mul1mx /uk_lhs /Gq /M /Gt /Dq !mulmx_block.
  rewrite !mulmx0 !mul0mx !addr0 !add0r !mul1mx !mulmx1 add_block_mx !add0r subrr.
  by rewrite /K /P trmx_mul addrC.
have e2 : Gt *m (Di *m Gq *m M) = Sq *m M.
  rewrite !mulmxA; congr (_ *m _); rewrite /Gt /Di /Gq !mulmx_block.
  by rewrite /Sq !(mulmx0, mul0mx, addr0, add0r, mulmx1).
have e3 : 1%:M + Sq *m M = Sq *m uk_lhs K1 P0.
  rewrite /Sq /M /uk_lhs !mulmx_block !mul0mx !addr0 !add0r !mul1mx.
  rewrite (scalar_mx_block n1 q) add_block_mx !add0r subrr.
  by rewrite /K1 mulmxDr repl_ST addrC.
rewrite e1 det_mulmx det_swap e2 e3 det_mulmx /Dq /Sq !det_ublock !det1 !mulr1.
by rewrite mulrA.
Qed.
End Groups.

(* An observation at the place of another one has a small leave-one-out variance. *)
Section Dup.
Variables (n q : nat) (K B : 'M[R]_n) (P : 'M[R]_(n, q)) (C : 'M[R]_(q, n)).
Hypothesis cK : cond_pos_def K P.
Hypothesis sB : symmetric B.
Hypothesis PB : P^T *m B = 0.
Hypothesis KB : K *m B + P *m C = 1%:M.

Lemma col_PB i : P^T *m col i B = 0.
Proof. by rewrite colE mulmxA PB mul0mx. Qed.

Lemma qform_col i : qform K (col i B) = B i i.
Proof. by rewrite colE qform_mul sB (BKB sB PB KB) qform_delta. Qed.

(* Cauchy-Schwarz for the contrast w against the i-th column of B *)
Lemma dup_upper (w : 'cV[R]_n) i : P^T *m w = 0 -> w i 0 = 1 -> 1 <= qform K w * B i i.
Proof.
move=> Pw wi.
have wKB : bilin K w (col i B) = 1.
  have eK : K *m col i B = delta_mx i 0 - P *m C *m delta_mx i 0.
    by rewrite colE mulmxA -[K *m B](addrK (P *m C)) KB mulmxBl mul1mx.
  rewrite /bilin -mulmxA eK mulmxBr.
  have -> : w^T *m (P *m C *m (delta_mx i 0 : 'cV[R]_n)) = 0.
    by rewrite !mulmxA -[w^T *m P]trmxK trmx_mul trmxK Pw trmx0 !mul0mx.
  by rewrite subr0 -colE mxE mxE.
have psd v : P^T *m v = 0 -> 0 <= qform K v.
  by move=> h; have [->|vn] := eqVneq v 0; [rewrite qform0 | apply/ltW/cK.2].
have Bn : 0 < B i i.
  rewrite -qform_col; apply: cK.2; first exact: col_PB.
  by apply/eqP => h; move: wKB; rewrite h /bilin mulmx0 mxE => /esym/eqP; rewrite oner_eq0.
have := psd (B i i *: w - col i B).
rewrite mulmxBr -scalemxAr Pw scaler0 col_PB subrr => /(_ erefl).
rewrite (qformD _ _ cK.1) qformN qform_col qformZ bilinNr bilinZl wKB mulr1 => h.
have : 0 <= B i i * (B i i * qform K w - 1).
  move: h; congr (0 <= _); rewrite mulrBr mulr1 mulrA -expr2 mulrN -addrA; congr (_ + _).
  by rewrite mulr_natl mulr2n opprD -addrA addNr addr0.
by rewrite pmulr_rge0 // subr_ge0 mulrC.
Qed.

(* the noise variance t of observation i is a lower bound *)
Lemma dup_lower i t : 0 <= t -> (forall v, P^T *m v = 0 -> t * v i 0 ^+ 2 <= qform K v) ->
  t * B i i <= 1.
Proof.
move=> t0 h; have := h (col i B) (col_PB i); rewrite qform_col [col i B i 0]mxE => h1.
have [Bp|Bn] := ltP 0 (B i i).
  by move: h1; rewrite expr2 mulrA -[X in _ <= X]mul1r ler_pmul2r.
by apply: (le_trans (mulr_ge0_le0 t0 Bn)); exact: ler01.
Qed.
End Dup.
End Repl.
