(* KrigProofs2.v: universal kriging continued (C20, C21, C23-C27). *)
From mathcomp Require Import all_ssreflect all_algebra ring.
From Verif Require Import LinAlg KrigModel CholProofs LinQR KrigProofs.
Set Implicit Arguments.
Unset Strict Implicit.
Unset Printing Implicit Defensive.
Import Order.TTheory GRing.Theory Num.Theory.
Local Open Scope ring_scope.

Section Spec2.
Variable R : rcfType.
(* b minimises the generalised least squares criterion with weight K^-1 *)
Definition gls_minimiser n q (K : 'M[R]_n) (P : 'M[R]_(n, q)) (z : 'cV[R]_n) (b : 'cV[R]_q) : Prop :=
  forall b', qform (invmx K) (z - P *m b) <= qform (invmx K) (z - P *m b').
End Spec2.

(* abelian-group identities between matrices, products being atoms *)
Ltac mxring :=
  repeat (let x := fresh "x" in set x := (mulmx _ _); clearbody x);
  repeat (let x := fresh "x" in set x := (trmx _); clearbody x);
  let i := fresh "i" in let j := fresh "j" in
  apply/matrixP => i j; rewrite !mxE; gring.

Section UK.
Variable R : rcfType.
Implicit Types (n m q r : nat).

(* ---- interpolation ---- *)
Lemma uk_col_interp n q m (K : 'M[R]_n) (P : 'M[R]_(n, q)) (Kit : 'M[R]_(n, m)) Pt i j :
  uk_lhs K P \in unitmx -> col j Kit = col i K -> row j Pt = row i P ->
  col j (uk_lambda K P Kit Pt) = delta_mx i 0 /\ col j (uk_mu K P Kit Pt) = 0.
Proof.
move=> u e1 e2.
have e : col j (uk_sol K P Kit Pt) = col_mx (delta_mx i 0) 0.
  rewrite /uk_sol col_mulmx /uk_rhs col_col_mx e1 -tr_row e2.
  have -> : col_mx (col i K) (row i P)^T = uk_lhs K P *m col_mx (delta_mx i 0) 0.
    by rewrite /uk_lhs mul_block_col !mulmx0 !addr0 -!colE tr_row.
  by rewrite mulKmx.
rewrite /uk_lambda /uk_mu; split; apply/colP => k; move/colP: e => e.
  by have := e (lshift q k); rewrite col_mxEu => <-; rewrite !mxE.
by have := e (rshift n k); rewrite col_mxEd => <-; rewrite !mxE.
Qed.

Lemma uk_einsum n q m (K : 'M[R]_n) (P : 'M[R]_(n, q)) (Kit : 'M[R]_(n, m)) Pt j :
  einsum_ii (uk_sol K P Kit Pt) (uk_rhs Kit Pt) 0 j =
  lincomb (col j (uk_lambda K P Kit Pt)) (col j Kit) +
  lincomb (col j (uk_mu K P Kit Pt)) (row j Pt)^T.
Proof.
rewrite einsum_iiE uk_sol_rhs maddE !mxE; congr (_ + _); apply: eq_bigr => k _; by rewrite !mxE.
Qed.

(* ---- the full predictor, fall-back included ---- *)
Section Full.
Variables (q r m : nat) (qr : qr_fun R q r).
Variable symsolve : 'M[R]_q -> 'M[R]_(q, m) -> res 'M[R]_(q, m).
Variables (K : 'M[R]_(q + r)) (P : 'M[R]_(q + r, q)) (Kit : 'M[R]_(q + r, m)) (Pt : 'M[R]_(m, q)).
Variable tt : prior_tt R m.

Lemma kriging_predictor_main rt : uk_lhs K P \in unitmx ->
  rt \in [:: -1; 0; 1] ->
  kriging_predictor qr symsolve K P Kit Pt tt rt = kriging_predictor_block K P Kit Pt tt rt.
Proof.
move=> u; rewrite !inE => /or3P [] /eqP ->; rewrite /kriging_predictor /kriging_predictor_block /solve u //.
Qed.

Lemma predict_linear_ok zi (clip : bool) : uk_lhs K P \in unitmx ->
  predict qr symsolve (MLinear P Pt) K Kit tt zi clip =
  let v := tt_pairwise tt - einsum_ii (uk_sol K P Kit Pt) (uk_rhs Kit Pt) in
  Ok (einsum_iz (uk_lambda K P Kit Pt) zi + 0, if clip then clip0 v else v, uk_lambda K P Kit Pt).
Proof.
by move=> u; rewrite /predict /= kriging_predictor_main // krig_block_ok0.
Qed.

Lemma predict_linear_interp zi i j :
  uk_lhs K P \in unitmx -> col j Kit = col i K -> row j Pt = row i P ->
  exists mu v lam,
    predict qr symsolve (MLinear P Pt) K Kit tt zi false = Ok (mu, v, lam) /\
    mu 0 j = zi i 0 /\ v 0 j = tt_pairwise tt 0 j - K i i.
Proof.
move=> u e1 e2; do 3 eexists; split; first exact: predict_linear_ok.
have [l0 m0] := uk_col_interp u e1 e2.
rewrite addr0 einsum_iz_lincomb l0 lincomb_delta; split=> //.
rewrite rsubE uk_einsum l0 m0 lincomb_delta e1 mxE.
rewrite [lincomb 0 _]big1 ?addr0 // => k _; by rewrite mxE mul0r.
Qed.

(* trend equivariance *)
Lemma predict_linear_trend zi b clip : uk_lhs K P \in unitmx ->
  exists mu mu' v lam,
    [/\ predict qr symsolve (MLinear P Pt) K Kit tt zi clip = Ok (mu, v, lam),
        predict qr symsolve (MLinear P Pt) K Kit tt (zi + P *m b) clip = Ok (mu', v, lam)
      & mu' = mu + (Pt *m b)^T].
Proof.
move=> u; do 4 eexists; split; [exact: predict_linear_ok | exact: predict_linear_ok |].
rewrite !addr0; apply/rowP => j; rewrite maddE !einsum_izE mulmxDr maddE; congr (_ + _).
have [_ e2] := uk_eqs Kit Pt u.
have -> : (uk_lambda K P Kit Pt)^T *m (P *m b) = Pt *m b.
  by rewrite mulmxA; congr (_ *m b); apply: trmx_inj; rewrite trmx_mul trmxK.
by rewrite [RHS]mxE.
Qed.
End Full.

(* GLS *)
Lemma gls_normal n q (K : 'M[R]_n) (P : 'M[R]_(n, q)) z b :
  pos_def K -> gls_minimiser K P z b -> P^T *m invmx K *m (z - P *m b) = 0.
Proof.
move=> pdK H; have [sV pV] := pd_inv pdK.
set e := z - P *m b.
have key d : bilin (invmx K) e (P *m d) = 0.
  apply: (@quad_ge0 _ (qform (invmx K) (P *m d))) => t.
  have := H (b - t *: d).
  have -> : z - P *m (b - t *: d) = e + t *: (P *m d).
    by rewrite mulmxBr -scalemxAr opprB /e addrA addrAC.
  rewrite -/e (qformD e _ sV) qformZ bilinZr -addrA ler_addl => h.
  have -> : qform (invmx K) (P *m d) * t ^+ 2 + 2 * bilin (invmx K) e (P *m d) * t
     = 2 * (t * bilin (invmx K) e (P *m d)) + t ^+ 2 * qform (invmx K) (P *m d).
    by gring.
  exact: h.
apply/colP => k; rewrite [RHS]mxE.
have := key (delta_mx k 0); rewrite bilin_tr sV bilin_mull.
by rewrite /bilin trmx_delta -mulmxA -rowE mxE.
Qed.

Lemma gls_exists n q (K : 'M[R]_n) (P : 'M[R]_(n, q)) z :
  pos_def K -> full_col_rank P ->
  gls_minimiser K P z (invmx (P^T *m invmx K *m P) *m (P^T *m invmx K *m z)).
Proof.
move=> pdK fP b'; have pV := pd_inv pdK; have pG := pd_congr pV fP.
set b := invmx _ *m _.
have nb : P^T *m invmx K *m (z - P *m b) = 0.
  by rewrite mulmxBr [X in _ - X]mulmxA /b mulKVmx ?pd_unit // subrr.
have -> : z - P *m b' = (z - P *m b) + P *m (b - b').
  by rewrite mulmxBr addrA subrK.
rewrite [X in _ <= X]qformD; last exact: pV.1.
have -> : bilin (invmx K) (z - P *m b) (P *m (b - b')) = 0.
  by rewrite bilin_tr pV.1 bilin_mull /bilin -mulmxA nb mulmx0 mxE.
by rewrite mulr0 addr0 ler_addl; apply: (pd_psd pV).2.
Qed.

Lemma uk_gls n q m (K : 'M[R]_n) (P : 'M[R]_(n, q)) (Kit : 'M[R]_(n, m)) Pt z b :
  pos_def K -> full_col_rank P -> gls_minimiser K P z b ->
  (uk_lambda K P Kit Pt)^T *m z = Pt *m b + Kit^T *m invmx K *m (z - P *m b).
Proof.
move=> pdK fP /(gls_normal pdK) nb.
have u := uk_lhs_unit (pd_cpd P pdK) fP; have [e1 e2] := uk_eqs Kit Pt u.
set lam := uk_lambda _ _ _ _ in e1 e2 *; set mu := uk_mu _ _ _ _ in e1.
have -> : z = P *m b + (z - P *m b) by rewrite addrC subrK.
rewrite mulmxDr mulmxA; congr (_ + _).
  by congr (_ *m b); apply: trmx_inj; rewrite trmx_mul trmxK.
rewrite [_ + (z - _)]addrC subrK; set e := z - P *m b in nb *.
rewrite -[in RHS]e1 [(_ + _)^T]linearD /= mulmxDl mulmxDl !trmx_mul (pd_sym pdK).
rewrite -!mulmxA [P^T *m _]mulmxA nb mulmx0 addr0.
by rewrite mulKVmx // pd_unit.
Qed.

(* ---- posterior covariance of universal kriging ---- *)
Lemma uk_postcov_form n q m (K : 'M[R]_n) (P : 'M[R]_(n, q)) (Kit : 'M[R]_(n, m)) Pt Ktt :
  symmetric K -> uk_lhs K P \in unitmx ->
  let lam := uk_lambda K P Kit Pt in
  Ktt - (uk_sol K P Kit Pt)^T *m uk_rhs Kit Pt =
  (col_mx (- lam) 1%:M)^T *m joint K Kit Ktt *m col_mx (- lam) 1%:M.
Proof.
move=> sK u lam; have [e1 e2] := uk_eqs Kit Pt u; rewrite -/lam in e1 e2.
rewrite uk_sol_rhs -/lam; set mu := uk_mu _ _ _ _ in e1 *.
set A := lam^T *m K *m lam; set B := Pt *m mu.
have h1 : lam^T *m Kit = A + B.
  rewrite -[in LHS]e1 mulmxDr !mulmxA; congr (_ + _).
  by rewrite /B; congr (_ *m mu); apply: trmx_inj; rewrite trmx_mul trmxK.
have sA : A^T = A by rewrite /A !trmx_mul trmxK sK mulmxA.
have h2 : Kit^T *m lam = A + B^T.
  by apply: trmx_inj; rewrite trmx_mul trmxK h1 linearD /= trmxK sA.
have h3 : mu^T *m Pt^T = B^T by rewrite trmx_mul.
rewrite /joint tr_col_mx trmx1 linearN /= mul_row_block mul_row_col.
rewrite !mul1mx !mulNmx !mulmxN !mulmx1 mulmxDl !mulNmx h1 h2 h3 -/A.
by rewrite addKr [- (A + B) + _]addrC [RHS]addrC opprD [LHS]addrA.
Qed.

Lemma uk_postcov_psd n q m (K : 'M[R]_n) (P : 'M[R]_(n, q)) (Kit : 'M[R]_(n, m)) Pt Ktt tt :
  cond_pos_def K P -> full_col_rank P -> pos_semidef (joint K Kit Ktt) ->
  tt_pairwise tt = diag_of Ktt -> tt_full tt = Ktt ->
  exists lam v C,
   [/\ kriging_predictor_block K P Kit Pt tt 0 = Ok (lam, PVVar v),
       kriging_predictor_block K P Kit Pt tt 1 = Ok (lam, PVCov C),
       pos_semidef C, v = diag_of C
     & forall j, 0 <= v 0 j].
Proof.
move=> cK fP psJ e1 e2; have u := uk_lhs_unit cK fP.
exists (uk_lambda K P Kit Pt); do 2 eexists.
have psC : pos_semidef (tt_full tt - (uk_sol K P Kit Pt)^T *m uk_rhs Kit Pt).
  rewrite e2 uk_postcov_form //; [exact: psd_congr | exact: cK.1].
have ev : tt_pairwise tt - einsum_ii (uk_sol K P Kit Pt) (uk_rhs Kit Pt) =
   diag_of (tt_full tt - (uk_sol K P Kit Pt)^T *m uk_rhs Kit Pt).
  by apply/rowP => j; rewrite diagE rsubE msubE e1 e2 diagE einsum_iiE.
split; [exact: krig_block_ok0 | exact: krig_block_ok1 | exact: psC | exact: ev |].
by move=> j; rewrite ev diagE; apply: psd_diag_ge0.
Qed.

(* with the simple-kriging variance as a lower bound: not knowing the trend
   costs something *)
Lemma uk_var_ge_zm n q m (K : 'M[R]_n) (P : 'M[R]_(n, q)) (Kit : 'M[R]_(n, m)) Pt tt :
  pos_def K -> full_col_rank P ->
  exists l0 v0 l1 v1,
   [/\ kriging_predictor_with_zero_mean K Kit tt 0 = Ok (l0, PVVar v0),
       kriging_predictor_block K P Kit Pt tt 0 = Ok (l1, PVVar v1)
     & forall j, v0 0 j <= v1 0 j].
Proof.
move=> pdK fP.
pose Ktt : 'M[R]_m := diag_mx (tt_pairwise tt).
have ett : tt_pairwise tt = diag_of Ktt by apply/rowP => j; rewrite !mxE eqxx mulr1n.
have [l0 [v0 [E0 H0]]] := zero_mean_blup Kit pdK ett.
have [l1 [v1 [E1 H1]]] := uk_blup Kit Pt (pd_cpd P pdK) fP ett.
exists l0, v0, l1, v1; split=> // j; have [_ -> _] := H1 j.
have [e h] := H0 j; have [->|wn] := eqVneq (col j l1) (col j l0); first by rewrite e.
exact/ltW/h.
Qed.

(* ---- intrinsic invariance (C24) ---- *)
Section Intrinsic.
Variables (n q m : nat) (K : 'M[R]_n) (P : 'M[R]_(n, q)) (Kit : 'M[R]_(n, m)) (Pt : 'M[R]_(m, q)).
Variables (G : 'M[R]_(n, q)) (Gt : 'M[R]_(m, q)) (T : 'M[R]_q).

Definition K' := K + P *m G^T + G *m P^T.
Definition Kit' := Kit + P *m Gt^T + G *m Pt^T.

Lemma uk_lhs_shift : uk_lhs K' P =
  block_mx 1%:M G 0 1%:M *m uk_lhs K P *m block_mx 1%:M 0 G^T 1%:M.
Proof.
rewrite /uk_lhs /K' !mulmx_block !mul1mx !mul0mx !mulmx0 !mulmx1 !addr0 !add0r.
by rewrite mul0mx addr0 addrAC.
Qed.
Lemma uk_lhs_shift_unit : (uk_lhs K' P \in unitmx) = (uk_lhs K P \in unitmx).
Proof. by rewrite uk_lhs_shift !unitmxE !det_mulmx det_ublock det_lblock !det1 !mul1r mulr1. Qed.

Lemma uk_shift_sol : uk_lhs K P \in unitmx ->
  uk_lambda K' P Kit' Pt = uk_lambda K P Kit Pt /\
  uk_mu K' P Kit' Pt = uk_mu K P Kit Pt + Gt^T - G^T *m uk_lambda K P Kit Pt.
Proof.
move=> u; have [e1 e2] := uk_eqs Kit Pt u.
have u' : uk_lhs K' P \in unitmx by rewrite uk_lhs_shift_unit.
have [|//|<- <- //] := @uk_uniq _ _ _ _ K' P Kit' Pt (uk_lambda K P Kit Pt)
  (uk_mu K P Kit Pt + Gt^T - G^T *m uk_lambda K P Kit Pt) u'.
rewrite /K' /Kit' !mulmxDl -[in RHS]e1 -!mulmxA e2 mulmxBr mulmxDr.
by mxring.
Qed.

Lemma uk_shift_quad : uk_lhs K P \in unitmx ->
  (uk_sol K' P Kit' Pt)^T *m uk_rhs Kit' Pt =
  (uk_sol K P Kit Pt)^T *m uk_rhs Kit Pt + (Pt *m Gt^T + Gt *m Pt^T).
Proof.
move=> u; have [el em] := uk_shift_sol u; have [_ e2] := uk_eqs Kit Pt u.
rewrite !uk_sol_rhs el em /Kit'; set lam := uk_lambda _ _ _ _ in e2 *; set mu := uk_mu _ _ _ _.
have e3 : lam^T *m P = Pt by apply: trmx_inj; rewrite trmx_mul trmxK.
rewrite !mulmxDr !linearB /= !linearD /= trmx_mul !trmxK !mulmxBl !mulmxDl !mulmxA e3.
by mxring.
Qed.

Lemma uk_lhs_basis : uk_lhs K (P *m T) =
  block_mx 1%:M 0 0 T^T *m uk_lhs K P *m block_mx 1%:M 0 0 T.
Proof.
rewrite /uk_lhs !mulmx_block !mul1mx !mul0mx !mulmx0 !mulmx1 !addr0 !add0r !mul0mx.
by rewrite trmx_mul.
Qed.
Lemma uk_lhs_basis_unit : T \in unitmx ->
  (uk_lhs K (P *m T) \in unitmx) = (uk_lhs K P \in unitmx).
Proof.
move=> uT; rewrite uk_lhs_basis !unitmxE !det_mulmx !det_ublock !det1 !mul1r det_tr.
by move: uT; rewrite unitmxE !unitrM => ->; rewrite andbT.
Qed.
Lemma uk_basis_sol : T \in unitmx -> uk_lhs K P \in unitmx ->
  uk_lambda K (P *m T) Kit (Pt *m T) = uk_lambda K P Kit Pt /\
  uk_mu K (P *m T) Kit (Pt *m T) = invmx T *m uk_mu K P Kit Pt.
Proof.
move=> uT u; have [e1 e2] := uk_eqs Kit Pt u.
have u' : uk_lhs K (P *m T) \in unitmx by rewrite uk_lhs_basis_unit.
have [||<- <- //] := @uk_uniq _ _ _ _ K (P *m T) Kit (Pt *m T) (uk_lambda K P Kit Pt)
  (invmx T *m uk_mu K P Kit Pt) u'.
  by rewrite -mulmxA (mulmxA T) mulmxV // mul1mx.
by rewrite !trmx_mul -mulmxA e2.
Qed.
Lemma uk_basis_quad : T \in unitmx -> uk_lhs K P \in unitmx ->
  (uk_sol K (P *m T) Kit (Pt *m T))^T *m uk_rhs Kit (Pt *m T) =
  (uk_sol K P Kit Pt)^T *m uk_rhs Kit Pt.
Proof.
move=> uT u; have [el em] := uk_basis_sol uT u; rewrite !uk_sol_rhs el em; congr (_ + _).
by rewrite !trmx_mul trmx_inv -mulmxA mulKmx // unitmx_tr.
Qed.
End Intrinsic.

(* results of the predictor, over all three return types *)
Lemma krig_block_shift n q m (K : 'M[R]_n) (P : 'M[R]_(n, q)) (Kit : 'M[R]_(n, m)) Pt
  (G : 'M[R]_(n, q)) (Gt : 'M[R]_(m, q)) tt tt' rt :
  uk_lhs K P \in unitmx ->
  tt_pairwise tt' = tt_pairwise tt + diag_of (Pt *m Gt^T + Gt *m Pt^T) ->
  tt_full tt' = tt_full tt + (Pt *m Gt^T + Gt *m Pt^T) ->
  kriging_predictor_block (K + P *m G^T + G *m P^T) P (Kit + P *m Gt^T + G *m Pt^T) Pt tt' rt
  = kriging_predictor_block K P Kit Pt tt rt.
Proof.
move=> u e0 e1; rewrite -[K + _ + _]/(K' K P G) -[Kit + _ + _]/(Kit' P Kit Pt G Gt).
rewrite /kriging_predictor_block /solve u uk_lhs_shift_unit u /=.
rewrite -!/(uk_sol _ _ _ _) -!/(uk_lambda _ _ _ _) (uk_shift_sol Kit Pt G Gt u).1.
rewrite /compute_posterior_variance; case: ifP => // _; case: ifP => [_|_].
  rewrite /=; congr (Ok (_, PVVar _)); rewrite e0; apply/rowP => j.
  rewrite !rsubE maddE diagE !einsum_iiE uk_shift_quad // maddE.
  by rewrite !maddE; gring.
case: ifP => // _ /=; congr (Ok (_, PVCov _)); rewrite e1 uk_shift_quad //.
by rewrite opprD addrACA subrr addr0.
Qed.

Lemma krig_block_basis n q m (K : 'M[R]_n) (P : 'M[R]_(n, q)) (Kit : 'M[R]_(n, m)) Pt T tt rt :
  uk_lhs K P \in unitmx -> T \in unitmx ->
  kriging_predictor_block K (P *m T) Kit (Pt *m T) tt rt
  = kriging_predictor_block K P Kit Pt tt rt.
Proof.
move=> u uT; rewrite /kriging_predictor_block /solve u uk_lhs_basis_unit // u /=.
rewrite -!/(uk_sol _ _ _ _) -!/(uk_lambda _ _ _ _) (uk_basis_sol Kit Pt uT u).1.
rewrite /compute_posterior_variance; case: ifP => // _; case: ifP => [_|_].
  rewrite /=; congr (Ok (_, PVVar _)); congr (_ - _); apply/rowP => j.
  by rewrite !einsum_iiE uk_basis_quad.
by case: ifP => // _ /=; rewrite uk_basis_quad.
Qed.

(* ---- the null-space fall-back (C25) ---- *)
Section Nullspace.
Variables (q r m : nat) (qr : qr_fun R q r).
Variables (K : 'M[R]_(q + r)) (P : 'M[R]_(q + r, q)) (Kit : 'M[R]_(q + r, m)) (Pt : 'M[R]_(m, q)).
Variable tt : prior_tt R m.
Hypothesis qrP : is_qr P (qr P).
Hypothesis sK : symmetric K.
Let Q1 := lsubmx (qr P).1.
Let W := rsubmx (qr P).1.
Let Rq := usubmx (qr P).2.

Lemma rank_of_Rq : Rq \in unitmx -> full_col_rank P.
Proof.
have [eP QQ _ _ _] := qr_blocks qrP; rewrite -/Q1 -/Rq in eP QQ.
move=> uR b Pb; apply: (inj_of_unit uR).
have : Q1^T *m (P *m b) = 0 by rewrite Pb mulmx0.
by rewrite eP !mulmxA QQ mul1mx.
Qed.

Lemma contrast_cpd : Rq \in unitmx -> pos_def (W^T *m (K *m W)) -> cond_pos_def K P.
Proof.
move=> uR [sG pG]; split=> // x Px xn0.
have [eP QQ WW QW QQW] := qr_blocks qrP; rewrite -/Q1 -/W -/Rq in eP QQ WW QW QQW.
have Q1x : Q1^T *m x = 0.
  move: Px; rewrite eP trmx_mul -mulmxA.
  by apply: inj_of_unit; rewrite unitmx_tr.
have xW : x = W *m (W^T *m x).
  by rewrite -{1}[x]mul1mx -QQW mulmxDl -!mulmxA Q1x mulmx0 add0r.
have -> : qform K x = qform (W^T *m (K *m W)) (W^T *m x).
  by rewrite {1}xW qform_mul mulmxA.
by apply: pG; apply: contra xn0 => /eqP w0; rewrite xW w0 mulmx0.
Qed.

(* if the fall-back succeeds with a faithful triangular solver, the block system
   was already nonsingular *)
Lemma nullspace_ok_unit symsolve rt lv :
  (forall B X, symsolve Rq^T B = Ok X -> Rq \in unitmx) ->
  kriging_predictor_nullspace qr symsolve K P Kit Pt tt rt = Ok lv ->
  uk_lhs K P \in unitmx.
Proof.
move=> Hs; rewrite /kriging_predictor_nullspace.
move: qrP; case E: (qr P) => [Q Rm] qrP'.
have eW : rsubmx Q = W by rewrite /W E.
have eR : usubmx Rm = Rq by rewrite /Rq E.
rewrite eW eR; have sG : symmetric (W^T *m (K *m W)).
  by rewrite /symmetric !trmx_mul trmxK sK mulmxA.
case E1: (cholesky_solve _ _) => [aL|//] /=.
have [pG _ _] := cholesky_solve_inv sG E1.
case E2: (symsolve _ _) => [beta|//] /= _.
have uR := Hs _ _ E2.
exact: uk_lhs_unit (contrast_cpd uR pG) (rank_of_Rq uR).
Qed.

Lemma solve_unit k p (A : 'M[R]_k) (B X : 'M[R]_(k, p)) : solve A B = Ok X -> A \in unitmx /\ X = invmx A *m B.
Proof. by rewrite /solve; case: ifP => // u [<-]. Qed.

Lemma general_solve_ok B X : @solve R q m Rq^T B = Ok X -> Rq \in unitmx.
Proof. by case/solve_unit; rewrite unitmx_tr. Qed.

Lemma Rq_upper (i j : 'I_q) : (j < i)%N -> Rq i j = 0.
Proof. by case: qrP => _ _ up ji; rewrite /Rq mxE; apply: up. Qed.

Lemma sym_of_upper_Rq : sym_of_upper Rq^T = diag_mx (\row_i Rq i i).
Proof.
apply/matrixP => i j; rewrite !mxE; have [->|ij] := eqVneq i j.
  by rewrite leqnn mulr1n.
rewrite mulr0n; case: ifP => h.
  by have := @Rq_upper j i; rewrite !mxE; apply; rewrite ltn_neqAle h andbT ij.
have := @Rq_upper i j; rewrite !mxE; apply; by rewrite ltnNge h.
Qed.

Lemma scipy_solve_ok B X : @scipy_symsolve R q m Rq^T B = Ok X -> Rq \in unitmx.
Proof.
rewrite /scipy_symsolve => /solve_unit [u _]; move: u; rewrite sym_of_upper_Rq.
rewrite -unitmx_tr !unitmxE det_tr det_diag -[\det Rq]det_tr (@det_trig _ _ Rq^T).
  move=> u; suff -> : \prod_i Rq^T i i = \prod_i (\row_i Rq i i) 0 i by [].
  by apply: eq_bigr => i _; rewrite !mxE.
by apply/is_trig_mxP => i j ij; rewrite mxE; apply: Rq_upper.
Qed.

Definition faithful_tri_solver (s : 'M[R]_q -> 'M[R]_(q, m) -> res 'M[R]_(q, m)) : Prop :=
  s = @solve R q m \/ s = @scipy_symsolve R q m.

Lemma faithful_unit s : faithful_tri_solver s ->
  forall B X, s Rq^T B = Ok X -> Rq \in unitmx.
Proof. by case=> -> B X; [exact: general_solve_ok | exact: scipy_solve_ok]. Qed.

(* hence the fall-back never rescues a failed solve *)
Lemma fallback_never_rescues s rt : faithful_tri_solver s ->
  rt \in [:: -1; 0; 1] ->
  forall e, kriging_predictor_block K P Kit Pt tt rt = Err e ->
  exists e', kriging_predictor qr s K P Kit Pt tt rt = Err e'.
Proof.
move=> fs rtv e He; rewrite /kriging_predictor He.
case E: (kriging_predictor_nullspace _ _ _ _ _ _ _ _) => [lv|e']; last by exists e'.
have u := nullspace_ok_unit (faithful_unit fs) E.
move: He rtv; rewrite /kriging_predictor_block /solve u /=.
by rewrite /compute_posterior_variance !inE; do 3 (case: (rt == _) => //=).
Qed.

(* what the fall-back computes, compared to the right answer *)
Lemma fallback_weights rt lam v :
  kriging_predictor_nullspace qr (@solve R q m) K P Kit Pt tt rt = Ok (lam, v) ->
  let beta := invmx Rq^T *m Pt^T in
  let G := W^T *m (K *m W) in
  [/\ P^T *m lam = Pt^T,
      lam = uk_lambda K P Kit Pt + W *m (invmx G *m (W^T *m (K *m (Q1 *m beta))))
    & G \in unitmx].
Proof.
move=> H beta G; have u := nullspace_ok_unit general_solve_ok H.
have fP := uk_lhs_unit_rank u.
have uR := qr_Rq_unit qrP fP; rewrite -/Rq in uR.
have [eP QQ WW QW QQW] := qr_blocks qrP; rewrite -/Q1 -/W -/Rq in eP QQ WW QW QQW.
move: H; rewrite /kriging_predictor_nullspace.
case E: (qr P) => [Q Rm].
have -> : rsubmx Q = W by rewrite /W E.
have -> : usubmx Rm = Rq by rewrite /Rq E.
have -> : lsubmx Q = Q1 by rewrite /Q1 E.
have sG : symmetric G by rewrite /symmetric /G !trmx_mul trmxK sK mulmxA.
rewrite -/G; case E1: (cholesky_solve G _) => [aL|//] /=.
have [pG ea _] := cholesky_solve_inv sG E1.
rewrite /solve unitmx_tr uR /=; case E3: (compute_posterior_variance _ _ _ _) => [v'|//] /= [el _].
have uG := pd_unit pG.
have WQ : W^T *m Q1 = 0 by apply: trmx_inj; rewrite trmx_mul trmxK QW trmx0.
have e0 : P^T *m lam = Pt^T.
  rewrite -el mulmxDr eP trmx_mul -!mulmxA (mulmxA _ W) QW mul0mx mulmx0 add0r.
  by rewrite (mulmxA Q1^T) QQ mul1mx mulKVmx // unitmx_tr.
split=> //.
pose d := W *m (invmx G *m (W^T *m (K *m (Q1 *m beta)))).
pose mu := invmx Rq *m (Q1^T *m (Kit - K *m (lam - d))).
suff [<- _] : lam - d = uk_lambda K P Kit Pt /\ mu = uk_mu K P Kit Pt.
  by rewrite subrK.
apply: uk_uniq => //.
  have ePmu : P *m mu = Q1 *m (Q1^T *m (Kit - K *m (lam - d))).
    by rewrite /mu eP -mulmxA mulKVmx.
  rewrite ePmu.
  have Wz : W^T *m (Kit - K *m (lam - d)) = 0.
    have -> : lam - d = W *m (invmx G *m (W^T *m (Kit - K *m (Q1 *m beta)))) + Q1 *m beta.
      rewrite -el -/beta ea /d !mulmxBr.
      by rewrite addrAC.
    rewrite mulmxBr mulmxDr mulmxDr (mulmxA K W) (mulmxA W^T (K *m W)) -/G mulKVmx //.
    by rewrite mulmxBr subrK subrr.
  have key (Z : 'M[R]_(q + r, m)) : W^T *m Z = 0 -> Q1 *m (Q1^T *m Z) = Z.
    by move=> h; rewrite -[RHS]mul1mx -QQW mulmxDl -!mulmxA h mulmx0 addr0.
  by rewrite key // addrC subrK.
rewrite mulmxBr e0 /d eP trmx_mul -!mulmxA (mulmxA _ W) QW mul0mx mulmx0 subr0 //.
Qed.

End Nullspace.

End UK.
