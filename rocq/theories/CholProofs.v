(* CholProofs.v: correctness of the modelled Cholesky factorisation and of
   cholesky_solve. *)
From mathcomp Require Import all_ssreflect all_algebra ring.
From Verif Require Import LinAlg KrigModel.
Set Implicit Arguments.
Unset Strict Implicit.
Unset Printing Implicit Defensive.
Import Order.TTheory GRing.Theory Num.Theory.
Local Open Scope ring_scope.

Section Chol.
Variable R : rcfType.

(* what a Cholesky factor is *)
Definition is_chol n (A L : 'M[R]_n) : Prop :=
  [/\ is_trig_mx L, forall i, 0 < L i i & L *m L^T = A].

Lemma mulmx_cR n (v : 'cV[R]_n) (c : R) : v *m c%:M = c *: v.
Proof. by rewrite mul_mx_scalar. Qed.

Lemma chol_sound n (A L : 'M[R]_n) : symmetric A -> chol A = Some L -> is_chol A L.
Proof.
elim: n A L => [|n IH].
  by move=> A L _ [<-]; split=> [|[]|] //; [apply/is_trig_mxP => -[] | apply/matrixP => -[]].
rewrite -[n.+1]/(1 + n)%N => A L sA /=; case: ifP => // a0.
set l := Num.sqrt _; set v := _ *: _; case E: (chol _) => [L'|//] [<-].
have l0 : 0 < l by rewrite /l sqrtr_gt0.
have eA := sym_block sA.
have sS : symmetric (drsubmx A - v *m v^T).
  rewrite /symmetric linearB /= trmx_mul trmxK; congr (_ - _).
  by rewrite trmx_drsub sA.
have [tL pL eL] := IH _ _ sS E; split.
- by rewrite is_trig_block_mx // eqxx tL mx11_is_trig.
- move=> i; rewrite -[i]splitK; case: (split i) => j /=.
    by rewrite block_mxEul ord1 mxE eqxx.
  by rewrite block_mxEdr.
- rewrite tr_block_mx mulmx_block trmx0 !mul0mx !mulmx0 !addr0 tr_scalar_mx -scalar_mxM.
  rewrite mul_scalar_mx mul_mx_scalar eL addrCA subrr addr0 -expr2 sqr_sqrtr ?ltW //.
  rewrite /v scalerA divff ?gt_eqF // scale1r [in RHS]eA; congr block_mx.
  + by rewrite [RHS]mx11E.
  + by rewrite linearZ /= scalerA divff ?gt_eqF // scale1r trmx_dlsub sA.
  + by rewrite trmx_ursub sA.
Qed.

Lemma chol_complete n (A : 'M[R]_n) : pos_def A -> exists L, chol A = Some L.
Proof.
elim: n A => [|n IH]; first by move=> A _; exists A.
rewrite -[n.+1]/(1 + n)%N => A pdA /=.
have eA := sym_block (pd_sym pdA); move: (pdA); rewrite eA => pdB.
have pd1 := pd_block_ul pdB; have a0 : 0 < ulsubmx A 0 0 by apply: pd_diag_gt0.
rewrite !block_mxKul !block_mxKdl !block_mxKdr a0.
set S := (_ - _); have [|L ->] := IH S; last by eexists.
have -> : S = drsubmx A - (ursubmx A)^T *m invmx (ulsubmx A) *m ursubmx A.
  rewrite /S; congr (_ - _).
  rewrite linearZ /= trmxK -scalemxAr -scalemxAl scalerA [ulsubmx A]mx11E.
  rewrite invmx_scalar mul_mx_scalar -scalemxAl; congr (_ *: _).
  by rewrite mxE eqxx mulr1n -invfM -expr2 sqr_sqrtr // ltW.
exact: schur_pd.
Qed.

Lemma trig_unit n (L : 'M[R]_n) : is_trig_mx L -> (forall i, 0 < L i i) -> L \in unitmx.
Proof.
move=> tL pL; rewrite unitmxE det_trig // unitfE prodf_seq_neq0.
by apply/allP => i _; rewrite gt_eqF.
Qed.

Lemma is_chol_unit n (A L : 'M[R]_n) : is_chol A L -> L \in unitmx.
Proof. by case=> tL pL _; apply: trig_unit. Qed.

Lemma is_chol_pd n (A L : 'M[R]_n) : is_chol A L -> pos_def A.
Proof.
move=> cL; have uL := is_chol_unit cL; case: cL => _ _ <-.
rewrite -{1}[L]trmxK -[X in X *m _]mulmx1; apply: pd_congr; first exact: pos_def1.
by move=> b; apply: inj_of_unit; rewrite unitmx_tr.
Qed.

Lemma is_chol_inv n (A L : 'M[R]_n) : is_chol A L -> invmx A = invmx L^T *m invmx L.
Proof.
move=> cL; have uL := is_chol_unit cL; case: cL => _ _ <-.
have uLT : L^T \in unitmx by rewrite unitmx_tr.
have uA : L *m L^T \in unitmx by rewrite unitmx_mul uL.
apply: (can_inj (mulKmx uA)); rewrite mulmxV // -mulmxA (mulmxA L^T) mulmxV // mul1mx.
by rewrite mulmxV.
Qed.

Lemma is_chol_det n (A L : 'M[R]_n) : is_chol A L -> \det A = (\prod_i L i i) ^+ 2.
Proof. by case=> tL _ <-; rewrite det_mulmx det_tr det_trig // expr2. Qed.

Lemma chol_some_iff n (A : 'M[R]_n) : symmetric A ->
  (exists L, chol A = Some L) <-> pos_def A.
Proof.
move=> sA; split=> [[L /(chol_sound sA) /is_chol_pd] //|]; exact: chol_complete.
Qed.

Lemma chol_none_iff n (A : 'M[R]_n) : symmetric A ->
  chol A = None <-> ~ pos_def A.
Proof.
move=> sA; rewrite -(chol_some_iff sA); case: (chol A) => [L|]; split=> //.
- by case; exists L.
- by move=> _ [].
Qed.

(* uniqueness of the factor *)
Lemma is_chol_uniq n (A L M : 'M[R]_n) : is_chol A L -> is_chol A M -> L = M.
Proof.
elim: n A L M => [|n IH]; first by move=> A L M _ _; apply/matrixP => -[].
rewrite -[n.+1]/(1 + n)%N => A L M [tL pL eL] [tM pM eM].
have uL := @ursubmx_trig _ 1 n 1 n L isT tL.
have uM := @ursubmx_trig _ 1 n 1 n M isT tM.
have bL : L = block_mx (ulsubmx L) 0 (dlsubmx L) (drsubmx L) by rewrite -uL submxK.
have bM : M = block_mx (ulsubmx M) 0 (dlsubmx M) (drsubmx M) by rewrite -uM submxK.
have := eL; rewrite -eM {1 2}bL {1 2}bM !tr_block_mx !mulmx_block !trmx0.
rewrite !mul0mx !mulmx0 !addr0 => /eq_block_mx [e11 _ e21 e22].
have pl : 0 < ulsubmx L 0 0 by rewrite !mxE; have := pL (lshift n 0).
have pm : 0 < ulsubmx M 0 0 by rewrite !mxE; have := pM (lshift n 0).
have eul : ulsubmx L = ulsubmx M.
  rewrite [LHS]mx11E [RHS]mx11E; congr _%:M.
  move: e11; rewrite [ulsubmx L]mx11E [ulsubmx M]mx11E !tr_scalar_mx -!scalar_mxM.
  move: pl pm; move: (ulsubmx L 0 0) (ulsubmx M 0 0) => a b pa pb.
  move=> /matrixP /(_ 0 0); rewrite !mxE eqxx !mulr1n -!expr2 => /eqP.
  by rewrite eqr_expn2 ?ltW // => /eqP.
have edl : dlsubmx L = dlsubmx M.
  move: e21; rewrite eul [ulsubmx M]mx11E tr_scalar_mx !mul_mx_scalar.
  by move/scalerI; apply; rewrite gt_eqF.
have edr : drsubmx L = drsubmx M.
  apply: (IH (drsubmx M *m (drsubmx M)^T)).
  - split; [exact: drsubmx_trig | by move=> i; rewrite !mxE; apply: pL |].
    by move: e22; rewrite edl => /addrI.
  - by split; [exact: drsubmx_trig | by move=> i; rewrite !mxE; apply: pM |].
by rewrite bL bM eul edl edr.
Qed.

(* cholesky_solve *)
Lemma cholesky_solve_ok n p (A : 'M[R]_n) (b : 'M[R]_(n, p)) : pos_def A ->
  exists2 L, is_chol A L & cholesky_solve A b = Ok (invmx A *m b, L).
Proof.
move=> pdA; have [L eL] := chol_complete pdA.
have cL := chol_sound (pd_sym pdA) eL; exists L => //.
by rewrite /cholesky_solve eL (is_chol_inv cL) mulmxA.
Qed.

Lemma cholesky_solve_fail n p (A : 'M[R]_n) (b : 'M[R]_(n, p)) :
  symmetric A -> ~ pos_def A -> cholesky_solve A b = Err LinAlgError.
Proof. by move=> sA npd; rewrite /cholesky_solve; have /(chol_none_iff sA) -> := npd. Qed.

Lemma cholesky_solve_inv n p (A : 'M[R]_n) (b : 'M[R]_(n, p)) xL :
  symmetric A -> cholesky_solve A b = Ok xL ->
  [/\ pos_def A, xL.1 = invmx A *m b & is_chol A xL.2].
Proof.
move=> sA; rewrite /cholesky_solve; case E: (chol A) => [L|//] [<-] /=.
have cL := chol_sound sA E; split=> //; first exact: is_chol_pd cL.
by rewrite (is_chol_inv cL) mulmxA.
Qed.

Lemma diag_Kinv_ok n (A L : 'M[R]_n) : is_chol A L ->
  forall i, diag_Kinv_from_chol L 0 i = invmx A i i.
Proof.
move=> cL i; rewrite /diag_Kinv_from_chol mulmx1 (is_chol_inv cL) !mxE.
apply: eq_bigr => k _; congr (_ * _).
by rewrite -trmx_inv mxE.
Qed.

End Chol.
