(* KnnThms.v: covariance of the perturbation noise of the SMC moves (C98). *)
From mathcomp Require Import all_ssreflect all_algebra ring.
From Verif Require Import LinAlg KnnModel.
Set Implicit Arguments.
Unset Strict Implicit.
Unset Printing Implicit Defensive.
Import Order.TTheory GRing.Theory Num.Theory.
Local Open Scope ring_scope.

Section Spec.
Variable R : rcfType.
(* sample mean and variance of a sequence of numbers *)
Definition smean (v : seq R) : R := (size v)%:R^-1 * \sum_(a <- v) a.
Definition svar (v : seq R) : R := (size v).-1%:R^-1 * \sum_(a <- v) (a - smean v) ^+ 2.
(* values of the particles idx along the direction w *)
Definition along n d (x : 'M[R]_(n, d)) (w : 'cV[R]_d) (idx : seq 'I_n) : seq R := [seq (x *m w) i 0 | i <- idx].

Lemma qform_sum n (I : Type) (s : seq I) (F : I -> 'M[R]_n) w : qform (\sum_(i <- s) F i) w = \sum_(i <- s) qform (F i) w.
Proof.
elim: s => [|i s IH]; first by rewrite !big_nil /qform /bilin mulmx0 mul0mx mxE.
by rewrite !big_cons -IH /qform /bilin mulmxDr mulmxDl mxE.
Qed.
Lemma qform_scale n (A : 'M[R]_n) c w : qform (c *: A) w = c * qform A w.
Proof. by rewrite /qform /bilin -scalemxAr -scalemxAl mxE. Qed.
Lemma qform_outer d (v : 'rV[R]_d) w : qform (v^T *m v) w = ((v *m w) 0 0) ^+ 2.
Proof.
by rewrite /qform /bilin mulmxA -trmx_mul -mulmxA [LHS]mxE big_ord1 expr2 [(_^T) 0 0]mxE.
Qed.
Lemma svar_ge0 v : 0 <= svar v.
Proof. by rewrite /svar mulr_ge0 ?invr_ge0 ?ler0n // sumr_ge0 // => a _; exact: sqr_ge0. Qed.
Lemma sum_eq0 (I : eqType) (s : seq I) (F : I -> R) : (forall i, i \in s -> 0 <= F i) ->
  (\sum_(i <- s) F i = 0 <-> forall i, i \in s -> F i = 0).
Proof.
elim: s => [|i s IH] h; first by rewrite big_nil; split.
have h1 : 0 <= F i by apply: h; rewrite inE eqxx.
have h2 j : j \in s -> 0 <= F j by move=> js; apply: h; rewrite inE js orbT.
have h3 : 0 <= \sum_(j <- s) F j by rewrite big_seq; apply: sumr_ge0.
rewrite big_cons; split.
- move/eqP; rewrite paddr_eq0 // => /andP[/eqP e1 /eqP e2] j; rewrite inE => /orP[/eqP->//|]; exact: (IH h2).1.
- move=> e; rewrite e ?inE ?eqxx // add0r; apply/(IH h2) => j js; apply: e; by rewrite inE js orbT.
Qed.
Lemma svar_eq0 v : (1 < size v)%N -> (svar v = 0 <-> forall a b, a \in v -> b \in v -> a = b).
Proof.
move=> s1; have p1 : (size v).-1%:R^-1 != 0 :> R by rewrite invr_neq0 // pnatr_eq0 -lt0n -ltnS prednK //; exact: ltnW.
have S : (\sum_(a <- v) (a - smean v) ^+ 2 = 0) <-> forall a, a \in v -> a = smean v.
  rewrite sum_eq0; last by move=> a _; exact: sqr_ge0.
  split=> h a av; first by apply/eqP; rewrite -subr_eq0 -sqrf_eq0; apply/eqP; exact: h.
  by rewrite {1}(h a av) subrr expr0n.
rewrite /svar; split.
- move/eqP; rewrite mulf_eq0 (negbTE p1) /= => /eqP /S h a b ha hb; by rewrite (h a) // (h b).
- move=> h; rewrite (S.2 _) ?mulr0 // => a av; rewrite /smean.
  have -> : \sum_(b <- v) b = \sum_(b <- v) a by rewrite big_seq [RHS]big_seq; apply: eq_bigr => b bv; exact: h.
  rewrite big_const_seq count_predT iter_addr_0 -[a *+ _]mulr_natl mulKf // pnatr_eq0 -lt0n; exact: ltnW.
Qed.

Section Cov.
Variables (n d : nat) (x : 'M[R]_(n, d)).
Lemma cov_rows_qform idx C w : cov_rows x idx = Some C -> symmetric C /\ qform C w = svar (along x w idx).
Proof.
rewrite /cov_rows; case: leqP => // s1 [<-]; split.
  rewrite /symmetric linearZ /=; congr (_ *: _); rewrite linear_sum /=; apply: eq_bigr => i _; by rewrite trmx_mul trmxK.
rewrite qform_scale qform_sum /svar /along size_map big_map; congr (_ * _); apply: eq_bigr => i _.
rewrite qform_outer mulmxBl !mxE; congr ((_ - _) ^+ 2); first by apply: eq_bigr => j _; rewrite mxE.
rewrite /row_mean /smean size_map -/(@mulmx R 1 d 1) big_map.
have -> : \sum_j ((size idx)%:R^-1 *: \sum_(i0 <- idx) row i0 x) 0 j * w j 0 = (((size idx)%:R^-1 *: \sum_(i0 <- idx) row i0 x) *m w) 0 0 by rewrite [RHS]mxE.
rewrite -scalemxAl mxE; congr (_ * _); rewrite mulmx_suml summxE; apply: eq_bigr => i0 _; by rewrite -row_mul mxE.
Qed.
Lemma cov_rows_none idx : cov_rows x idx = None <-> (size idx <= 1)%N.
Proof. by rewrite /cov_rows; case: leqP. Qed.
Lemma cov_rows_some idx C : cov_rows x idx = Some C -> (1 < size idx)%N.
Proof. by rewrite /cov_rows; case: leqP. Qed.

End Cov.

Section Main.
Variables (n d : nat) (x : 'M[R]_(n, d)) (choice : nat -> seq 'I_n) (query : 'I_n -> nat -> seq 'I_n) (n_random k : nat).
Let picks := choice (minn n_random n).
Lemma min_if : (if (n < n_random)%N then n else n_random) = minn n_random n.
Proof. by rewrite /minn; case: ltngtP. Qed.
Lemma knnE : estimate_cov_matrix_knn true choice query n_random k x = mean_covs [seq cov_rows x (query i k) | i <- picks].
Proof. by rewrite /estimate_cov_matrix_knn /= min_if. Qed.
Lemma sum_covs_none (l : seq (option 'M[R]_d)) : sum_covs l = None <-> None \in l.
Proof.
elim: l => [|[C|] l IH] //=; rewrite inE /=.
case E: (sum_covs l) => [B|]; split=> //; first by move/IH; rewrite E.
by move=> _; apply/IH.
Qed.

(* along any direction the variance of the noise is the average of the sample variances of the neighbourhoods *)
Theorem C98_quadratic_form C : estimate_cov_matrix_knn true choice query n_random k x = Some C ->
  symmetric C /\ forall w, qform C w = smean [seq svar (along x w (query i k)) | i <- picks].
Proof.
rewrite knnE /mean_covs; set l := [seq cov_rows _ _ | _ <- _].
case El: l => [|o l'] //; rewrite -El; case E: (sum_covs l) => [A|] // [<-].
have Q w : symmetric A /\ qform A w = \sum_(i <- picks) svar (along x w (query i k)).
  have h : forall i C', i \in picks -> cov_rows x (query i k) = Some C' -> symmetric C' /\ qform C' w = svar (along x w (query i k)).
    by move=> i C' _; exact: cov_rows_qform.
  move: E; rewrite /l; elim: (picks) A h => [|i p IH] A h /=.
    by case=> <-; rewrite big_nil /symmetric trmx0 /qform /bilin mulmx0 mul0mx mxE.
  case Ei: (cov_rows x (query i k)) => [Ci|] //; case Ep: (sum_covs _) => [B|] // [<-].
  have [|sB qB] := IH B _ Ep; first by move=> j C' jp; apply: h; rewrite inE jp orbT.
  have [sC qC] := h i Ci (mem_head _ _) Ei; rewrite /symmetric linearD /= sB sC big_cons -qC -qB; split=> //.
  by rewrite /qform bilin_addm.
split; first by rewrite /symmetric linearZ /= (Q 0).1.
by move=> w; rewrite qform_scale (Q w).2 /smean !size_map big_map.
Qed.
Theorem C98_defined : estimate_cov_matrix_knn true choice query n_random k x = None <->
  picks = [::] \/ exists2 i, i \in picks & (size (query i k) <= 1)%N.
Proof.
rewrite knnE /mean_covs; case Ep: picks => [|i0 p]; first by split=> // _; left.
rewrite -Ep; have -> : forall (A B : option 'M[R]_d), (if [seq cov_rows x (query i k) | i <- picks] is [::] then A else B) = B by rewrite Ep.
have S := sum_covs_none [seq cov_rows x (query i k) | i <- picks]; split.
- case E: (sum_covs _) S => [A|] // S _; right; have /mapP[i ip e] := S.1 erefl; exists i => //; exact/(cov_rows_none x).
- case=> [e|[i ip h]]; first by rewrite e in Ep.
  have /S -> // : None \in [seq cov_rows x (query i k) | i <- picks].
  by apply/mapP; exists i => //; symmetry; apply/cov_rows_none.
Qed.
Theorem C98_classical C : estimate_cov_matrix x = Some C -> symmetric C /\ forall w, qform C w = svar (along x w (enum 'I_n)).
Proof. by move=> e; split=> [|w]; [have [] := cov_rows_qform 0 e | have [] := cov_rows_qform w e]. Qed.
(* hence positive semidefinite, and null exactly in the directions along which every neighbourhood is constant *)
Theorem C98_psd C : estimate_cov_matrix_knn true choice query n_random k x = Some C -> pos_semidef C /\
  forall w, qform C w = 0 <-> forall i a b, i \in picks -> a \in query i k -> b \in query i k -> (x *m w) a 0 = (x *m w) b 0.
Proof.
move=> e; have [sC qC] := C98_quadratic_form e.
have nn : ~ estimate_cov_matrix_knn true choice query n_random k x = None by rewrite e.
have sz i : i \in picks -> (1 < size (query i k))%N.
  by move=> ip; rewrite ltnNge; apply/negP => h; apply: nn; apply/C98_defined; right; exists i.
have p0 : (0 < size picks)%N by rewrite lt0n size_eq0; apply/eqP => h; apply: nn; apply/C98_defined; left.
have pos w : forall a, a \in [seq svar (along x w (query i k)) | i <- picks] -> 0 <= a by move=> a /mapP[i _ ->]; exact: svar_ge0.
split; first by split=> // w; rewrite qC /smean mulr_ge0 ?invr_ge0 ?ler0n // big_seq; apply: sumr_ge0 => a; exact: pos.
move=> w; rewrite qC /smean size_map.
have pn : (size picks)%:R^-1 != 0 :> R by rewrite invr_neq0 // pnatr_eq0 -lt0n.
have S := sum_eq0 (pos w); split.
- move/eqP; rewrite mulf_eq0 (negbTE pn) /= => /eqP /S h i a b ip ia ib.
  have /h : svar (along x w (query i k)) \in [seq svar (along x w (query i k)) | i <- picks] by apply: map_f.
  move/svar_eq0 => -/(_ _) H; apply: H; first by rewrite size_map; exact: sz.
  + by apply/mapP; exists a.
  + by apply/mapP; exists b.
- move=> h; rewrite (S.2 _) ?mulr0 // => a /mapP[i ip ->]; apply/svar_eq0; first by rewrite size_map; exact: sz.
  move=> u v /mapP[a1 h1 ->] /mapP[a2 h2 ->]; exact: h ip h1 h2.
Qed.
End Main.

Section More.
Variables (n d : nat).
Implicit Type x : 'M[R]_(n, d).
(* all particles as neighbours of every point: the classical estimate *)
Theorem C98_all_neighbours x (choice : nat -> seq 'I_n) (query : 'I_n -> nat -> seq 'I_n) n_random k :
  choice (minn n_random n) != [::] -> (forall i, perm_eq (query i k) (enum 'I_n)) ->
  estimate_cov_matrix_knn true choice query n_random k x = estimate_cov_matrix x.
Proof.
move=> p0 h; rewrite knnE /estimate_cov_matrix; set l := choice _ in p0 *.
have e i : cov_rows x (query i k) = cov_rows x (enum 'I_n).
  rewrite /cov_rows (perm_size (h i)); case: leqP => // _; congr (Some (_ *: _)).
  have -> : row_mean x (query i k) = row_mean x (enum 'I_n) by rewrite /row_mean (perm_size (h i)) (perm_big _ (h i)).
  exact: perm_big.
have -> : [seq cov_rows x (query i k) | i <- l] = nseq (size l) (cov_rows x (enum 'I_n)).
  by elim: (l) => //= i l' ->; rewrite e.
have s0 : (0 < size l)%N by rewrite lt0n size_eq0.
rewrite /mean_covs; case El: (size l) s0 => [|m] // _; rewrite [nseq m.+1 _]/=.
case C0: (cov_rows x (enum 'I_n)) => [C|] /=; last by [].
have -> : sum_covs (nseq m (Some C)) = Some (m%:R *: C).
  elim: m {El} => [|m IH] /=; first by rewrite scale0r.
  by rewrite IH mulrS scalerDl scale1r.
rewrite size_nseq; congr Some; rewrite -[C in C + _]scale1r -scalerDl -mulrS scalerA mulVf ?scale1r // pnatr_eq0 //.
Qed.
(* change of coordinates, the same neighbours being selected *)
Theorem C98_affine d' x (A : 'M[R]_(d, d')) (b : 'rV[R]_d') (choice : nat -> seq 'I_n) (query : 'I_n -> nat -> seq 'I_n) n_random k C :
  estimate_cov_matrix_knn true choice query n_random k x = Some C ->
  estimate_cov_matrix_knn true choice query n_random k (x *m A + (const_mx 1 : 'cV[R]_n) *m b) = Some (A^T *m C *m A).
Proof.
rewrite !knnE; set l := choice _.
have e i : cov_rows (x *m A + (const_mx 1 : 'cV[R]_n) *m b) (query i k) = omap (fun C => A^T *m C *m A) (cov_rows x (query i k)).
  rewrite /cov_rows; case: leqP => //= s1; congr Some; rewrite -scalemxAr -scalemxAl; congr (_ *: _).
  rewrite mulmx_sumr mulmx_suml; apply: eq_bigr => j _.
  have r (j' : 'I_n) : row j' (x *m A + (const_mx 1 : 'cV[R]_n) *m b) = row j' x *m A + b.
    apply/rowP => c; rewrite !mxE big_ord1 !mxE mul1r; congr (_ + _); by apply: eq_bigr => t _; rewrite mxE.
  have -> : row j (x *m A + (const_mx 1 : 'cV[R]_n) *m b) - row_mean (x *m A + (const_mx 1 : 'cV[R]_n) *m b) (query i k) =
            (row j x - row_mean x (query i k)) *m A.
    rewrite r mulmxBl /row_mean -scalemxAl mulmx_suml.
    have -> : \sum_(i0 <- query i k) row i0 (x *m A + (const_mx 1 : 'cV[R]_n) *m b) = \sum_(i0 <- query i k) (row i0 x *m A + b) by apply: eq_bigr => j' _; exact: r.
    rewrite big_split /= scalerDr; set S := \sum_(_ <- _) (_ *m _).
    rewrite [\sum_(_ <- _) b]big_const_seq count_predT iter_addr_0 -scaler_nat [_ *: (_ *: b)]scalerA mulVf ?scale1r; last by rewrite pnatr_eq0 -lt0n; exact: ltnW.
    by rewrite opprD addrACA subrr addr0.
  by rewrite trmx_mul !mulmxA.
rewrite /mean_covs; case El: [seq _ | i <- l] => [|o l'] //; rewrite -El => h.
have El2 : [seq cov_rows (x *m A + (const_mx 1 : 'cV[R]_n) *m b) (query i k) | i <- l] = map (omap (fun C => A^T *m C *m A)) [seq cov_rows x (query i k) | i <- l].
  by rewrite -map_comp; apply: eq_map => i /=; rewrite e.
rewrite El2; move: h; move: [seq cov_rows x (query i k) | i <- l] El => L EL.
set g := omap _.
have -> : forall U V : option 'M[R]_d', (if map g L is [::] then U else V) = V by rewrite EL.
have S : sum_covs (map (omap (fun C => A^T *m C *m A)) L) = omap (fun C => A^T *m C *m A) (sum_covs L).
  elim: L {EL} => [|[B|] L IH] //=; first by rewrite mulmx0 mul0mx.
  by rewrite IH; case: (sum_covs L) => [D|] //=; rewrite mulmxDr mulmxDl.
by rewrite S; case: (sum_covs L) => [B|] //= [<-]; rewrite size_map -scalemxAr -scalemxAl.
Qed.

(* scipy's draws have no component in the null space of the covariance *)
Definition draws_in_range (rvs : 'M[R]_d -> option 'M[R]_(n, d)) : Prop :=
  forall C eps w, rvs C = Some eps -> C *m w = 0 -> eps *m (w : 'cV[R]_d) = 0.
(* the perturbation is refused exactly when the scale is outside its bounds; otherwise, if it returns, the noise was drawn
   with the covariance of the particles multiplied by the scale *)
Theorem C98_scale m available choice query n_random k jitter_max rvs (lo hi s : R) x :
  (perturb m available choice query n_random k jitter_max rvs lo hi s x = ParticlesSetError R n d <-> s < lo \/ hi < s) /\
  forall y, perturb m available choice query n_random k jitter_max rvs lo hi s x = Moved y <->
    lo <= s <= hi /\ exists B eps, (if m is MKnn then estimate_cov_matrix_knn available choice query n_random k x
                                else if m is MNormal then estimate_cov_matrix x else None) = Some B /\
                               rvs (s *: B) = Some eps /\ y = x + eps.
Proof.
rewrite /perturb; case: (ltP hi s) => h1 /=.
  split; first by split=> // _; right.
  by move=> y; split=> // -[/andP[]].
case: (ltP s lo) => h2.
  split; first by split=> // _; left.
  by move=> y; split=> // -[].
pose go (base : option 'M[R]_d) :=
      match (match base with Some B => rvs (s *: B) | None => None end) with
      | Some eps => Moved (x + eps)
      | None => if jitter_max is 0%N then RuntimeError R n d else NameError R n d
      end.
have G (base : option 'M[R]_d) : go base <> ParticlesSetError R n d /\ forall y, go base = Moved y <->
    exists B eps, base = Some B /\ rvs (s *: B) = Some eps /\ y = x + eps.
  rewrite /go; case: base => [B|]; last first.
    by split; [case: (jitter_max) | move=> y; split; [case: (jitter_max) | move=> [? [? []]]]].
  case E: (rvs _) => [eps|]; last first.
    by split; [case: (jitter_max) | move=> y; split; [case: (jitter_max) | move=> [? [? [[<-] []]]]; rewrite E]].
  split=> // y; split; first by move=> [<-]; exists B, eps.
  by move=> [? [? [[<-] []]]]; rewrite E => -[<-] ->.
case: m => /=.
- have [g1 g2] := G (estimate_cov_matrix_knn available choice query n_random k x); split; first by split=> [e|[]//]; case: (g1 e).
  by move=> y; split=> [/g2 //|[_ /g2]].
- have [g1 g2] := G (estimate_cov_matrix x); split; first by split=> [e|[]//]; case: (g1 e).
  by move=> y; split=> [/g2 //|[_ /g2]].
- by split; [split=> // -[] | move=> y; split=> // -[_ [? [? []]]]].
Qed.
(* particles that agree along a direction agree along it, with the same value, after the perturbation and after the
   acceptance step, whatever is accepted *)
Theorem C98_collapsed m available choice query n_random k jitter_max rvs (lo hi s : R) x y mask (w : 'cV[R]_d) :
  draws_in_range rvs -> (forall i j, (x *m w) i 0 = (x *m w) j 0) ->
  perturb m available choice query n_random k jitter_max rvs lo hi s x = Moved y ->
  y *m w = x *m w /\ accept_rows mask x y *m w = x *m w.
Proof.
move=> hd hc hp; suff e : y *m w = x *m w.
  split=> //; apply/colP => i; case E: (mask i).
    by rewrite -e !mxE; apply: eq_bigr => j _; rewrite mxE E.
  by rewrite !mxE; apply: eq_bigr => j _; rewrite mxE E.
have c0 idx C : cov_rows x idx = Some C -> C *m w = 0.
  rewrite /cov_rows; case: leqP => // s1 [<-]; rewrite -scalemxAl mulmx_suml big1 ?scaler0 // => i _.
  rewrite -mulmxA; suff -> : (row i x - row_mean x idx) *m w = 0 by rewrite mulmx0.
  have rw (j : 'I_n) : row j x *m w = ((x *m w) i 0)%:M.
    by rewrite -row_mul; apply/rowP => c; rewrite !ord1 [LHS]mxE (hc j i) [RHS]mxE eqxx mulr1n.
  rewrite mulmxBl /row_mean -scalemxAl mulmx_suml (eq_bigr (fun=> ((x *m w) i 0)%:M)); last by move=> j _; exact: rw.
  rewrite rw big_const_seq count_predT iter_addr_0 -scaler_nat scalerA mulVf ?scale1r ?subrr // pnatr_eq0 -lt0n; exact: ltnW.
have k0 C : estimate_cov_matrix_knn available choice query n_random k x = Some C -> C *m w = 0.
  rewrite /estimate_cov_matrix_knn; case: (available) => /=; last exact: c0.
  rewrite /mean_covs; case El: [seq _ | i <- _] => [|o l'] //; rewrite -El.
  case E: (sum_covs _) => [B|] // [<-]; rewrite -scalemxAl.
  suff -> : B *m w = 0 by rewrite scaler0.
  move: E; elim: (choice _) B {El} => [|i p IH] B /=; first by case=> <-; rewrite mul0mx.
  case Ei: (cov_rows _ _) => [Ci|] //; case Ep: (sum_covs _) => [D|] // [<-].
  by rewrite mulmxDl (c0 _ _ Ei) (IH _ Ep) addr0.
have fin (B : option 'M[R]_d) : (forall C, B = Some C -> C *m w = 0) ->
   match (match B with Some B => rvs (s *: B) | None => None end) with
      | Some eps => Moved (x + eps) | None => if jitter_max is 0%N then RuntimeError _ _ _ else NameError _ _ _
      end = Moved y -> y *m w = x *m w.
  case: B => [B|] h; last by case: (jitter_max).
  case E: (rvs _) => [eps|]; last by case: (jitter_max).
  case=> <-; rewrite mulmxDl (hd _ _ w E) ?addr0 //.
  by rewrite -scalemxAl (h B erefl) scaler0.
move: hp; rewrite /perturb; case: ifP => // _; case: m => //; apply: fin => C; [exact: k0 | exact: c0].
Qed.
(* the recovery by jitter never works: the name np is not defined *)
Theorem C98_recovery m available choice query n_random k jitter_max rvs (lo hi s : R) x : lo <= s <= hi -> (0 < jitter_max)%N -> m <> MOther ->
  let base := if m is MKnn then estimate_cov_matrix_knn available choice query n_random k x else estimate_cov_matrix x in
  (forall B, base = Some B -> rvs (s *: B) = None) ->
  perturb m available choice query n_random k jitter_max rvs lo hi s x = NameError R n d.
Proof.
move=> /andP[h1 h2] j0 hm base hr; rewrite /perturb ltNge h2 ltNge h1 /=; case: jitter_max j0 => // j _.
case: m hm @base hr => //= _.
- by case: (estimate_cov_matrix_knn _ _ _ _ _ _) => [B|] // /(_ B erefl) ->.
- by case: (estimate_cov_matrix _) => [B|] // /(_ B erefl) ->.
Qed.
(* a single particle cannot be perturbed *)
Theorem C98_single_particle m available choice query n_random jitter_max rvs (lo hi s : R) x : (n <= 1)%N -> lo <= s <= hi -> (0 < jitter_max)%N -> m <> MOther ->
  (forall i k, (size (query i k) <= n)%N) -> forall k,
  perturb m available choice query n_random k jitter_max rvs lo hi s x = NameError R n d.
Proof.
move=> n1 /andP[h1 h2] j0 hm hq k; rewrite /perturb ltNge h2 ltNge h1 /=; case: jitter_max j0 => // j _.
have c0 idx : (size idx <= n)%N -> cov_rows x idx = None by move=> h; apply/cov_rows_none; exact: leq_trans h n1.
have ce : estimate_cov_matrix x = None by apply: c0; rewrite size_enum_ord.
case: m hm => // _; last by rewrite ce.
suff -> : estimate_cov_matrix_knn available choice query n_random k x = None by [].
rewrite /estimate_cov_matrix_knn; case: available => //=; rewrite /mean_covs.
case: (choice _) => [|i l] //=; by rewrite c0.
Qed.
End More.

(* three particles on a line, both neighbours asked for the first one *)
(* linear images of the covariance are draws in its range *)
Example draws_in_range_case n d (A : 'M[R]_(n, d)) : draws_in_range (fun C => Some (A *m C)).
Proof. by move=> C eps w [<-] h; rewrite -mulmxA h mulmx0. Qed.
Example C98_case : let x : 'M[R]_(3, 1) := \col_i (val i)%:R in
  let choice k : seq 'I_3 := take k (enum 'I_3) in
  let query (i : 'I_3) k : seq 'I_3 := take k (enum 'I_3) in
  exists C, estimate_cov_matrix_knn true choice query 1 2 x = Some C /\ qform C 1 = 2%:R^-1.
Proof.
move=> x choice query.
have E : enum 'I_3 = [:: 0; 1; 2%:R] by apply: (inj_map val_inj); rewrite val_enum_ord.
case H: (estimate_cov_matrix_knn true choice query 1 2 x) => [C|]; last first.
  by move/C98_defined: H => []; rewrite /choice /query !E //= => -[i _].
exists C; split=> //; have [_ ->] := C98_quadratic_form H.
rewrite /choice /query !E /= /along /= /smean /svar /smean /= !big_cons !big_nil !mulmx1 !mxE /=.
by rewrite (_ : (1 %% 3)%N = 1%N) // !addr0 invr1 !mul1r !add0r mulr1; field.
Qed.
End Spec.
Print Assumptions C98_quadratic_form.
Print Assumptions C98_defined.
Print Assumptions C98_classical.
Print Assumptions C98_psd.
Print Assumptions C98_all_neighbours.
Print Assumptions C98_affine.
Print Assumptions C98_scale.
Print Assumptions C98_collapsed.
Print Assumptions C98_recovery.
Print Assumptions C98_single_particle.
