(* InitLoaderThms.v: the initial guesses computed from a dataloader (C100). *)
From Coq Require Import Reals Lra.
From mathcomp Require Import all_ssreflect all_algebra ring.
From Verif Require Import LinAlg KrigModel RealAux RealAux2 Rinst LikModel MaternModel MaternProofs MaternCov InitModel InitLoaderModel
  CholProofs LinQR KrigProofs KrigProofs2 LooProofs LikProofs MaternCovProofs InitProofs.
From Verif Require ReduceModel ReduceProofs InitThms.
Set Implicit Arguments.
Unset Strict Implicit.
Unset Printing Implicit Defensive.
Import Order.TTheory GRing.Theory Num.Theory.
Local Open Scope ring_scope.
Local Arguments exp : clear scopes.
Local Arguments ln : clear scopes.
Local Arguments sqrt : clear scopes.
Bind Scope ring_scope with R.

(* spec side: D is the length of the interval spanned by a list of numbers *)
Definition spread (s : seq R) (D : R) : Prop :=
  (forall u v, List.In u s -> List.In v s -> u - v <= D) /\ exists u v, [/\ List.In u s, List.In v s & u - v = D].
(* the numbers in column k of all rows of all shards *)
Definition column_values (shards : seq (seq ReduceModel.row)) (k : nat) : seq R :=
  [seq (r k : R) | r <- flatten shards].
Definition full_shards (shards : seq (seq ReduceModel.row)) : Prop :=
  shards <> [::] /\ forall s, List.In s shards -> s <> [::].

Lemma flattenE (T : Type) (s : seq (seq T)) : flatten s = List.concat s.
Proof. by elim: s => //= a s ->. Qed.
Lemma inMap (A B : Type) (f : A -> B) s : map f s = List.map f s.
Proof. by elim: s => //= a s ->. Qed.
Lemma delta_ok d shards : full_shards shards ->
  exists delta, dataloader_x_delta d shards = Some delta /\ forall k : 'I_d, spread (column_values shards k) (delta k).
Proof.
move=> [n0 nE]; have F : List.Forall (fun s : seq ReduceModel.row => s <> nil) shards by apply/List.Forall_forall.
have [lo [elo hlo]] := ReduceProofs.reduce_min_ok shards n0 F.
have [hi [ehi hhi]] := ReduceProofs.reduce_max_ok shards n0 F.
rewrite /dataloader_x_delta elo ehi; exists (fun k : 'I_d => (hi k : R) - lo k); split=> // k.
have [il bl] := hlo k; have [ih bh] := hhi k.
have E : column_values shards k = ReduceProofs.col k (List.concat shards).
  by rewrite /column_values flattenE inMap.
rewrite E; split; last by exists (hi k), (lo k).
by move=> u v iu iv; apply: ler_sub; apply/leRP; [exact: bh | exact: bl].
Qed.

Section Mean.
Variables (T : Type) (bsz : T -> nat) (V : lmodType R).
Lemma reduce_loop_some (f : T -> res V) (g : T -> V) (bs : seq T) t w :
  (forall a, List.In a bs -> f a = Ok (g a)) ->
  reduce_loop bsz f (Some t) w bs =
  Some (Ok ((w + \sum_(a <- bs) bsz a)%:R^-1 *: (t + \sum_(a <- bs) (bsz a)%:R *: g a))).
Proof.
elim: bs t w => [|a bs IH] t w fE /=; first by rewrite !big_nil addn0 addr0.
by rewrite fE ?IH ?big_cons ?addnA ?addrA //; [move=> c hc; apply: fE; right | left].
Qed.
Lemma reduce_mean_ok (f : T -> res V) (g : T -> V) (bs : seq T) :
  (forall a, List.In a bs -> f a = Ok (g a)) -> bs <> [::] ->
  reduce_mean bsz f bs = Some (Ok ((\sum_(a <- bs) bsz a)%:R^-1 *: \sum_(a <- bs) (bsz a)%:R *: g a)).
Proof.
case: bs => // a bs fE _; rewrite /reduce_mean /= fE; last by left.
rewrite (reduce_loop_some (g := g)); last by move=> c hc; apply: fE; right.
by rewrite !big_cons add0r add0n.
Qed.
(* a sum of profiles n ln c + q / c has its only minimum at the sum of the q over the sum of the n *)
Lemma sum_min (qq k : T -> R) (bs : seq T) (m c : R) : (0 < \sum_(a <- bs) bsz a)%N -> 0 < m -> 0 < c -> c != m ->
  \sum_(a <- bs) qq a = (\sum_(a <- bs) bsz a)%:R * m ->
  \sum_(a <- bs) (k a + (bsz a)%:R * ln m + qq a / m) / 2%:R < \sum_(a <- bs) (k a + (bsz a)%:R * ln c + qq a / c) / 2%:R.
Proof.
set N := (\sum_(a <- bs) bsz a)%N; set S := \sum_(a <- bs) qq a => N0 m0 c0 ne eq.
have nr : 0 < N%:R :> R by rewrite ltr0n.
have E (t : R) : \sum_(a <- bs) (k a + (bsz a)%:R * ln t + qq a / t) / 2%:R = (\sum_(a <- bs) k a + (N%:R * ln t + S / t)) / 2%:R.
  rewrite /N /S natr_sum !mulr_suml -!big_split /= mulr_suml.
  by apply: eq_bigr => a _; rewrite addrA.
rewrite !E // ltr_pmul2r ?invr_gt0 ?ltr0n // ltr_add2l.
have /ltRP L : Rlt (Rplus (ln m) (IZR 1)) (Rplus (ln c) (Rdiv m c)).
  by apply: ln_quot_min; [exact/ltRP | exact/ltRP | exact/eqP].
have ac : Rdiv m c = m / c by rewrite /Rdiv Rinv_ring // gt_eqF.
have h1 : ln m + 1 < ln c + m / c by rewrite -ac.
have -> : S / m = N%:R * 1 by rewrite eq mulfK ?mulr1 ?gt_eqF.
by rewrite eq -mulrA -!mulrDr ltr_pmul2l.
Qed.
End Mean.

Section Proofs.
Variables (b b' : backend) (p d : nat) (glog : R).
Notation batch := (batch d).
Definition scales_of (delta : 'I_d -> R) : 'rV[R]_d := \row_k - ln (exp (glog / d%:R) / sqrt PI * delta k).
Lemma covparam_rhoE s2 delta : covparam_rho glog s2 delta = mkparam (ln s2) (scales_of delta).
Proof. by []. Qed.
Definition K1 (l : 'rV[R]_d) (a : batch) := maternp_covariance_ii b p (mkparam (ln 1) l) (bx a).
Definition Q (l : 'rV[R]_d) (a : batch) : R := qform (invmx (K1 l a)) (bz a).
Lemma K1pd l a : pos_def (K1 l a).
Proof. exact: cov_ii_pd. Qed.
Lemma bz0 (a : batch) : bsize a = 0%N -> bz a = 0.
Proof. by case: a => n x z /= n0; move: x z; rewrite n0 => x z; apply/matrixP => -[]. Qed.
Lemma Q_size l a : (bsize a)%:R * ((bsize a)%:R^-1 * Q l a) = Q l a.
Proof.
have [n0|n0] := posnP (bsize a); last by rewrite mulVKf // pnatr_eq0 -lt0n.
suff -> : Q l a = 0 by rewrite !mulr0.
by rewrite /Q (bz0 n0) /qform /bilin mulmx0 mxE.
Qed.
Lemma zero_mean_val shards bs delta : bs <> [::] -> dataloader_x_delta d shards = Some delta ->
  init_zero_mean_loader b p glog shards bs =
  Some (Ok (mkparam (ln ((\sum_(a <- bs) bsize a)%:R^-1 * \sum_(a <- bs) Q (scales_of delta) a)) (scales_of delta))).
Proof.
move=> bn dE; rewrite /init_zero_mean_loader dE.
rewrite (@reduce_mean_ok _ _ _ _ (fun a => (bsize a)%:R^-1 * Q (scales_of delta) a : R^o)) //.
  rewrite /= covparam_rhoE; congr (Some (Ok (mkparam (ln _) _))); rewrite /GRing.scale /=; congr (_ * _).
  by apply: eq_bigr => a _; exact: Q_size.
move=> a _; rewrite /norm_k_sqrd_with_zero_mean covparam_rhoE.
by have [L _ ->] := cholesky_solve_ok (bz a) (K1pd (scales_of delta) a); rewrite /= einsum_qform.
Qed.

(* sum of the batch criteria as a function of the variance *)
Lemma sum_profile l (bs : seq batch) (c : R) : List.Exists (fun a => bz a != 0) bs -> 0 < c ->
  let m := (\sum_(a <- bs) bsize a)%:R^-1 * \sum_(a <- bs) Q l a in
  0 < m /\ (c != m -> \sum_(a <- bs) gauss_nll (m *: K1 l a) (bz a) < \sum_(a <- bs) gauss_nll (c *: K1 l a) (bz a)).
Proof.
move=> ex c0 m.
have Q0 a : 0 <= Q l a.
  rewrite /Q; have [->|zn] := eqVneq (bz a) 0; last exact/ltW/(pd_inv (K1pd l a)).2.
  by rewrite /qform /bilin mulmx0 mxE.
have S0 : 0 < \sum_(a <- bs) Q l a.
  rewrite /m; elim: ex => [a s zn|a s _ IH]; rewrite big_cons.
    by apply: ltr_paddr; [rewrite sumr_ge0 | exact: (pd_inv (K1pd l a)).2].
  exact: ltr_paddl.
have N0 : (0 < \sum_(a <- bs) bsize a)%N.
  rewrite /m; elim: ex => [a s zn|a s _ IH]; rewrite big_cons ?addn_gt0 ?IH ?orbT //.
  rewrite lt0n; apply/orP; left; apply/eqP => n0; case/eqP: zn; exact: bz0.
set N := (\sum_(a <- bs) bsize a)%N in m N0 *; set S := \sum_(a <- bs) Q l a in m S0 *.
have nr : 0 < N%:R :> R by rewrite ltr0n.
have m0 : 0 < m by rewrite mulr_gt0 ?invr_gt0.
split=> // ne.
have E (t : R) : 0 < t -> \sum_(a <- bs) gauss_nll (t *: K1 l a) (bz a) =
   \sum_(a <- bs) (((bsize a)%:R * ln (2%:R * PI) + ln (\det (K1 l a))) + (bsize a)%:R * ln t + Q l a / t) / 2%:R.
  move=> t0; apply: eq_bigr => a _; rewrite gauss_nll_scale //; last exact: K1pd.
  by rewrite -/(Q l a); congr (_ / _); ring.
rewrite !E //; apply: (@sum_min _ (@bsize d) (Q l)) => //.
by rewrite /m mulVKf // gt_eqF.
Qed.
Lemma nll_at u l (a : batch) : nll_zero_mean b' (maternp_covariance_ii b p (mkparam u l) (bx a)) (bz a) =
  Ok (Fin (gauss_nll (exp u *: K1 l a) (bz a))).
Proof.
have e0 : 0 < exp u by apply/ltRP; exact: exp_pos.
by rewrite -{1}[u]ln_exp cov_at //; apply: nll_zero_ok; apply: pd_scale => //; exact: K1pd.
Qed.
End Proofs.

(* zero mean: minus the logarithms of the length scales come from the whole dataset (rows dropped from the batches
   included); the log variance is the only minimiser of the sum of the criteria of the batches *)
Theorem C100_zero_mean b b' p d glog shards (bs : seq (batch d)) :
  full_shards shards -> List.Exists (fun a => bz a != 0) bs ->
  exists u l D (L : R -> batch d -> R),
    [/\ init_zero_mean_loader b p glog shards bs = Some (Ok (mkparam u l)),
        forall k : 'I_d, spread (column_values shards k) (D k) /\ l 0 k = - ln (exp (glog / d%:R) / sqrt PI * D k),
        forall v a, nll_zero_mean b' (maternp_covariance_ii b p (mkparam v l) (bx a)) (bz a) = Ok (Fin (L v a))
      & forall v, v != u -> \sum_(a <- bs) L u a < \sum_(a <- bs) L v a].
Proof.
move=> fs ex; have [delta [dE sp]] := delta_ok d fs.
have bn : bs <> [::] by case: ex.
set l := scales_of glog delta; set m : R := (\sum_(a <- bs) bsize a)%:R^-1 * \sum_(a <- bs) Q b p l a.
exists (ln m), l, delta, (fun v a => gauss_nll (exp v *: K1 b p l a) (bz a)).
have m0 : 0 < m by case: (sum_profile b p l ex ltr01).
split; first exact: zero_mean_val.
- by move=> k; split=> //; rewrite mxE.
- by move=> v a; exact: nll_at.
- move=> v ne; have v0 : 0 < exp v by apply/ltRP; exact: exp_pos.
  have em : exp (ln m) = m by apply: exp_ln; apply/ltRP.
  have [_ h] := sum_profile b p l ex v0; rewrite em; apply: h.
  by apply/eqP => e; case/eqP: ne; rewrite -[v]ln_exp e.
Qed.
Print Assumptions C100_zero_mean.

(* one batch holding the whole dataset: the result for arrays *)
Theorem C100_one_batch b p d glog shards n (i0 : 'I_n) (x : 'M[R]_(n, d)) z :
  full_shards shards ->
  (forall (k : 'I_d) (v : R), List.In v (column_values shards k) <-> exists i, x i k = v) ->
  init_zero_mean_loader b p glog shards [:: mkBatch x z] = Some (init_zero_mean b p glog i0 x z) /\
  init_constant_mean_loader b p glog false shards [:: mkBatch x z] = Some (init_constant_mean b p glog i0 x z).
Proof.
move=> fs cv; have [delta [dE sp]] := delta_ok d fs.
have dl k : delta_col i0 x k = delta k.
  apply: InitThms.delta_side; have [h1 [u [v [iu iv e]]]] := sp k; split.
    by move=> i j; apply: h1; apply/cv; [exists i | exists j].
  by have [i ei] := (cv k u).1 iu; have [j ej] := (cv k v).1 iv; exists i, j; rewrite ei ej.
have cE s2 : covparam_rho glog s2 delta = covparam_of glog s2 i0 x.
  by apply/matrixP => i j; rewrite /covparam_rho /covparam_of; congr (row_mx _ _ _ _); apply/matrixP => ? k; rewrite !mxE /rho_of /init_rho dl.
have n0 : n%:R != 0 :> R by rewrite pnatr_eq0 -lt0n; apply: leq_ltn_trans (ltn_ord i0).
have one (V : lmodType R) (v : V) : n%:R^-1 *: (0 + n%:R *: v) = v by rewrite add0r scalerA mulVf // scale1r.
rewrite /init_zero_mean_loader /init_constant_mean_loader dE cE /reduce_mean /=; split.
  rewrite /init_zero_mean; case: norm_k_sqrd_with_zero_mean => //= v.
  by rewrite add0n (one [lmodType R of R^o]) cE.
rewrite /init_constant_mean; case: k_inverses => //= -[[u v] w] /=.
by rewrite add0n !(one [lmodType R of R^o]) cE /= [u / _]mulrC.
Qed.
Print Assumptions C100_one_batch.

Lemma gls_min n (K : 'M[R]_n) (z : 'cV[R]_n) : pos_def K -> (0 < n)%N ->
  let one : 'cV[R]_n := const_mx 1 in
  let m := (\sum_i (invmx K *m z) i 0) / (\sum_i (invmx K *m one) i 0) in
  forall m', m' != m -> qform (invmx K) (z - m *: one) < qform (invmx K) (z - m' *: one).
Proof.
move=> pd n0 one; have pi := pd_inv pd; have si := pd_sym pi.
have one0 : one != 0.
  by apply/eqP => /matrixP /(_ (Ordinal n0) 0); rewrite !mxE => /eqP; rewrite oner_eq0.
have q1 := pi.2 one one0.
have E1 : \sum_i (invmx K *m one) i 0 = qform (invmx K) one.
  rewrite /qform /bilin -mulmxA mxE; apply: eq_bigr => i _.
  by rewrite [one^T 0 i]mxE [one i 0]mxE mul1r.
have E2 : \sum_i (invmx K *m z) i 0 = bilin (invmx K) one z.
  rewrite /bilin -mulmxA mxE; apply: eq_bigr => i _.
  by rewrite [one^T 0 i]mxE [one i 0]mxE mul1r.
rewrite E1 E2 => m.
have Qt t : qform (invmx K) (z - t *: one) =
   qform (invmx K) z - 2%:R * t * bilin (invmx K) one z + t ^+ 2 * qform (invmx K) one.
  rewrite qformD // qformN qformZ bilinNr bilinZr [bilin _ z one]bilin_tr si.
  gring.
have bm : bilin (invmx K) one z = m * qform (invmx K) one by rewrite /m divfK // gt_eqF.
move=> m' ne; rewrite !Qt bm -subr_gt0.
have -> : qform (invmx K) z - 2%:R * m' * (m * qform (invmx K) one) + m' ^+ 2 * qform (invmx K) one
   - (qform (invmx K) z - 2%:R * m * (m * qform (invmx K) one) + m ^+ 2 * qform (invmx K) one)
   = (m' - m) ^+ 2 * qform (invmx K) one by gring.
by apply: mulr_gt0 => //; rewrite lt_def sqr_ge0 andbT sqrf_eq0 subr_eq0.
Qed.

(* constant mean: the mean is the average, weighted by the sizes, of the least squares means of the batches, each with
   its own covariance matrix; the variance is that of the zero-mean guess (no mean is subtracted) *)
Theorem C100_constant_mean b p d glog shards (bs : seq (batch d)) :
  full_shards shards -> bs <> [::] -> (forall a, List.In a bs -> (0 < bsize a)%N) ->
  let K l (a : batch d) := maternp_covariance_ii b p (mkparam 0 l) (bx a) in
  exists mean theta l (mu : batch d -> R),
    [/\ init_constant_mean_loader b p glog false shards bs = Some (Ok (mean, theta)),
        init_zero_mean_loader b p glog shards bs = Some (Ok theta),
        (\sum_(a <- bs) (bsize a)%:R) * mean = \sum_(a <- bs) (bsize a)%:R * mu a,
        rsubmx theta = l
      & forall a, List.In a bs -> forall m', m' != mu a ->
          qform (invmx (K l a)) (bz a - mu a *: const_mx 1) < qform (invmx (K l a)) (bz a - m' *: const_mx 1)].
Proof.
move=> fs bn pos K; have [delta [dE sp]] := delta_ok d fs.
set l := scales_of glog delta.
pose mu (a : batch d) : R := (\sum_i (invmx (K1 b p l a) *m bz a) i 0) / (\sum_i (invmx (K1 b p l a) *m (const_mx 1 : 'cV[R]_(bsize a))) i 0).
set N := \sum_(a <- bs) (bsize a)%:R : R.
have N0 : N != 0.
  rewrite /N -natr_sum pnatr_eq0 -lt0n; move: pos; case: bs bn {N} => // a s _ pos.
  by rewrite big_cons addn_gt0 pos //; left.
exists (N^-1 * \sum_(a <- bs) (bsize a)%:R * mu a),
  (mkparam (ln ((\sum_(a <- bs) bsize a)%:R^-1 * \sum_(a <- bs) Q b p l a)) l), l, mu; split.
- rewrite /init_constant_mean_loader dE.
  rewrite (@reduce_mean_ok _ _ _ _ (fun a => (mu a, Q b p l a / (bsize a)%:R) : (R^o * R^o)%type)) //.
    rewrite /N -natr_sum /=; congr (Some (Ok (_, _))).
      rewrite /GRing.scale /=; congr (_ * _).
      by elim: {dE bn pos N N0} (bs) => [|a s IH]; rewrite ?big_nil ?big_cons //= IH.
    rewrite covparam_rhoE; congr (mkparam (ln _) _); rewrite /GRing.scale /=; congr (_ * _).
    elim: {dE bn pos N N0} (bs) => [|a s IH]; rewrite ?big_nil ?big_cons //= IH.
    by rewrite -[in RHS](Q_size b p l a) [(bsize a)%:R^-1 * _]mulrC.
  move=> a _; rewrite /k_inverses covparam_rhoE -/l -/(K1 b p l a) /inv pd_unit ?K1pd //=; last exact: K1pd.
  by rewrite einsum_qform.
- exact: zero_mean_val.
- by rewrite mulVKf.
- by rewrite row_mxKr.
- move=> a ia m'; have -> : K l a = K1 b p l a by rewrite /K /K1 ln_1.
  by apply: gls_min; [exact: K1pd | exact: pos].
Qed.
Print Assumptions C100_constant_mean.

(* with observations of shape (n, 1) the constant-mean guess raises; an empty pass and a shard without rows raise *)
Theorem C100_raises b p d glog shards (bs : seq (batch d)) :
  full_shards shards -> bs <> [::] ->
  (exists e, init_constant_mean_loader b p glog true shards bs = Some (Err e)) /\
  init_zero_mean_loader (d := d) b p glog shards [::] = None /\
  init_constant_mean_loader (d := d) b p glog false shards [::] = None.
Proof.
move=> fs bn; have [delta [dE sp]] := delta_ok d fs.
rewrite /init_constant_mean_loader /init_zero_mean_loader dE /=; split=> //.
case: bs bn => // a s _; rewrite /reduce_mean /=; case: k_inverses => [[[u v] w]|e] /=.
  by exists (if b is Torch then RuntimeErr else ValueErr).
by exists e.
Qed.
Print Assumptions C100_raises.

(* the batches one below the other *)
Definition stack d (a c : batch d) : batch d := mkBatch (col_mx (bx a) (bx c)) (col_mx (bz a) (bz c)).
Definition stacked d (bs : seq (batch d)) : batch d := foldr (@stack d) (@mkBatch d 0 0 0) bs.

Lemma qform_inv_ge n (K : 'M[R]_n) (z w : 'cV[R]_n) : pos_def K ->
  2%:R * bilin 1%:M w z - qform K w <= qform (invmx K) z.
Proof.
move=> pd; have pi := pd_inv pd; have h := (pd_psd pi).2 (z - K *m w).
have uK := pd_unit pd; have sK := pd_sym pd; have si := pd_sym pi.
rewrite -subr_ge0; apply: le_trans h _; rewrite le_eqVlt; apply/orP; left; apply/eqP.
have e1 : qform (invmx K) (K *m w) = qform K w.
  by rewrite /qform /bilin trmx_mul sK -!mulmxA (mulKmx uK).
have e2 : bilin (invmx K) z (K *m w) = bilin 1%:M w z.
  by rewrite bilin_tr si /bilin trmx_mul sK -!mulmxA (mulKVmx uK) mul1mx.
by rewrite qformD // qformN bilinNr e1 e2; gring.
Qed.
Section Bound.
Variables (b : backend) (p d : nat) (l : 'rV[R]_d).
Notation Q := (Q b p l).
Notation K1 := (K1 b p l).
Lemma K1_stack a c : K1 (stack a c) =
  block_mx (K1 a) (maternp_covariance_it b p (mkparam (ln 1) l) (bx a) (bx c))
    (maternp_covariance_it b p (mkparam (ln 1) l) (bx a) (bx c))^T (K1 c).
Proof.
rewrite /InitLoaderThms.K1 !cov_ii_it !KitE /= scale_col kern_block scale_block_mx.
by rewrite (scalar_mx_block (bsize a) (bsize c)) add_block_mx !addr0 -linearZ.
Qed.
Lemma blk_test n m (A : 'M[R]_n) (B : 'M[R]_(n, m)) (D : 'M[R]_m) z t :
  pos_def (block_mx A B B^T D) -> pos_def A -> pos_def D ->
  qform (invmx A) z <= qform (invmx (block_mx A B B^T D)) (col_mx z t) /\
  qform (invmx D) t <= qform (invmx (block_mx A B B^T D)) (col_mx z t).
Proof.
move=> pd pA pD; split.
- apply: le_trans (qform_inv_ge (col_mx z t) (col_mx (invmx A *m z) 0) pd).
  have -> : bilin 1%:M (col_mx (invmx A *m z) 0) (col_mx z t) = qform (invmx A) z.
    by rewrite /qform /bilin mulmx1 tr_col_mx mul_row_col trmx0 mul0mx addr0 trmx_mul (pd_sym (pd_inv pA)).
  have -> : qform (block_mx A B B^T D) (col_mx (invmx A *m z) 0) = qform (invmx A) z.
    rewrite /qform /bilin tr_col_mx mul_row_block mul_row_col trmx0 !mul0mx mulmx0 !addr0 trmx_mul (pd_sym (pd_inv pA)).
    by rewrite -!mulmxA (mulKVmx (pd_unit pA)).
  by rewrite mulr_natl mulr2n addrK.
- apply: le_trans (qform_inv_ge (col_mx z t) (col_mx 0 (invmx D *m t)) pd).
  have -> : bilin 1%:M (col_mx 0 (invmx D *m t)) (col_mx z t) = qform (invmx D) t.
    by rewrite /qform /bilin mulmx1 tr_col_mx mul_row_col trmx0 mul0mx add0r trmx_mul (pd_sym (pd_inv pD)).
  have -> : qform (block_mx A B B^T D) (col_mx 0 (invmx D *m t)) = qform (invmx D) t.
    rewrite /qform /bilin tr_col_mx mul_row_block mul_row_col trmx0 !mul0mx mulmx0 !add0r trmx_mul (pd_sym (pd_inv pD)).
    by rewrite -!mulmxA (mulKVmx (pd_unit pD)).
  by rewrite mulr_natl mulr2n addrK.
Qed.
Lemma Q_stack a c : Q a <= Q (stack a c) /\ Q c <= Q (stack a c).
Proof.
have pd := K1pd b p l (stack a c); rewrite /InitLoaderThms.Q; move: pd; rewrite K1_stack => pd.
by apply: blk_test => //; exact: K1pd.
Qed.
Lemma Q_stacked bs : \sum_(a <- bs) Q a <= (size bs)%:R * Q (stacked bs).
Proof.
elim: bs => [|a bs IH]; first by rewrite big_nil mul0r.
rewrite big_cons /= mulrS mulrDl mul1r; have [h1 h2] := Q_stack a (stacked bs).
by apply: ler_add => //; apply: le_trans IH _; apply: ler_wpmul2l => //; exact: ler0n.
Qed.
End Bound.

Lemma bsize_stacked d (bs : seq (batch d)) : bsize (stacked bs) = (\sum_(a <- bs) bsize a)%N.
Proof. by elim: bs => [|a s IH]; rewrite ?big_nil ?big_cons //= IH. Qed.
Lemma bz_stacked d (bs : seq (batch d)) : List.Exists (fun a => bz a != 0) bs -> bz (stacked bs) != 0.
Proof.
elim=> [a s h|a s _ h] /=; apply/negP => /eqP; rewrite -(col_mx0 _ (bsize a)) => /eq_col_mx [e1 e2].
  by rewrite e1 eqxx in h.
by rewrite e2 eqxx in h.
Qed.

(* compared with the same data as arrays: same length scales, and the variance is at most the number of batches times
   that of the arrays *)
Theorem C100_bound b p d glog shards (bs : seq (batch d)) (i0 : 'I_(bsize (stacked bs))) :
  full_shards shards -> List.Exists (fun a => bz a != 0) bs ->
  (forall (k : 'I_d) (v : R), List.In v (column_values shards k) <-> exists i, bx (stacked bs) i k = v) ->
  exists u v l, [/\ init_zero_mean_loader b p glog shards bs = Some (Ok (mkparam u l)),
    init_zero_mean b p glog i0 (bx (stacked bs)) (bz (stacked bs)) = Ok (mkparam v l)
    & exp u <= (size bs)%:R * exp v].
Proof.
move=> fs ex cv; have [delta [dE sp]] := delta_ok d fs.
have bn : bs <> [::] by case: ex.
set l := scales_of glog delta.
have [o _] := C100_one_batch b p glog i0 (bz (stacked bs)) fs cv.
have ex1 : List.Exists (fun a => bz a != 0) [:: stacked bs] by constructor; exact: bz_stacked.
have [m1 _] := sum_profile b p l ex ltr01; have [m2 _] := sum_profile b p l ex1 ltr01.
have o1 := zero_mean_val b p (bs := [:: stacked bs]) glog _ dE.
exists (ln ((\sum_(a <- bs) bsize a)%:R^-1 * \sum_(a <- bs) Q b p l a)),
  (ln ((\sum_(a <- [:: stacked bs]) bsize a)%:R^-1 * \sum_(a <- [:: stacked bs]) Q b p l a)), l; split.
- exact: zero_mean_val.
- by move: o; rewrite (_ : mkBatch _ _ = stacked bs) ?o1 //; [case | case: (stacked bs)].
- have e t : 0 < t -> exp (ln t) = t by move=> t0; apply: exp_ln; apply/ltRP.
  rewrite !e // !big_seq1 bsize_stacked mulrCA; apply: ler_wpmul2l; first by rewrite invr_ge0 ler0n.
  exact: Q_stacked.
Qed.
Print Assumptions C100_bound.

(* batches of one observation each: the variance is the mean square of the observations, up to the nugget *)
Theorem C100_single_observations b p d glog shards (bs : seq (batch d)) :
  full_shards shards -> List.Exists (fun a => bz a != 0) bs -> (forall a, List.In a bs -> bsize a = 1%N) ->
  exists u l, init_zero_mean_loader b p glog shards bs = Some (Ok (mkparam u l)) /\
    (1 + 10%:R / 2%:R ^+ 52) * exp u = (\sum_(a <- bs) \sum_i bz a i 0 ^+ 2) / (size bs)%:R.
Proof.
move=> fs ex s1; have [delta [dE sp]] := delta_ok d fs.
have bn : bs <> [::] by case: ex.
set l := scales_of glog delta; have [m1 _] := sum_profile b p l ex ltr01.
exists (ln ((\sum_(a <- bs) bsize a)%:R^-1 * \sum_(a <- bs) Q b p l a)), l; split; first exact: zero_mean_val.
have -> : exp (ln ((\sum_(a <- bs) bsize a)%:R^-1 * \sum_(a <- bs) Q b p l a)) = (\sum_(a <- bs) bsize a)%:R^-1 * \sum_(a <- bs) Q b p l a.
  by apply: exp_ln; apply/ltRP.
have -> : (\sum_(a <- bs) bsize a)%N = size bs.
  elim: {dE ex bn m1} (bs) s1 => [|a s IH] h; rewrite ?big_nil ?big_cons //= IH; last by move=> c hc; apply: h; right.
  by rewrite h //; left.
rewrite mulrCA [RHS]mulrC; congr (_ * _); rewrite mulr_sumr.
elim: {dE ex bn m1} (bs) s1 => [|a s IH] h; rewrite ?big_nil ?big_cons //= IH; last by move=> c hc; apply: h; right.
congr (_ + _); have := h a (or_introl erefl); case: a {h} => n x z /= n1; rewrite /Q /K1 /=; subst n.
have -> : maternp_covariance_ii b p (mkparam (ln 1) l) x = (1 + 10%:R / 2%:R ^+ 52)%:M.
  apply/matrixP => i j; rewrite !ord1 cov_ii_diag [RHS]mxE eqxx mulr1n /mat_nugget /mat_sigma2 row_mxEl mxE eqxx mulr1n.
  by rewrite (_ : exp (ln 1) = 1) ?ln_1 ?exp_0 // mulr1.
have c0 : (1 + 10%:R / 2%:R ^+ 52 : R) != 0.
  by apply: lt0r_neq0; rewrite addr_gt0 ?ltr01 // divr_gt0 ?ltr0n ?exprn_gt0 ?ltr0n.
rewrite /qform /bilin invmx_scalar mul_mx_scalar -scalemxAl !mxE mulrA divff // mul1r.
by apply: eq_bigr => i _; rewrite mxE expr2.
Qed.
Print Assumptions C100_single_observations.

(* linear mean: the sum of the restricted criteria of the batches is minimal at a single variance s2; the guess is too
   small by the factor (N - B q)/N for B batches of N rows in total and q trend functions *)
Theorem C100_linear_mean b b' p d glog q (mean : forall n, 'M[R]_(n, d) -> 'M[R]_(n, q))
  (qr : forall r, qr_fun R_rcfType q r) shards (bs : seq (lbatch d q)) :
  full_shards shards ->
  (forall a, List.In a bs -> is_qr (mean _ (lx a)) (qr _ (mean _ (lx a))) /\ full_col_rank (mean _ (lx a))) ->
  List.Exists (fun a => forall beta, lz a != mean _ (lx a) *m beta) bs ->
  exists s2 l D (L : R -> lbatch d q -> R), let N := (\sum_(a <- bs) (q + lrest a))%N in
    [/\ 0 < s2,
        init_linear_mean_loader b p glog mean qr shards bs =
          Some (Ok (mkparam (ln ((N%:R - (size bs * q)%:R) / N%:R * s2)) l)),
        forall k : 'I_d, spread (column_values shards k) (D k) /\ l 0 k = - ln (exp (glog / d%:R) / sqrt PI * D k),
        forall c a, 0 < c -> List.In a bs ->
          nrl b' (qr _) (maternp_covariance_ii b p (mkparam (ln c) l) (lx a)) (mean _ (lx a)) (lz a) = Ok (Fin (L c a))
      & forall c, 0 < c -> c != s2 -> \sum_(a <- bs) L s2 a < \sum_(a <- bs) L c a].
Proof.
move=> fs ok ex; have [delta [dE sp]] := delta_ok d fs.
have bn : bs <> [::] by case: ex.
set l := scales_of glog delta.
pose K (a : lbatch d q) := maternp_covariance_ii b p (mkparam (ln 1) l) (lx a).
have Kpd a : pos_def (K a) by exact: cov_ii_pd.
pose W (a : lbatch d q) := rsubmx (qr (lrest a) (mean _ (lx a))).1.
pose G a := (W a)^T *m (K a *m W a); pose y a := (W a)^T *m lz a.
pose qq (a : lbatch d q) : R := qform (invmx (G a)) (y a).
have pG a : List.In a bs -> pos_def (G a) by move=> /ok [h1 h2]; apply: G_pd => //; exact: pd_cpd.
have q0 a : List.In a bs -> 0 <= qq a by move=> /pG /pd_inv /pd_psd [_]; exact.
have yn a : List.In a bs -> (forall beta, lz a != mean _ (lx a) *m beta) -> y a != 0.
  move=> ia h; apply/eqP => e; have [h1 h2] := ok a ia; have [beta eb] := contrast_zero h1 h2 e.
  by have := h beta; rewrite -eb eqxx.
have rn a : y a != 0 -> (0 < lrest a)%N.
  rewrite lt0n => h; apply/eqP => r0; case/eqP: h; apply/matrixP => i; have := ltn_ord i; rewrite {2}r0 //.
have [S0 M0] : 0 < \sum_(a <- bs) qq a /\ (0 < \sum_(a <- bs) lrest a)%N.
  move: ok pG q0 yn; elim: ex => [a s h|a s _ IH] ok pG q0 yn; rewrite !big_cons.
    have ia : List.In a (a :: s) by left.
    have ya := yn a ia h; split; last by rewrite addn_gt0 rn.
    apply: ltr_paddr; last exact: (pd_inv (pG a ia)).2.
    elim: (s) (fun c (hc : List.In c s) => q0 c (or_intror hc)) => [|c t IH] hq; rewrite ?big_nil ?big_cons //.
    by apply: addr_ge0; [apply: hq; left | apply: IH => e he; apply: hq; right].
  have t c : List.In c s -> List.In c (a :: s) by right.
  have [h1 h2] := IH (fun c hc => ok c (t c hc)) (fun c hc => pG c (t c hc)) (fun c hc => q0 c (t c hc)) (fun c hc => yn c (t c hc)).
  by split; [apply: ltr_paddl => //; apply: q0; left | rewrite addn_gt0 h2 orbT].
set M := (\sum_(a <- bs) lrest a)%N in M0; set S := \sum_(a <- bs) qq a in S0.
have Mr : 0 < M%:R :> R by rewrite ltr0n.
pose L (c : R) (a : lbatch d q) : R := gauss_nll (c *: G a) (y a).
exists (M%:R^-1 * S), l, delta, L => N.
have eN : N%:R - (size bs * q)%:R = M%:R :> R.
  apply/eqP; rewrite subr_eq -natrD eqr_nat addnC; apply/eqP; rewrite /N /M.
  by elim: {dE bn ex ok pG q0 yn S S0 M M0 Mr N} (bs) => [|a s IH]; rewrite ?big_nil ?big_cons //= IH mulSn addnACA.
have Nr : N%:R != 0 :> R.
  rewrite pnatr_eq0 -lt0n; apply: leq_trans M0 _; rewrite /N /M.
  by elim: {dE bn ex ok pG q0 yn S S0 M Mr N eN} (bs) => [|a s IH]; rewrite ?big_nil ?big_cons //; apply: leq_add (leq_addl _ _) IH.
have s0 : 0 < M%:R^-1 * S by rewrite mulr_gt0 ?invr_gt0.
split=> //.
- rewrite eN /init_linear_mean_loader dE.
  rewrite (@reduce_mean_ok _ _ _ _ (fun a => qq a / (lsize a)%:R : R^o)) //.
    rewrite /= covparam_rhoE -/l; congr (Some (Ok (mkparam (ln _) _))).
    have -> : (\sum_(a <- bs) lsize a)%N = N by [].
    rewrite /GRing.scale /= [M%:R / _]mulrC -mulrA mulVKf ?gt_eqF //; congr (_ * _).
    rewrite /S; elim: (bs) ok pG q0 => [|a s IH] ok pG q0; rewrite ?big_nil ?big_cons // IH; first congr (_ + _).
    - have [n0|n0] := posnP (lsize a); last by rewrite mulrCA divff ?mulr1 // pnatr_eq0 -lt0n.
      have r0 : lrest a = 0%N by move/eqP: n0; rewrite addn_eq0 => /andP[_ /eqP].
      rewrite n0 mul0r; suff e : y a = 0 by rewrite /qq e /qform /bilin mulmx0 mxE.
      by apply/matrixP => i; have := ltn_ord i; rewrite {2}r0.
    - by move=> c hc; apply: ok; right.
    - by move=> c hc; apply: pG; right.
    - by move=> c hc; apply: q0; right.
  move=> a ia; rewrite /norm_k_sqrd /compute_contrast_matrix /compute_contrast_covariance covparam_rhoE -/l -/(K a).
  have := pG a ia; rewrite /qq /G /y /W; case E: (qr _ _) => [Q0 Rm] /= pG'.
  have [C _ ->] := cholesky_solve_ok ((rsubmx Q0)^T *m lz a) pG'.
  by rewrite /= einsum_qform.
- by move=> k; split=> //; rewrite mxE.
- move=> c a c0 ia; have [h1 h2] := ok a ia; rewrite cov_at // -/(K a) nrl_ok //; last by apply: pd_cpd; exact: pd_scale.
  by rewrite /nrl_of -scalemxAl -scalemxAr.
- move=> c c0 ne.
  pose k (a : lbatch d q) : R := (lrest a)%:R * ln (2%:R * PI) + ln (\det (G a)).
  have E (t : R) : 0 < t -> \sum_(a <- bs) L t a = \sum_(a <- bs) (k a + (lrest a)%:R * ln t + qq a / t) / 2%:R.
    move=> t0; elim: (bs) pG => [|a s IH] pG; rewrite ?big_nil ?big_cons // IH; last by move=> e he; apply: pG; right.
    congr (_ + _); rewrite /L gauss_nll_scale //; last by apply: pG; left.
    by congr ((_ + _) / _); rewrite /k addrAC.
  rewrite !E //; apply: (@sum_min _ (@lrest d q) qq) => //.
  by rewrite mulVKf // gt_eqF.
Qed.
Print Assumptions C100_linear_mean.

(* two points, in one shard, visited in two batches of one *)
Definition two_shards : seq (seq ReduceModel.row) := [:: [:: (fun=> 0%R); (fun=> 1%R)]].
Definition one_obs (x z : R) : batch 1 := @mkBatch 1 1 (const_mx x) (const_mx z).
Example C100_case : full_shards two_shards /\
  List.Exists (fun a => bz a != 0) [:: one_obs 0 1; one_obs 1 3%:R] /\
  (forall a, List.In a [:: one_obs 0 1; one_obs 1 3%:R] -> bsize a = 1%N) /\
  (forall (k : 'I_1) (v : R), List.In v (column_values two_shards k) <->
     exists i, bx (stacked [:: one_obs 0 1; one_obs 1 3%:R]) i k = v) /\
  forall b p glog, exists u l, init_zero_mean_loader b p glog two_shards [:: one_obs 0 1; one_obs 1 3%:R] = Some (Ok (mkparam u l)) /\
    (1 + 10%:R / 2%:R ^+ 52) * exp u = 5%:R.
Proof.
have fs : full_shards two_shards by split=> // s [<-|[]].
have ex : List.Exists (fun a => bz a != 0) [:: one_obs 0 1; one_obs 1 3%:R].
  by apply: List.Exists_cons_hd; apply/eqP => /matrixP /(_ 0 0); rewrite !mxE => /eqP; rewrite oner_eq0.
have s1 : forall a, List.In a [:: one_obs 0 1; one_obs 1 3%:R] -> bsize a = 1%N by move=> a [<-|[<-|[]]].
split=> //; split=> //; split=> //; split; last first.
  move=> b p glog; have [u [l [e1 e2]]] := C100_single_observations b p glog fs ex s1; exists u, l; split=> //; rewrite e2.
  rewrite !big_cons big_nil /= !big_ord1 !mxE addr0 expr1n.
  have -> : (1 + 3%:R ^+ 2 : R) = 5%:R * 2%:R by rewrite -natrX -(natrD _ 1) -natrM.
  by rewrite mulfK // pnatr_eq0.
move=> k v; rewrite /column_values /=; split.
  case=> [<-|[<-|[]]]; [exists (lshift (1 + 0) 0) | exists (rshift 1 (lshift 0 0))].
    by rewrite col_mxEu mxE.
  by rewrite col_mxEd col_mxEu mxE.
case=> i <-; case: (splitP i) => j e.
  by left; rewrite (_ : i = lshift _ j) ?col_mxEu ?mxE //; apply: val_inj.
right; left; case: (splitP j) => j' e'; last by case: j' e'.
by rewrite (_ : i = rshift 1 (lshift 0 j')) ?col_mxEd ?col_mxEu ?mxE //; apply: val_inj; rewrite /= e e'.
Qed.
Example C100_linear_mean_case : exists (qr : forall r, qr_fun R_rcfType 1 r),
  let mean n (x : 'M[R]_(n, 1)) : 'M[R]_(n, 1) := const_mx 1 in
  let a : lbatch 1 1 := @mkLBatch 1 1 1 (\matrix_(i, j) (i : nat)%:R) (\matrix_(i, j) (i : nat)%:R) in
  [/\ is_qr (mean _ (lx a)) (qr _ (mean _ (lx a))), full_col_rank (mean _ (lx a)) & forall beta, lz a != mean _ (lx a) *m beta].
Proof.
have [q1 h1] := qr_exists R_rcfType 1 1.
exists (fun r => match r return qr_fun R_rcfType 1 r with 1%N => q1 | _ => fun P => (1%:M, P) end); split.
- exact: h1.
- move=> v /matrixP /(_ 0 0); rewrite mxE big_ord1 !mxE mul1r => e.
  by apply/matrixP => i j; rewrite !ord1 e mxE.
- move=> beta; apply/eqP => /matrixP e; have := e (lshift 1 0) 0; have := e (rshift 1 0) 0.
  rewrite !mxE !big_ord1 !mxE /= => <- /eqP; by rewrite eq_sym oner_eq0.
Qed.
