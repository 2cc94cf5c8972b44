(* MhPoolThms.v: property theorem C109. *)
From Coq Require Import Reals.
From mathcomp Require Import all_ssreflect all_algebra.
From mathcomp Require Import ring.
From Verif Require Import LinAlg Rinst MhMat MhPoolModel.
Set Implicit Arguments.
Unset Strict Implicit.
Unset Printing Implicit Defensive.
Import Order.TTheory GRing.Theory Num.Theory.
Local Open Scope ring_scope.
Bind Scope ring_scope with R.

(* the jitter of attempt k: 0, j0, 10 j0, 100 j0, ... *)
Definition jitter_of (j0 : R) (k : nat) : R := if k is k'.+1 then 10%:R ^+ k' * j0 else 0.

Section S.
Variable d : nat.
Implicit Types (cov : 'M[R]_d) (draw : 'M[R]_d -> option 'rV[R]_d).
Lemma jitter_of_next j0 k : 0 < j0 -> (if jitter_of j0 k == 0 then j0 else 10%:R * jitter_of j0 k) = jitter_of j0 k.+1.
Proof.
move=> h; case: k => [|k] /=; first by rewrite eqxx expr0 mul1r.
by rewrite mulf_eq0 expf_eq0 pnatr_eq0 andbF /= gt_eqF // exprS mulrA.
Qed.
Lemma loop_spec draw cov j0 n k : 0 < j0 ->
  match jitter_loop draw cov j0 n (jitter_of j0 k) with
  | Some x => exists2 i, (k <= i < k + n)%N & draw (cov + jitter_of j0 i *: 1%:M) = Some x /\
                forall i', (k <= i' < i)%N -> draw (cov + jitter_of j0 i' *: 1%:M) = None
  | None => forall i, (k <= i < k + n)%N -> draw (cov + jitter_of j0 i *: 1%:M) = None
  end.
Proof.
move=> h; elim: n k => [|n IH] k; first by move=> i; rewrite addn0 => /andP[a b]; move: (leq_trans b a); rewrite ltnn.
rewrite [jitter_loop _ _ _ _ _]/=.
have -> : (if jitter_of j0 k == 0 then cov else cov + jitter_of j0 k *: 1%:M) = cov + jitter_of j0 k *: 1%:M.
  by case: eqP => // ->; rewrite scale0r addr0.
case e: (draw _) => [x|].
  exists k; first by rewrite leqnn addnS ltnS leq_addr.
  by split=> // i' /andP[a b]; move: (leq_trans b a); rewrite ltnn.
rewrite jitter_of_next //; move: (IH k.+1); case: (jitter_loop _ _ _ _ _) => [x|] H.
  case: H => i /andP[a b] [H1 H2]; exists i; first by rewrite (ltnW a) addnS -addSn.
  split=> // i' /andP[c f]; case: (ltngtP k i') c => // [g|<-] _ //; by apply: H2; rewrite g.
by move=> i /andP[a b]; case: (ltngtP k i) a => // [g|<-] _ //; apply: H; rewrite g addSn -addnS.
Qed.
(* adding a multiple of the identity *)
Lemma qform_shift cov (j : R) x : qform (cov + j *: 1%:M) x = qform cov x + j * qform 1%:M x.
Proof. by rewrite /qform bilin_addm bilin_scalem. Qed.
Lemma pd_mono cov (i j : R) : i <= j -> pos_def (cov + i *: 1%:M) -> pos_def (cov + j *: 1%:M).
Proof.
move=> h [s p]; split.
  by move: s; rewrite /symmetric !linearD /= !linearZ /= trmx1 => /addIr ->.
move=> x x0; rewrite qform_shift; apply: (lt_le_trans (p x x0)); rewrite qform_shift ler_add2l ler_wpmul2r //.
by case: (@pos_def1 R_rcfType d) => _ /(_ x x0) /ltW.
Qed.
Lemma jitter_le j0 i k : 0 < j0 -> (i <= k)%N -> jitter_of j0 i <= jitter_of j0 k.
Proof.
move=> h; case: i k => [|i] [|k] //= ik; first by rewrite mulr_ge0 ?exprn_ge0 ?ler0n // ltW.
by rewrite ler_pmul2r // ler_eexpn2l // ltr1n.
Qed.
End S.

(* the draw is the first that succeeds along cov, cov + j0 I, cov + 10 j0 I, ... ; max_attempts + 1 of them are tried *)
Theorem C109_jitter d (draw : 'M[R]_d -> option 'rV[R]_d) cov j0 m : 0 < j0 ->
  match sample_with_jitter draw cov j0 m with
  | Some x => exists2 i, (i <= m)%N & draw (cov + jitter_of j0 i *: 1%:M) = Some x /\
                forall k, (k < i)%N -> draw (cov + jitter_of j0 k *: 1%:M) = None
  | None => forall i, (i <= m)%N -> draw (cov + jitter_of j0 i *: 1%:M) = None
  end.
Proof.
move=> h; move: (loop_spec draw cov m.+1 0 h); rewrite /sample_with_jitter [jitter_of j0 0]/=.
case: (jitter_loop _ _ _ _ _) => [x|] H; last by move=> i im; apply: H; rewrite add0n ltnS.
by case: H => i /andP[_ a] [H1 H2]; exists i; [rewrite add0n ltnS in a | split=> // k ki; apply: H2].
Qed.
Print Assumptions C109_jitter.
(* when the draw succeeds for the positive definite matrices and only for them: a positive definite covariance is used as it is, a
   positive semidefinite one gets at most j0, and the call fails exactly when the last shift, 10^(m-1) j0, does not make the matrix
   positive definite; a jitter above j0 means a direction of variance at most minus a tenth of it *)
Theorem C109_jitter_pd d (draw : 'M[R]_d -> option 'rV[R]_d) cov j0 m : 0 < j0 -> symmetric cov -> (0 < m)%N ->
  (forall C, (exists x, draw C = Some x) <-> pos_def C) ->
  ((exists x, sample_with_jitter draw cov j0 m = Some x) <-> pos_def (cov + jitter_of j0 m *: 1%:M)) /\
  (pos_def cov -> sample_with_jitter draw cov j0 m = draw cov) /\
  (pos_semidef cov -> sample_with_jitter draw cov j0 m = draw cov \/ sample_with_jitter draw cov j0 m = draw (cov + j0 *: 1%:M)) /\
  (forall x, sample_with_jitter draw cov j0 m = Some x -> exists2 i, (i <= m)%N &
     draw (cov + jitter_of j0 i *: 1%:M) = Some x /\ forall k, (k < i)%N -> exists2 v : 'cV[R]_d, v != 0 & qform cov v <= - jitter_of j0 k * qform 1%:M v).
Proof.
move=> h s m0 D.
have np k : draw (cov + jitter_of j0 k *: 1%:M) = None -> ~ pos_def (cov + jitter_of j0 k *: 1%:M).
  by move=> e /D[x]; rewrite e.
have e0 : cov + jitter_of j0 0 *: 1%:M = cov by rewrite scale0r addr0.
have e1 : jitter_of j0 1 = j0 by rewrite /= expr0 mul1r.
have J := C109_jitter draw cov m h.
split; [|split; [|split]].
- split.
  + case=> x e; move: J; rewrite e => -[i im [H _]].
    apply: (pd_mono (jitter_le h im)); apply/D; by exists x.
  + move=> p; case e: (sample_with_jitter _ _ _ _) J => [x|] J; first by exists x.
    by case: (np m (J m (leqnn m))).
- move=> p; case e: (sample_with_jitter _ _ _ _) J => [x|] J; last by case: (np 0%N (J 0%N isT)); rewrite e0.
  by case: J => -[|i] im [H1 H2]; [rewrite e0 in H1 | case: (np 0%N (H2 0%N isT)); rewrite e0].
- move=> p.
  have p1 : pos_def (cov + jitter_of j0 1 *: 1%:M).
    rewrite e1; split; first by rewrite /symmetric linearD /= linearZ /= trmx1 s.
    move=> x x0; rewrite qform_shift; apply: ltr_paddl; first by case: p => _; apply.
    by rewrite mulr_gt0 //; case: (@pos_def1 R_rcfType d) => _; apply.
  case e: (sample_with_jitter _ _ _ _) J => [x|] J; last by case: (np 1%N (J 1%N m0)).
  case: J => -[|[|i]] im [H1 H2]; first by left; rewrite e0 in H1.
    by right; rewrite e1 in H1.
  by case: (np 1%N (H2 1%N isT)).
- move=> x e; move: J; rewrite e => -[i im [H1 H2]]; exists i => //; split=> // k ki.
  have /D nd : ~ (exists x, draw (cov + jitter_of j0 k *: 1%:M) = Some x) by rewrite (H2 k ki) => -[].
  apply: Classical_Prop.NNPP => nv; case: (np k (H2 k ki)); split.
    by rewrite /symmetric linearD /= linearZ /= trmx1 s.
  move=> v v0; rewrite qform_shift ltNge; apply/negP => le; apply: nv; exists v => //.
  by rewrite mulNr -subr_le0 opprK.
Qed.
Print Assumptions C109_jitter_pd.
(* covariances adapted by Haario's rule, for at least two rows and a nonnegative scale, never need jitter *)
Theorem C109_adapted d (draw : 'M[R]_d -> option 'rV[R]_d) (eps s j0 : R) m (rows : seq 'rV[R]_d) : 0 < j0 -> 0 < eps -> 0 <= s -> (1 < size rows)%N -> (0 < m)%N ->
  (forall C, (exists x, draw C = Some x) <-> pos_def C) ->
  sample_with_jitter draw (haario_cov eps s (sample_cov rows)) j0 m = draw (haario_cov eps s (sample_cov rows)) /\
  exists x, draw (haario_cov eps s (sample_cov rows)) = Some x.
Proof.
move=> h e0 s0 sz m0 D; have p := haario_cov_pd e0 s0 (sample_cov_psd sz); split; last by apply/D.
by apply: (C109_jitter_pd h (pd_sym p) m0 D).2.1.
Qed.
Print Assumptions C109_adapted.

Section Decomposition.
Variable d : nat.
Implicit Types (b : seq 'rV[R]_d) (bs : seq (seq 'rV[R]_d)).
Definition outer (x : 'rV[R]_d) : 'M[R]_d := x^T *m x.
Definition scatter b : 'M[R]_d := \sum_(x <- b) outer (x - row_mean b).
Lemma sum_dev b : \sum_(x <- b) (x - row_mean b) = 0.
Proof.
rewrite big_split /= sumrN big_const_seq count_predT iter_addr_0.
case: b => [|a b]; first by rewrite big_nil mulr0n subr0.
rewrite /row_mean -scaler_nat scalerA divff ?pnatr_eq0 // scale1r subrr //.
Qed.
Lemma scatter_about b (mu : 'rV[R]_d) : \sum_(x <- b) outer (x - mu) = scatter b + (size b)%:R *: outer (row_mean b - mu).
Proof.
have E x : outer (x - mu) = outer (x - row_mean b) + ((x - row_mean b)^T *m (row_mean b - mu) + (row_mean b - mu)^T *m (x - row_mean b)) + outer (row_mean b - mu).
  have -> : x - mu = (x - row_mean b) + (row_mean b - mu) by rewrite addrA subrK.
  by rewrite /outer (raddfD (trmx_additive _ _ _)) /= mulmxDl !mulmxDr !addrA.
rewrite (eq_bigr _ (fun x _ => E x)) !big_split /= -mulmx_suml -linear_sum /= -mulmx_sumr sum_dev trmx0 mul0mx mulmx0 !addr0.
by rewrite /scatter; congr (_ + _); rewrite big_const_seq count_predT iter_addr_0 scaler_nat.
Qed.
Lemma scatter_flatten bs : scatter (flatten bs) = \sum_(b <- bs) scatter b + \sum_(b <- bs) (size b)%:R *: outer (row_mean b - row_mean (flatten bs)).
Proof.
rewrite {1}/scatter; set mu := row_mean (flatten bs); rewrite big_flatten /= -big_split /=.
by apply: eq_bigr => b _; exact: scatter_about.
Qed.
Lemma cov_scatter b : (1 < size b)%N -> ((size b)%:R - 1) *: sample_cov b = scatter b.
Proof.
move=> h; rewrite /sample_cov scalerA divff ?scale1r // subr_eq0.
by rewrite pnatr_eq1 gtn_eqF.
Qed.
End Decomposition.

Lemma cov_psd_outer d (x : 'rV[R]_d) : pos_semidef (outer x).
Proof. exact: psd_gram. Qed.
Lemma outerE d (x : 'rV[R]_d) i j : outer x i j = x 0 i * x 0 j.
Proof. by rewrite mxE big_ord1 mxE. Qed.
(* pooled chains: with equal weights to the rows, the pooled covariance is the within-chain part plus the spread of the chain means *)
Theorem C109_pooled d (bs : seq (seq 'rV[R]_d)) : (forall b, b \in bs -> (1 < size b)%N) -> bs != [::] ->
  let rows := flatten bs in
  ((size rows)%:R - 1) *: sample_cov rows =
    \sum_(b <- bs) ((size b)%:R - 1) *: sample_cov b + \sum_(b <- bs) (size b)%:R *: outer (row_mean b - row_mean rows) /\
  (forall v : 'cV[R]_d, \sum_(b <- bs) ((size b)%:R - 1) * qform (sample_cov b) v <= ((size rows)%:R - 1) * qform (sample_cov rows) v) /\
  (((size rows)%:R - 1) *: sample_cov rows = \sum_(b <- bs) ((size b)%:R - 1) *: sample_cov b <-> forall b, b \in bs -> row_mean b = row_mean rows).
Proof.
move=> h n0 rows.
have sz : (1 < size rows)%N.
  case: bs n0 h @rows => [|b bs] // _ h rows; rewrite /rows /= size_cat; apply: (leq_trans (h b _)); first by rewrite mem_head.
  exact: leq_addr.
have E : ((size rows)%:R - 1) *: sample_cov rows =
    \sum_(b <- bs) ((size b)%:R - 1) *: sample_cov b + \sum_(b <- bs) (size b)%:R *: outer (row_mean b - row_mean rows).
  rewrite cov_scatter // scatter_flatten; congr (_ + _).
  by rewrite big_seq [RHS]big_seq; apply: eq_bigr => b hb; rewrite cov_scatter // h.
have B : pos_semidef (\sum_(b <- bs) (size b)%:R *: outer (row_mean b - row_mean rows)).
  by apply: psd_sum => b; apply: psd_scale; [exact: ler0n | exact: cov_psd_outer].
have Q (F : seq 'rV[R]_d -> R) (G : seq 'rV[R]_d -> 'M[R]_d) v : qform (\sum_(b <- bs) F b *: G b) v = \sum_(b <- bs) F b * qform (G b) v.
  elim: (bs) => [|b l IH]; first by rewrite !big_nil /qform /bilin mulmx0 mul0mx mxE.
  by rewrite !big_cons -IH /qform bilin_addm bilin_scalem.
split; [exact: E | split].
  move=> v; rewrite -(Q (fun b => (size b)%:R - 1) (@sample_cov d)).
  have -> : ((size rows)%:R - 1) * qform (sample_cov rows) v = qform (((size rows)%:R - 1) *: sample_cov rows) v by rewrite {2}/qform bilin_scalem.
  by rewrite E /qform bilin_addm ler_addl; case: B => _; apply.
split.
  rewrite E => /eqP; rewrite -subr_eq0 addrC addKr => /eqP Z b hb.
  apply/eqP; rewrite -subr_eq0; apply/eqP/rowP => j.
  have : (\sum_(b0 <- bs) (size b0)%:R *: outer (row_mean b0 - row_mean rows)) j j = 0 by rewrite Z mxE.
  rewrite summxE => /eqP; rewrite psumr_eq0; last first.
    by move=> b0 _; rewrite mxE outerE -expr2 mulr_ge0 ?ler0n ?sqr_ge0.
  move=> /allP /(_ b hb) /=; rewrite mxE outerE mulf_eq0 pnatr_eq0.
  have /gtn_eqF -> /= : (0 < size b)%N by apply: ltnW; exact: h.
  by rewrite mulf_eq0 orbb => /eqP ->; rewrite mxE.
move=> H; rewrite E [X in _ + X]big_seq [X in _ + X]big1 ?addr0 // => b hb.
by rewrite (H b hb) subrr /outer mulmx0 scaler0.
Qed.
Print Assumptions C109_pooled.
(* n_pool must divide the number of chains; one chain per group gives the covariance of each chain, all chains in one group the
   pooled covariance *)
Theorem C109_groups d (x : seq (seq 'rV[R]_d)) burnin n_pool :
  ((empirical_covariances x burnin false n_pool == None) = ~~ ((0 < n_pool)%N && (n_pool %| size x)%N)) /\
  empirical_covariances x burnin false 1 = Some [seq sample_cov (drop burnin c) | c <- x] /\
  (x != [::] -> empirical_covariances x burnin false (size x) = empirical_covariances x burnin true n_pool) /\
  (forall l, pooled_samples x burnin n_pool = Some l -> flatten l = flatten [seq drop burnin c | c <- x] /\ size l = (size x %/ n_pool)%N).
Proof.
split; [|split; [|split]].
- by rewrite /empirical_covariances /pooled_samples /dvdn; case: (_ && _).
- rewrite /empirical_covariances /pooled_samples modn1 eqxx divn1 /=; congr Some; rewrite -map_comp.
  apply: (@eq_from_nth _ 0) => [|i]; rewrite !size_map size_iota // => hi.
  rewrite (nth_map 0%N) ?size_iota // nth_iota // (nth_map [::]) //= add0n muln1 (drop_nth [::] hi) /= take0 /= cats0 //.
- move=> x0; rewrite /empirical_covariances /pooled_samples modnn eqxx lt0n size_eq0 x0 /= divnn lt0n size_eq0 x0 /=.
  by rewrite mul0n drop0 take_size.
- rewrite /pooled_samples; case: ifP => // /andP[n0 /eqP m0] l [<-]; split; last by rewrite size_map size_iota.
  have S : size x = (size x %/ n_pool * n_pool)%N by rewrite {1}(divn_eq (size x) n_pool) m0 addn0.
  move: (size x %/ n_pool)%N S => k; elim: k x {m0} => [|k IH] x S; first by rewrite mul0n in S; rewrite (size0nil S).
  have -> : iota 0 k.+1 = iota 0 k ++ [:: k] by rewrite -addn1 iotaD.
  rewrite map_cat flatten_cat.
  have [y [c [ex sy sc]]] : exists y c, [/\ x = y ++ c, size y = (k * n_pool)%N & size c = n_pool].
    exists (take (k * n_pool) x), (drop (k * n_pool) x); rewrite cat_take_drop; split=> //.
      by rewrite size_takel // S leq_mul2r leqnSn orbT.
    by rewrite size_drop S mulSn addnK.
  rewrite ex map_cat flatten_cat -(IH y sy) /= cats0 drop_cat sy ltnn subnn drop0 (@take_oversize _ n_pool c) ?sc //; congr (_ ++ _).
  congr flatten; apply/eq_in_map => i; rewrite mem_iota add0n => /andP[_ ik].
  congr (flatten (map _ _)); rewrite drop_cat sy ltn_mul2r n0 ik /= take_cat size_drop sy.
  case: ltnP => // le; have e : (k * n_pool - i * n_pool = n_pool)%N.
    apply/eqP; rewrite eqn_leq le /= -mulnBl leq_pmull // subn_gt0 //.
  by rewrite e subnn take0 cats0 take_oversize // size_drop sy e.
Qed.
Print Assumptions C109_groups.
(* recompute_all_chains_full_covariance: every chain gets the scaled covariance of its own rows after burn-in, shifted by eps *)
Theorem C109_recompute d (x : seq (seq 'rV[R]_d)) burnin scaling (eps : R) : (0 < d)%N -> 0 < eps ->
  (if scaling is Some s then 0 <= s else true) -> (forall c, c \in x -> (burnin.+1 < size c)%N) ->
  let s : R := if scaling is Some s then s else (238%:R / 100%:R) ^+ 2 / d%:R in
  let P := recompute_all x burnin scaling eps in
  size P = size x /\
  forall c, (c < size x)%N -> pos_def (nth 0 P c) /\
    (forall v, qform (nth 0 P c) v = s * qform (sample_cov (drop burnin (nth [::] x c))) v + eps * qform 1%:M v /\ eps * qform 1%:M v <= qform (nth 0 P c) v) /\
    (forall l, empirical_covariances x burnin false 1 = Some l -> nth 0 P c = s *: nth 0 l c + eps *: 1%:M) /\
    (forall y, nth [::] y c = nth [::] x c -> (c < size y)%N -> nth 0 (recompute_all y burnin scaling eps) c = nth 0 P c).
Proof.
move=> d0 e0 hs hx s P.
have s0 : 0 <= s by rewrite /s; case: (scaling) hs => [s' //|_]; rewrite divr_ge0 ?sqr_ge0 ?ler0n.
split; first by rewrite size_map.
move=> c hc.
have sz : (1 < size (drop burnin (nth [::] x c)))%N by rewrite size_drop ltn_subRL addn1 hx // mem_nth.
have E (y : seq (seq (matrix R 1 d))) : (c < size y)%N -> nth 0 (recompute_all y burnin scaling eps) c = haario_cov eps s (sample_cov (drop burnin (nth [::] y c))).
  by move=> hy; rewrite /recompute_all (nth_map [::]).
rewrite /P (E x hc); have psd := sample_cov_psd sz; split; [|split; [|split]].
- exact: haario_cov_pd.
- move=> v; split; last exact: haario_cov_lower.
  by rewrite /haario_cov /qform bilin_addm !bilin_scalem.
- move=> l; have [_ [-> _]] := C109_groups x burnin 1 => -[<-].
  by rewrite (nth_map [::]).
- by move=> y e hy; rewrite E // e.
Qed.
Print Assumptions C109_recompute.

(* the verdict on the acceptance rates *)
Theorem C109_rates (rates : seq (seq R)) burnin it last low high mn mx ok :
  check_rates rates burnin it last low high = Some (mn, mx, ok) ->
  let i0 := if last is Some n then (it - n)%N else burnin in
  let seen x := exists2 r, r \in rates & exists2 t, (i0 <= t < it)%N & (t < size r)%N /\ nth 0 r t = x in
  [/\ seen mn, seen mx, (forall x, seen x -> mn <= x <= mx) & ok = true <-> forall x, seen x -> low <= x <= high].
Proof.
move=> h i0 seen; move: h; rewrite /check_rates -/i0; case: ifP => // _.
set l := flatten _ => e.
have M x : x \in l <-> seen x.
  rewrite /l; split.
    case/flattenP => s /mapP[r hr ->] hx; exists r => //.
    have lt := hx; rewrite -index_mem in lt; have ni := nth_index 0 hx; move: lt ni; set k := index _ _ => lt ni.
    rewrite size_drop in lt; exists (i0 + k)%N.
      by rewrite leq_addr /= -ltn_subRL (leq_trans lt) // leq_sub2r // size_take; case: ltnP.
    move: ni; rewrite nth_drop nth_take; last by rewrite -ltn_subRL (leq_trans lt) // leq_sub2r // size_take; case: ltnP.
    move=> ->; split=> //; rewrite -ltn_subRL (leq_trans lt) // leq_sub2r // size_take; case: ltnP => // h; exact: ltnW.
  case=> r hr [t /andP[a b] [c <-]]; apply/flattenP; exists (drop i0 (take it r)); first by apply/mapP; exists r.
  have -> : nth 0 r t = nth 0 (drop i0 (take it r)) (t - i0) by rewrite nth_drop subnKC // nth_take.
  have lt : (t < size (take it r))%N by rewrite size_take; case: (ltnP it (size r)).
  by apply: mem_nth; rewrite size_drop ltn_sub2r // (leq_ltn_trans a).
have FM (a : R) s : foldl Num.min a s \in a :: s /\ forall x, x \in a :: s -> foldl Num.min a s <= x.
  elim: s a => [|b s IH] a /=; first by rewrite mem_head; split=> // x; rewrite inE => /eqP ->.
  have [H1 H2] := IH (Num.min a b); split.
    move: H1; rewrite !inE => /orP[/eqP ->|->]; last by rewrite !orbT.
    by rewrite minEle; case: ifP; rewrite eqxx ?orbT.
  move=> x; rewrite !inE => /orP[/eqP ->|/orP[/eqP ->|hx]]; last by apply: H2; rewrite inE hx orbT.
    by apply: (le_trans (H2 _ (mem_head _ _))); rewrite le_minl lexx.
  by apply: (le_trans (H2 _ (mem_head _ _))); rewrite le_minl lexx orbT.
have FX (a : R) s : foldl Num.max a s \in a :: s /\ forall x, x \in a :: s -> x <= foldl Num.max a s.
  elim: s a => [|b s IH] a /=; first by rewrite mem_head; split=> // x; rewrite inE => /eqP ->.
  have [H1 H2] := IH (Num.max a b); split.
    move: H1; rewrite !inE => /orP[/eqP ->|->]; last by rewrite !orbT.
    by rewrite maxEle; case: ifP; rewrite eqxx ?orbT.
  move=> x; rewrite !inE => /orP[/eqP ->|/orP[/eqP ->|hx]]; last by apply: H2; rewrite inE hx orbT.
    by apply: (le_trans _ (H2 _ (mem_head _ _))); rewrite le_maxr lexx.
  by apply: (le_trans _ (H2 _ (mem_head _ _))); rewrite le_maxr lexx orbT.
move: M e; case: l => [|a l] // M [<- <- <-].
have [m1 m2] := FM a l; have [x1 x2] := FX a l; split.
- by apply/M.
- by apply/M.
- by move=> x /M hx; rewrite m2 // x2.
- split=> [/andP[h1 h2] x /M hx|H]; first by rewrite (le_trans h1 (m2 x hx)) (le_trans (x2 x hx) h2).
  by case/andP: (H _ (iffLR (M _) m1)) => -> _ /=; case/andP: (H _ (iffLR (M _) x1)).
Qed.
Print Assumptions C109_rates.
Theorem C109_rates_raises (rates : seq (seq R)) burnin it last low high :
  let i0 := if last is Some n then (it - n)%N else burnin in
  (exists2 r, r \in rates & (it <= size r)%N) ->
  (check_rates rates burnin it last low high = None <-> (it <= i0.+1)%N).
Proof.
move=> i0 [r hr le]; rewrite /check_rates -/i0 leq_subLR addn1; case: ifP => // gt; split=> // e; exfalso; move: e.
have : nth 0 r i0 \in flatten [seq drop i0 (take it r) | r <- rates].
  move/negbT: gt; rewrite -ltnNge => gt; have lt : (i0 < it)%N by apply: ltnW.
  apply/flattenP; exists (drop i0 (take it r)); first by apply/mapP; exists r.
  have -> : nth 0 r i0 = nth 0 (drop i0 (take it r)) 0 by rewrite nth_drop addn0 nth_take.
  by apply: mem_nth; rewrite size_drop subn_gt0 size_takel.
by case: (flatten _).
Qed.
Print Assumptions C109_rates_raises.
(* two chains of two iterations; two chains of two scalar samples; a singular covariance that needs one jitter *)
Example C109_case :
  check_rates [:: [:: 3%:R; 1]; [:: 2%:R; 2%:R]] 0 2 None 1 3%:R = Some (1, 3%:R, true) /\
  check_rates [:: [:: 3%:R; 1]; [:: 2%:R; 2%:R]] 0 2 (Some 2%N) 1 2%:R = Some (1, 3%:R, false) /\
  (let draw (A : 'M[R]_1) := if 0 < A 0 0 then Some (row 0 A) else None in
   sample_with_jitter draw 0 1 1 = Some 1%:M /\ sample_with_jitter draw 0 1 0 = None) /\
  (let bs := [:: [:: 0; 1%:M]; [:: 1%:M; 2%:R%:M]] : seq (seq 'rV[R]_1) in (forall b, b \in bs -> (1 < size b)%N) /\ bs != [::]) /\
  (empirical_covariances [:: [:: 0; 1%:M]; [:: 1%:M; 2%:R%:M]; [:: 0; 0] : seq 'rV[R]_1] 0 false 2 = None).
Proof.
have m31 : Num.min 3%:R 1 = 1 :> R by rewrite min_r // ler1n.
have m12 : Num.min 1 2%:R = 1 :> R by rewrite min_l // ler1n.
have x31 : Num.max 3%:R 1 = 3%:R :> R by rewrite max_l // ler1n.
have x32 : Num.max 3%:R 2%:R = 3%:R :> R by rewrite max_l // ler_nat.
split; [|split; [|split; [|split]]].
- by rewrite /check_rates /= m31 !m12 x31 !x32 !lexx.
- by rewrite /check_rates /= m31 !m12 x31 !x32 lexx ler_nat.
- rewrite /sample_with_jitter /= !eqxx !mxE ltxx oner_eq0 add0r scale1r !mxE eqxx ltr01; split=> //; congr Some.
  by apply/rowP => j; rewrite !mxE !ord1.
- by split=> // b; rewrite !inE => /orP[] /eqP ->.
- by [].
Qed.
