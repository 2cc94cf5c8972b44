(* RemapLoaderThms.v: restricted likelihood criteria over the batches of a dataloader (C104). *)
From Coq Require Import List Reals Lra Lia.
From mathcomp Require Import all_ssreflect all_algebra.
From Verif Require Import ConfigModel FlModel PriorModel PriorProofs PriorCritModel PriorCritThms RemapProofs LinAlg KrigModel RealAux2 Rinst LikModel
  MaternModel MaternCov LinQR LooProofs KrigProofs LikProofs InitProofs KrigProofs3 InitLoaderModel RemapModel RemapThms.
From Coq Require Epsilon Classical_Prop.
From Verif Require SelectModel SelectProofs.
Import ConfigModel.
Set Implicit Arguments.
Unset Strict Implicit.
Unset Printing Implicit Defensive.
Import Order.TTheory GRing.Theory Num.Theory.
Local Open Scope ring_scope.
Local Arguments exp : clear scopes.
Local Arguments ln : clear scopes.
Bind Scope ring_scope with R.

(** the objective over the loader has a unique minimum, at u, and is finite everywhere *)
Definition unique_min_loader (f : R -> SelectModel.eval_result) (u : R) : Prop :=
  exists v, f u = SelectModel.EValue (Fin v) /\ forall u', u' <> u -> exists v', f u' = SelectModel.EValue (Fin v') /\ Rlt v v'.

Section C104.
Variables (b b' : backend) (p d q : nat) (mean : forall n, 'M[R]_(n, d) -> 'M[R]_(n, q)) (qr : forall r, qr_fun R_rcfType q r).
(** the trend has full column rank on the batch, and the observations of the batch are not a trend *)
Definition regular (a : lbatch d q) : Prop :=
  [/\ is_qr (mean (lx a)) (qr (mean (lx a))), full_col_rank (mean (lx a)) & forall beta, lz a != mean (lx a) *m beta].
Let reml := batch_reml b b' p mean qr.
Let obj numpy crit := @loader_objective d q numpy crit.


Lemma sum_listE (T : Type) (f : T -> R) s : sum_list (List.map f s) = \sum_(a <- s) f a.
Proof. by elim: s => [|a s IH]; [rewrite big_nil | rewrite [List.map _ _]/= SelectProofs.sum_cons IH big_cons]. Qed.
Notation sz a := (INR (lsize a)).
Notation W := (wsm (fun a : lbatch d q => sz a)).
Lemma WE f s : W f s = \sum_(a <- s) sz a * f a.
Proof. exact: sum_listE. Qed.
Lemma W1 s : INR (list_sum (List.map (@lsize d q) s)) = W (fun _ => IZR 1) s.
Proof.
elim: s => [|a s IH] //; rewrite wsm_cons -IH [list_sum _]/(lsize a + list_sum (List.map (@lsize d q) s))%coq_nat plus_INR.
by congr (Rplus _ _); rewrite Rmult_1_r.
Qed.
Lemma reg_pos a : regular a -> (0 < lrest a)%N.
Proof. by case=> h1 h2 h3; exact: (r_pos h1 h2 h3). Qed.
Lemma size_pos a : regular a -> Rlt (IZR 0) (sz a).
Proof. by move=> h; apply: lt_0_INR; apply/ssrnat.ltP; rewrite /lsize addn_gt0 reg_pos ?orbT. Qed.
Lemma obj_value numpy (crit : param d -> lbatch d q -> res fl) bs t (v : lbatch d q -> R) : bs <> [::] ->
  (forall a, List.In a bs -> regular a) -> (forall a, List.In a bs -> crit t a = Ok (Fin (v a))) ->
  obj numpy crit bs t = SelectModel.EValue (Fin (Rdiv (W v bs) (W (fun _ => IZR 1) bs))).
Proof.
move=> bn hs hv; rewrite /obj /loader_objective /SelectModel.batch_eval /SelectModel.batch_init /=.
rewrite (@pass_value _ _ _ _ t v) //=.
- rewrite W1; congr (SelectModel.EValue (Fin (Rdiv _ _))); rewrite Rplus_0_l /wsm; congr (sum_list _).
  by apply: List.map_ext => a; rewrite Rmult_comm.
- by move=> a ha; rewrite /= hv.
- by move=> a /hs /reg_pos h; apply/ssrnat.ltP; rewrite /lsize addn_gt0 h orbT.
- by case: bs bn {hs hv} => //= *; apply/ssrnat.ltP.
Qed.

(* every batch criterion as a profile in u *)
Lemma profiles l : exists c Q : lbatch d q -> R, forall a, regular a ->
  Rlt (IZR 0) (Q a) /\ forall u, reml (u, l) a = Ok (Fin (pen (Rdiv (INR (lrest a)) (IZR 2)) (Rdiv (Q a) (IZR 2)) (IZR 0) (IZR 0) (c a) u)).
Proof using Type.
have ex a : exists cQ : R * R, regular a ->
  Rlt (IZR 0) cQ.2 /\ forall u, reml (u, l) a = Ok (Fin (pen (Rdiv (INR (lrest a)) (IZR 2)) (Rdiv cQ.2 (IZR 2)) (IZR 0) (IZR 0) cQ.1 u)).
  case: (Classical_Prop.classic (regular a)) => [[h1 h2 h3]|n]; last by exists (IZR 0, IZR 0).
  by have [c [Q [Q0 h]]] := reml_value b b' p (lx a) h1 h2 h3 l; exists (c, Q).
pose f a := Epsilon.epsilon (inhabits (IZR 0, IZR 0)) (fun cQ : R * R => regular a ->
  Rlt (IZR 0) cQ.2 /\ forall u, reml (u, l) a = Ok (Fin (pen (Rdiv (INR (lrest a)) (IZR 2)) (Rdiv cQ.2 (IZR 2)) (IZR 0) (IZR 0) cQ.1 u))).
by exists (fun a => (f a).1), (fun a => (f a).2) => a; exact: (Epsilon.epsilon_spec _ _ (ex a)).
Qed.
Lemma min_of_pen_loader (f : R -> SelectModel.eval_result) (A B w s C N u : R) : Rlt (IZR 0) N ->
  (forall u, f u = SelectModel.EValue (Fin (Rdiv (pen A B w s C u) N))) ->
  Rlt (IZR 0) B -> Rle (IZR 0) w -> Rplus (Rminus A (Rmult B (exp (Ropp u)))) (Rmult w (Rminus u s)) = IZR 0 -> unique_min_loader f u.
Proof.
move=> N0 h B0 w0 e; eexists; split; first exact: h.
move=> u' ne; eexists; split; first exact: h.
apply: Rmult_lt_compat_r; [exact: Rinv_0_lt_compat | exact: pen_min].
Qed.
Lemma root0 (A B : R) : Rlt (IZR 0) A -> Rlt (IZR 0) B -> Rplus (Rminus A (Rmult B (exp (Ropp (ln (Rdiv B A)))))) (Rmult (IZR 0) (Rminus (ln (Rdiv B A)) (IZR 0))) = IZR 0.
Proof.
move=> A0 B0; rewrite exp_Ropp exp_ln; last exact: Rdiv_lt_0_compat.
by field; lra.
Qed.

(** restricted likelihood over a loader, length scales fixed: one minimum; its variance is the mean of the estimates of the
    batches, with weights n (n - q) for a batch of n rows *)
Theorem C104_restricted_likelihood numpy bs l : bs <> [::] -> (forall a, List.In a bs -> regular a) ->
  exists (ua : lbatch d q -> R) uB,
    [/\ forall a, List.In a bs -> unique_min (fun u => reml (u, l) a) (ua a),
        unique_min_loader (fun u => obj numpy reml bs (u, l)) uB
      & (\sum_(a <- bs) INR (lsize a) * INR (lrest a)) * exp uB = \sum_(a <- bs) INR (lsize a) * (INR (lrest a) * exp (ua a))].
Proof using Type.
move=> bn hr; have [c [Q h]] := profiles l.
pose A (a : lbatch d q) := Rdiv (INR (lrest a)) (IZR 2); pose B a := Rdiv (Q a) (IZR 2).
have A0 a : regular a -> Rlt (IZR 0) (A a).
  by move=> /reg_pos /ssrnat.ltP /lt_0_INR ?; rewrite /A; lra.
have B0 a : regular a -> Rlt (IZR 0) (B a) by move=> /h [? _]; rewrite /B; lra.
have wp f : (forall a, regular a -> Rlt (IZR 0) (f a)) -> Rlt (IZR 0) (W f bs).
  by move=> hf; apply: wsm_pos => // a /hr ra; [exact: size_pos | exact: hf].
exists (fun a => ln (Rdiv (B a) (A a))), (ln (Rdiv (W B bs) (W A bs))); split.
- move=> a /hr ra; have [Q0 ha] := h a ra.
  by apply: (min_of_pen ha); [exact: B0 | exact: Rle_refl | apply: root0; [exact: A0 | exact: B0]].
- apply: (@min_of_pen_loader _ (W A bs) (W B bs) (IZR 0) (IZR 0) (W c bs) (W (fun _ => IZR 1) bs)).
  + by apply: wp => *; lra.
  + move=> u; rewrite (@obj_value _ _ _ _ (fun a => pen (A a) (B a) (IZR 0) (IZR 0) (c a) u)) // => [|a /hr ra]; last exact: (h a ra).2.
    by rewrite wsm_pen wsm_const Rmult_0_r.
  + exact: wp.
  + exact: Rle_refl.
  + by apply: root0; exact: wp.
- rewrite exp_ln; last by apply: Rdiv_lt_0_compat; exact: wp.
  rewrite -!WE.
  have -> : W (fun a => INR (lrest a)) bs = Rmult (IZR 2) (W A bs).
    by rewrite -wsm_scal; apply: wsm_ext => a _; rewrite /A; field.
  have -> : W (fun a => INR (lrest a) * exp (ln (Rdiv (B a) (A a)))) bs = Rmult (IZR 2) (W B bs).
    rewrite -wsm_scal; apply: wsm_ext => a /hr ra; rewrite exp_ln; last by apply: Rdiv_lt_0_compat; [exact: B0 | exact: A0].
    have := A0 a ra; rewrite {1 2}/A => ?; change (Rmult (INR (lrest a)) (Rdiv (B a) (A a)) = Rmult (IZR 2) (B a)); rewrite /A; field; lra.
  change (Rmult (Rmult (IZR 2) (W A bs)) (Rdiv (W B bs) (W A bs)) = Rmult (IZR 2) (W B bs)).
  by have := wp A A0 => ?; field; lra.
Qed.

Section Prior.
Variables (inv_cdf : R -> R) (s0 gamma coverage : R).
Hypothesis hc : inv_cdf_contract inv_cdf.
Hypothesis hg : Rlt (IZR 1) gamma.
Hypothesis h0 : Rlt (IZR 0) coverage.
Hypothesis h1 : Rlt coverage (IZR 1).
Let pen_obj numpy := obj numpy (batch_logsigma2 b b' p mean qr inv_cdf s0 gamma coverage).

(** with the Gaussian prior on the log variance: the size-weighted mean of the criteria of the batches, plus the prior term once *)
Theorem C104_value numpy bs t (v : lbatch d q -> R) : bs <> [::] -> (forall a, List.In a bs -> regular a) ->
  (forall a, List.In a bs -> reml t a = Ok (Fin (v a))) ->
  exists std, [/\ logsigma2_prior_std inv_cdf gamma coverage = Some std, Rlt (IZR 0) std &
    pen_obj numpy bs t = SelectModel.EValue (Fin (Rplus (Rdiv (\sum_(a <- bs) INR (lsize a) * v a) (\sum_(a <- bs) INR (lsize a)))
      (Rdiv (Rmult (Rminus t.1 s0) (Rminus t.1 s0)) (Rmult (Rmult (IZR 2) std) std))))].
Proof using hc hg h0 h1.
move=> bn hr hv.
have [std [E [Hs _]]] := coverage_holds inv_cdf gamma coverage (IZR 0) hc hg (conj h0 h1).
exists std; split=> //; set k := Rdiv (Rmult _ _) _.
rewrite /pen_obj (@obj_value _ _ _ _ (fun a => Rplus (v a) (Rmult k (IZR 1)))) // => [|a ha].
  have W0 : Rlt (IZR 0) (W (fun _ => IZR 1) bs) by apply: wsm_pos => // a ha; [apply: size_pos; exact: hr | lra].
  have -> : W (fun a => Rplus (v a) (Rmult k (IZR 1))) bs = Rplus (W v bs) (Rmult k (W (fun _ => IZR 1) bs)).
    rewrite -wsm_scal; elim: bs {bn hr hv W0} => [|a bs IH]; first by rewrite /wsm /sum_list /=; ring.
    by rewrite !wsm_cons IH; ring.
  rewrite -WE; have -> : \sum_(a <- bs) INR (lsize a) = W (fun _ => IZR 1) bs.
    by rewrite WE; apply: eq_bigr => a _; symmetry; exact: Rmult_1_r.
  by congr (SelectModel.EValue (Fin _)); field; lra.
have [std' [E' _ V]] := std_exists b b' p (qr (r := lrest a)) (lx a) (mean (lx a)) (lz a) hc hg h0 h1.
rewrite E in E'; case: E' => es; subst std'.
by rewrite /batch_logsigma2 (V s0 t.1 t.2 _ (hv a ha)) Rmult_1_r.
Qed.

(** batches of the same size: the minimum over the variance is that of the sum of the restricted likelihood criteria of the
    batches plus the prior term multiplied by the number of batches; it lies between the minimum without the prior and the
    centre of the prior *)
Theorem C104_equal_batches numpy bs l m : bs <> [::] -> (forall a, List.In a bs -> regular a) -> (forall a, List.In a bs -> lsize a = m) ->
  exists std um uB (v : lbatch d q -> R -> R),
    [/\ logsigma2_prior_std inv_cdf gamma coverage = Some std,
        forall a u, List.In a bs -> reml (u, l) a = Ok (Fin (v a u)),
        unique_min_loader (fun u => pen_obj numpy bs (u, l)) um,
        (let f u := Rplus (\sum_(a <- bs) v a u) (Rmult (INR (length bs)) (Rdiv (Rmult (Rminus u s0) (Rminus u s0)) (Rmult (Rmult (IZR 2) std) std))) in
         forall u, u <> um -> Rlt (f um) (f u))
      & unique_min_loader (fun u => obj numpy reml bs (u, l)) uB /\
        (Rle (Rmin s0 uB) um /\ Rle um (Rmax s0 uB)) /\ (s0 <> uB -> Rlt (Rmin s0 uB) um /\ Rlt um (Rmax s0 uB))].
Proof using hc hg h0 h1.
move=> bn hr hm; have [c [Q h]] := profiles l.
have [std [E [Hs _]]] := coverage_holds inv_cdf gamma coverage (IZR 0) hc hg (conj h0 h1).
pose A (a : lbatch d q) := Rdiv (INR (lrest a)) (IZR 2); pose B a := Rdiv (Q a) (IZR 2).
pose w := Rinv (Rmult std std).
have w0 : Rlt (IZR 0) w by apply: Rinv_0_lt_compat; nra.
have A0 a : regular a -> Rlt (IZR 0) (A a) by move=> /reg_pos /ssrnat.ltP /lt_0_INR ?; rewrite /A; lra.
have B0 a : regular a -> Rlt (IZR 0) (B a) by move=> /h [? _]; rewrite /B; lra.
have wp f : (forall a, regular a -> Rlt (IZR 0) (f a)) -> Rlt (IZR 0) (W f bs).
  by move=> hf; apply: wsm_pos => // a /hr ra; [exact: size_pos | exact: hf].
have N0 : Rlt (IZR 0) (W (fun _ => IZR 1) bs) by apply: wp => *; lra.
have w0' : Rlt (IZR 0) (W (fun _ => w) bs) by apply: wp.
have [um [e [bd st]]] := @pen_root (W A bs) (W B bs) (W (fun _ => w) bs) s0 (wp A A0) (wp B B0) w0'.
exists std, um, (ln (Rdiv (W B bs) (W A bs))), (fun a u => pen (A a) (B a) (IZR 0) (IZR 0) (c a) u).
have hv a u : List.In a bs -> reml (u, l) a = Ok (Fin (pen (A a) (B a) (IZR 0) (IZR 0) (c a) u)) by move=> /hr ra; exact: (h a ra).2.
split=> //.
- apply: (@min_of_pen_loader _ (W A bs) (W B bs) (W (fun _ => w) bs) s0 (W c bs) (W (fun _ => IZR 1) bs)) => // [u||]; [| exact: wp | exact: Rlt_le].
  have [std' [E' _ ->]] := @C104_value numpy bs (u, l) _ bn hr (fun a => hv a u); rewrite E in E'; case: E' => es; subst std'.
  congr (SelectModel.EValue (Fin _)); rewrite -WE wsm_pen.
  have -> : \sum_(a <- bs) INR (lsize a) = W (fun _ => IZR 1) bs by rewrite WE; apply: eq_bigr => a _; symmetry; exact: Rmult_1_r.
  rewrite (wsm_const _ _ w) (wsm_const _ _ (IZR 0)) /pen /w /=; field; lra.
- move=> f u ne.
  have m0 : Rlt (IZR 0) (INR m) by case: bs bn hr hm {bd e st f w0' N0 wp hv} => // a s _ hr hm; rewrite -(hm a); [apply: size_pos; apply: hr; left | left].
  suff F t : Rmult (INR m) (f t) = pen (W A bs) (W B bs) (W (fun _ => w) bs) s0 (W c bs) t.
    apply: (Rmult_lt_reg_l (INR m)) => //; rewrite !F; apply: pen_min => //; [exact: wp | exact: Rlt_le].
  have sm f' : W f' bs = Rmult (INR m) (wsm (fun _ => IZR 1) f' bs).
    by apply: wsm_same => a ha; rewrite hm.
  have hN : wsm (fun _ : lbatch d q => IZR 1) (fun _ => IZR 1) bs = INR (length bs).
    elim: bs {bn hr hm bd e st f w0' N0 wp hv sm} => [|a s IH]; first by rewrite /wsm /sum_list.
    by rewrite wsm_cons IH [length (a :: s)]/= S_INR; ring.
  have -> : f t = wsm (fun _ => IZR 1) (fun a => pen (A a) (B a) w s0 (c a) t) bs.
    rewrite /f -hN -sum_listE; elim: bs {bn hr hm bd e st f w0' N0 wp hv sm hN} => [|a s IH]; first by rewrite /wsm /sum_list /=; ring.
    by rewrite !wsm_cons -IH /= SelectProofs.sum_cons /pen /w; field; lra.
  by rewrite -sm wsm_pen.
split; last by split.
apply: (@min_of_pen_loader _ (W A bs) (W B bs) (IZR 0) (IZR 0) (W c bs) (W (fun _ => IZR 1) bs)) => // [u|||].
- by rewrite (@obj_value _ _ _ _ (fun a => pen (A a) (B a) (IZR 0) (IZR 0) (c a) u)) // => [|a ha]; [rewrite wsm_pen wsm_const Rmult_0_r | exact: hv].
- exact: wp.
- exact: Rle_refl.
- by apply: root0; exact: wp.
Qed.
End Prior.

(** any criterion: repeating the batches (more data of the same kind) does not change the objective, so that the weight of a prior
    contained in the criterion does not decrease *)
Theorem C104_repeated numpy (crit : param d -> lbatch d q -> res fl) bs k t : (0 < k)%N -> bs <> [::] ->
  (forall a, List.In a bs -> regular a /\ exists v, crit t a = Ok (Fin v)) ->
  obj numpy crit (flatten (nseq k bs)) t = obj numpy crit bs t.
Proof using Type.
move=> k0 bn h.
pose v a := if crit t a is Ok (Fin x) then x else IZR 0.
have hv a : List.In a bs -> crit t a = Ok (Fin (v a)) by move=> /h [_ [x e]]; rewrite /v e.
have inF a : List.In a (flatten (nseq k bs)) -> List.In a bs.
  by clear -k0; elim: k {k0} => //= k IH /List.in_app_iff [].
rewrite (@obj_value numpy crit bs t v) //; last by move=> a /h [].
rewrite (@obj_value numpy crit (flatten (nseq k bs)) t v) //.
- have F f : W f (flatten (nseq k bs)) = Rmult (INR k) (W f bs).
    clear; elim: k => [|k IH]; first by rewrite Rmult_0_l.
    by rewrite [flatten _]/(List.app bs (flatten (nseq k bs))) wsm_app IH S_INR; ring.
  have N0 : Rlt (IZR 0) (W (fun _ => IZR 1) bs) by apply: wsm_pos => // a ha; [apply: size_pos; exact: (h a ha).1 | lra].
  have kp : Rlt (IZR 0) (INR k) by apply: lt_0_INR; apply/ssrnat.ltP.
  by rewrite !F; congr (SelectModel.EValue (Fin _)); field; lra.
- by case: k k0 {inF} => // k _; case: bs bn {h hv}.
- by move=> a /inF /h [].
- by move=> a /inF; exact: hv.
Qed.
(** a linear algebra failure on one batch: +inf with NumPy, the exception with Torch; any other exception is raised *)
Theorem C104_failure numpy (crit : param d -> lbatch d q -> res fl) bs a bs' t e : (forall c, List.In c bs -> exists v, crit t c = Ok v) ->
  crit t a = Err e ->
  obj numpy crit (bs ++ a :: bs') t =
    match e with LinAlgError => if numpy then SelectModel.EValue PInf else SelectModel.ELinalg | _ => SelectModel.EOther end.
Proof using Type.
move=> h ea; rewrite /obj /loader_objective /SelectModel.batch_eval /SelectModel.batch_init /=.
have -> : forall s n, SelectModel.loop_full (param d) (lbatch d q) (@lsize d q) (fun t a => outcome_of (crit t a)) (bs ++ a :: bs') t true s n =
   match e with LinAlgError => SelectModel.ELinalg | _ => SelectModel.EOther end.
  elim: bs h => [|c bs IH] h s n; first by rewrite /= ea; case: e {ea}.
  by have [v /= ->] := h c (or_introl erefl) => /=; apply: IH => c' hc; apply: h; right.
by case: e {ea}.
Qed.
End C104.
Print Assumptions C104_restricted_likelihood.
Print Assumptions C104_value.
Print Assumptions C104_equal_batches.
Print Assumptions C104_repeated.
Print Assumptions C104_failure.

Example C104_case : exists (qr : forall r, qr_fun R_rcfType 1 r) (a : lbatch 1 1),
  lsize a = 2%N /\ regular (fun n _ => const_mx 1) qr a.
Proof.
have [qr [z [hq fP zP _]]] := C97_case.
have E : w_P R_rcfType = const_mx 1 by apply/matrixP => i j; rewrite mxE; case: (split_ordP i) => k ->; rewrite /w_P ?col_mxEu ?col_mxEd !mxE !ord1 eqxx.
exists (fun r => match r as r return qr_fun R_rcfType 1 r with 1%N => qr | _ => fun _ => (0, 0) end).
by exists (@mkLBatch 1 1 1 0 z); split=> //; rewrite /regular /= -E; split.
Qed.
