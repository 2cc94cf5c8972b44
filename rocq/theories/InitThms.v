(* InitThms.v: the length scales of the initial guesses (C74): in the ratios of the sides of the bounding box
   of the design, and such that the ellipsoid with these semi-axes has the volume of that box. *)
From Coq Require Import Reals Lra.
From mathcomp Require Import all_ssreflect all_algebra.
From Verif Require Import LinAlg KrigModel Rinst LikModel LikProofs MaternModel MaternCov InitModel.
Set Implicit Arguments.
Unset Strict Implicit.
Unset Printing Implicit Defensive.
Import Order.TTheory GRing.Theory Num.Theory.
Local Open Scope ring_scope.
Local Arguments exp : clear scopes.
Local Arguments ln : clear scopes.
Local Arguments sqrt : clear scopes.
Bind Scope ring_scope with R.

(* side of the bounding box in coordinate k *)
Definition side n d (x : 'M[R]_(n, d)) (k : 'I_d) (D : R) : Prop :=
  (forall i j, x i k - x j k <= D) /\ exists i j, x i k - x j k = D.
(* volume of the ellipsoid with semi-axes rho_k; exp glog is Gamma(d/2 + 1) *)
Definition ellipsoid_volume d (glog : R) (rho : 'I_d -> R) : R := sqrt PI ^+ d / exp glog * \prod_k rho k.

Lemma foldmax_sup (T : eqType) (s : seq T) (f : T -> R) x0 i : i \in s -> f i <= \big[Num.max/x0]_(j <- s) f j.
Proof.
elim: s => // a s IH; rewrite inE big_cons le_maxr => /orP[/eqP-> | /IH ->]; by rewrite ?lexx ?orbT.
Qed.
Lemma foldmin_inf (T : eqType) (s : seq T) (f : T -> R) x0 i : i \in s -> \big[Num.min/x0]_(j <- s) f j <= f i.
Proof.
elim: s => // a s IH; rewrite inE big_cons le_minl => /orP[/eqP-> | /IH ->]; by rewrite ?lexx ?orbT.
Qed.
Lemma bigmax_sup n (f : 'I_n -> R) x0 i : f i <= \big[Num.max/x0]_j f j.
Proof. by apply: foldmax_sup; rewrite mem_index_enum. Qed.
Lemma bigmin_inf n (f : 'I_n -> R) x0 i : \big[Num.min/x0]_j f j <= f i.
Proof. by apply: foldmin_inf; rewrite mem_index_enum. Qed.
Lemma bigmax_att n (f : 'I_n -> R) i0 : exists i, \big[Num.max/f i0]_j f j = f i.
Proof.
elim/big_ind: _ => [|u v [i ->] [j ->]|i _]; [by exists i0 | | by exists i].
by case: (leP (f i) (f j)) => h; [exists j | exists i].
Qed.
Lemma bigmin_att n (f : 'I_n -> R) i0 : exists i, \big[Num.min/f i0]_j f j = f i.
Proof.
elim/big_ind: _ => [|u v [i ->] [j ->]|i _]; [by exists i0 | | by exists i].
by case: (leP (f i) (f j)) => h; [exists i | exists j].
Qed.
Lemma delta_side n d (i0 : 'I_n) (x : 'M[R]_(n, d)) k D : side x k D -> delta_col i0 x k = D.
Proof.
move=> [h1 [i [j h2]]]; apply: le_anti; rewrite /delta_col; apply/andP; split.
  have [a ->] := bigmax_att (fun i => x i k) i0; have [b ->] := bigmin_att (fun i => x i k) i0; exact: h1.
by rewrite -h2; apply: ler_sub; [exact: (bigmax_sup (fun i => x i k)) | exact: (bigmin_inf (fun i => x i k))].
Qed.

Lemma exp_gt0 (t : R) : 0 < exp t.
Proof. by apply/ltRP; exact: exp_pos. Qed.
Lemma rho_gt0 d glog n (i0 : 'I_n) (x : 'M[R]_(n, d)) k D : side x k D -> 0 < D -> 0 < init_rho glog i0 x k.
Proof.
move=> s D0; rewrite /init_rho (delta_side i0 s) mulr_gt0 // divr_gt0 ?exp_gt0 //.
by apply/ltRP; apply: sqrt_lt_R0; exact: PI_RGT_0.
Qed.
Lemma exp_mulrn (t : R) m : exp (t *+ m) = exp t ^+ m.
Proof. by elim: m => [|m IH]; [rewrite mulr0n expr0 exp_0 | rewrite mulrS exprS -IH; exact: exp_plus]. Qed.

Lemma scales d glog n (i0 : 'I_n) (x : 'M[R]_(n, d)) (D : 'I_d -> R) (s2 : R) :
  (forall k, side x k (D k)) -> (forall k, 0 < D k) -> (0 < d)%N ->
  let rho k := exp (- covparam_of glog s2 i0 x 0 (rshift 1 k)) in
  ellipsoid_volume glog rho = \prod_k D k /\ forall k k', rho k * D k' = rho k' * D k.
Proof.
move=> sd D0 d0 rho.
have E k : rho k = exp (glog / d%:R) / sqrt PI * D k.
  rewrite /rho /covparam_of row_mxEr mxE opprK.
  have -> : exp (ln (init_rho glog i0 x k)) = init_rho glog i0 x k by apply: exp_ln; apply/ltRP; exact: (rho_gt0 glog i0 (sd k) (D0 k)).
  by rewrite /init_rho (delta_side i0 (sd k)).
split; last by move=> k k'; rewrite !E -!mulrA; congr (_ * (_ * _)); exact: mulrC.
rewrite /ellipsoid_volume (eq_bigr _ (fun k _ => E k)) big_split /= prodr_const card_ord.
have spi : sqrt PI != 0 by apply: lt0r_neq0; apply/ltRP; apply: sqrt_lt_R0; exact: PI_RGT_0.
have dn : d%:R != 0 :> R by rewrite pnatr_eq0 -lt0n.
have eg : exp (glog / d%:R) ^+ d = exp glog by rewrite -exp_mulrn; congr (exp _); rewrite -[LHS]mulr_natr mulfVK.
rewrite exprMn exprVn eg mulrA; rewrite -[RHS]mul1r; congr (_ * _).
have : exp glog != 0 by apply: lt0r_neq0; exact: exp_gt0.
have : sqrt PI ^+ d != 0 by rewrite expf_neq0.
by move=> h1 h2; rewrite mulrA mulfVK // divff.
Qed.

(* the returned parameters: log variance, then minus the logarithms of the length scales *)
Definition length_scales d (theta : 'rV[R]_(1 + d)) (k : 'I_d) : R := exp (- theta 0 (rshift 1 k)).
Definition box_shaped d glog n (x : 'M[R]_(n, d)) (D : 'I_d -> R) (theta : 'rV[R]_(1 + d)) : Prop :=
  ellipsoid_volume glog (length_scales theta) = \prod_k D k /\
  forall k k', length_scales theta k * D k' = length_scales theta k' * D k.

Theorem C74_length_scales b p d glog n (i0 : 'I_n) (x : 'M[R]_(n, d)) (D : 'I_d -> R) z :
  (0 < d)%N -> (forall k, side x k (D k)) -> (forall k, 0 < D k) ->
  (forall theta, init_zero_mean b p glog i0 x z = Ok theta -> box_shaped glog x D theta) /\
  (forall m theta, init_constant_mean b p glog i0 x z = Ok (m, theta) -> box_shaped glog x D theta).
Proof.
move=> d0 sd D0; split.
  by move=> theta; rewrite /init_zero_mean; case: norm_k_sqrd_with_zero_mean => // v [<-]; exact: scales.
by move=> m theta; rewrite /init_constant_mean; case: k_inverses => // [[[u v] w]] [_ <-]; exact: scales.
Qed.
Print Assumptions C74_length_scales.
Theorem C74_length_scales_linear_mean b p d glog q r (qr : qr_fun R_rcfType q r) (i0 : 'I_(q + r)) (x : 'M[R]_(q + r, d)) P (D : 'I_d -> R) z :
  (0 < d)%N -> (forall k, side x k (D k)) -> (forall k, 0 < D k) ->
  forall theta, init_linear_mean b p glog qr i0 x P z = Ok theta -> box_shaped glog x D theta.
Proof. by move=> d0 sd D0 theta; rewrite /init_linear_mean; case: norm_k_sqrd => // v [<-]; exact: scales. Qed.
Print Assumptions C74_length_scales_linear_mean.

(* two points at distance one on a line: the interval of half-length rho has length one, Gamma(3/2) = sqrt(pi)/2 *)
Example C74_length_scales_ex (glog s2 : R) : exp glog = sqrt PI / 2%:R ->
  let x : 'M[R]_(2, 1) := \matrix_(i, j) (i : nat)%:R in
  (forall k, side x k 1) /\ length_scales (covparam_of glog s2 0 x) 0 = 2%:R^-1.
Proof.
move=> eg x; have sd : forall k, side x k 1.
  move=> k; split; last by exists 1, 0; rewrite !mxE subr0.
  by move=> i j; rewrite !mxE; case: i => [[|[|//]] ?]; case: j => [[|[|//]] ?]; rewrite /= ?subrr ?subr0 ?ler01 // ?oppr_le0 ?ler01 //;
     rewrite sub0r; apply: le_trans (_ : 0 <= 1); rewrite ?oppr_le0 ?ler01.
split=> //; have [e _] := @scales 1 glog 2 0 x (fun=> 1) s2 sd (fun=> ltr01) isT.
move: e; rewrite /ellipsoid_volume !big_ord1 expr1 eg => e.
have spi : sqrt PI != 0 by apply: lt0r_neq0; apply/ltRP; apply: sqrt_lt_R0; exact: PI_RGT_0.
have h2 : (2%:R : R) != 0 by rewrite pnatr_eq0.
by move: e; rewrite invfM invrK mulrA divff // mul1r => e; apply: (mulfI h2); rewrite divff //; exact: e.
Qed.
