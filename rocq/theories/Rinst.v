(* Rinst.v: Coq's real numbers as a MathComp real closed field, so that the
   matrix theorems apply to R together with its exp and ln. *)
From Coq Require Import Reals Lra FunctionalExtensionality Epsilon.
From mathcomp Require Import all_ssreflect all_algebra.
Set Implicit Arguments.
Unset Strict Implicit.
Unset Printing Implicit Defensive.
Import Order.TTheory GRing.Theory Num.Theory.

Definition eqr (x y : R) : bool := if Req_EM_T x y is left _ then true else false.
Lemma eqrP : Equality.axiom eqr.
Proof. by move=> x y; rewrite /eqr; case: Req_EM_T => h; constructor. Qed.
Canonical R_eqMixin := EqMixin eqrP.
Canonical R_eqType := Eval hnf in EqType R R_eqMixin.

Fact inhR : inhabited R. Proof. exact: (inhabits R0). Qed.
Definition pickR (P : pred R) (n : nat) : option R :=
  let x := epsilon inhR P in if P x then Some x else None.
Fact pickR_some P n x : pickR P n = Some x -> P x.
Proof. by rewrite /pickR; case: (boolP (P _)) => // Px [<-]. Qed.
Fact pickR_ex (P : pred R) : (exists x : R, P x) -> exists n, pickR P n.
Proof. by rewrite /pickR => /(epsilon_spec inhR) ->; exists 0%N. Qed.
Fact pickR_ext (P Q : pred R) : P =1 Q -> pickR P =1 pickR Q.
Proof. by move=> eqPQ n; rewrite (functional_extensionality P Q eqPQ). Qed.
Definition R_choiceMixin : Choice.mixin_of R := Choice.Mixin pickR_some pickR_ex pickR_ext.
Canonical R_choiceType := Eval hnf in ChoiceType R R_choiceMixin.

Fact RplusA : associative Rplus. Proof. by move=> *; rewrite Rplus_assoc. Qed.
Definition R_zmodMixin := ZmodMixin RplusA Rplus_comm Rplus_0_l Rplus_opp_l.
Canonical R_zmodType := Eval hnf in ZmodType R R_zmodMixin.

Fact RmultA : associative Rmult. Proof. by move=> *; rewrite Rmult_assoc. Qed.
Fact R1_neq_0 : R1 != R0. Proof. by apply/eqP/R1_neq_R0. Qed.
Definition R_ringMixin := RingMixin RmultA Rmult_1_l Rmult_1_r
  Rmult_plus_distr_r Rmult_plus_distr_l R1_neq_0.
Canonical R_ringType := Eval hnf in RingType R R_ringMixin.
Canonical R_comRingType := Eval hnf in ComRingType R Rmult_comm.

Definition Rinvx (r : R) : R := if r != R0 then Rinv r else r.
Definition unit_R (r : R) := r != R0.
Fact RmultRinvx : {in unit_R, left_inverse R1 Rinvx Rmult}.
Proof. by move=> r rn0; have e : r != R0 := rn0; rewrite /Rinvx e Rinv_l //; exact/eqP. Qed.
Fact RinvxRmult : {in unit_R, right_inverse R1 Rinvx Rmult}.
Proof. by move=> r rn0; have e : r != R0 := rn0; rewrite /Rinvx e Rinv_r //; exact/eqP. Qed.
Fact intro_unit_R x y : Rmult y x = R1 /\ Rmult x y = R1 -> unit_R x.
Proof.
move=> [yx1 _]; apply/eqP => x0; move: yx1; rewrite x0 Rmult_0_r => e; move: R1_neq_0.
by rewrite -e eqxx.
Qed.
Fact Rinvx_out : {in predC unit_R, Rinvx =1 id}.
Proof. by move=> x; rewrite inE/= /Rinvx -if_neg => ->. Qed.
Definition R_unitRingMixin := UnitRingMixin RmultRinvx RinvxRmult intro_unit_R Rinvx_out.
Canonical R_unitRing := Eval hnf in UnitRingType R R_unitRingMixin.
Canonical R_comUnitRingType := Eval hnf in [comUnitRingType of R].

Fact R_idomainMixin x y : Rmult x y = R0 -> (x == R0) || (y == R0).
Proof. by move=> /Rmult_integral [->|->]; rewrite eqxx ?orbT. Qed.
Canonical R_idomainType := Eval hnf in IdomainType R R_idomainMixin.
Fact R_field_mixin : GRing.Field.mixin_of [unitRingType of R].
Proof. by []. Qed.
Canonical R_fieldType := FieldType R R_field_mixin.

Definition Rleb (x y : R) : bool := if Rle_dec x y is left _ then true else false.
Definition Rltb (x y : R) : bool := Rleb x y && (x != y).
Lemma RlebP x y : reflect (Rle x y) (Rleb x y).
Proof. by rewrite /Rleb; case: Rle_dec => h; constructor. Qed.
Lemma RltbP x y : reflect (Rlt x y) (Rltb x y).
Proof.
rewrite /Rltb; apply: (iffP andP) => [[/RlebP h /eqP n]|h].
  by case: h => // /n.
split; first by apply/RlebP; left.
by apply/eqP => e; move: h; rewrite e; exact: Rlt_irrefl.
Qed.

Section Num.
Local Open Scope ring_scope.
Fact Rleb_norm_add (x y : R) : Rleb (Rabs (x + y)) (Rabs x + Rabs y).
Proof. by apply/RlebP/Rabs_triang. Qed.
Fact addr_Rgtb0 (x y : R) : Rltb 0 x -> Rltb 0 y -> Rltb 0 (x + y).
Proof. by move=> /RltbP h /RltbP h'; apply/RltbP; exact: Rplus_lt_0_compat. Qed.
Fact Rnorm0_eq0 (x : R) : Rabs x = 0 -> x = 0.
Proof.
move=> h; case: (Req_EM_T x 0) => // n; exfalso.
exact: (Rabs_no_R0 x n).
Qed.
Fact Rleb_leVge (x y : R) : Rleb 0 x -> Rleb 0 y -> (Rleb x y) || (Rleb y x).
Proof.
move=> _ _; case: (Rle_dec x y) => h; first by have /RlebP -> := h.
by have /RlebP -> := Rlt_le _ _ (Rnot_le_lt _ _ h); rewrite orbT.
Qed.
Fact RnormM : {morph Rabs : x y / x * y}.
Proof. exact: Rabs_mult. Qed.
Fact Rleb_def (x y : R) : (Rleb x y) = (Rabs (y - x) == y - x).
Proof.
have e : (y - x)%R = Rminus y x by [].
rewrite e; apply/(sameP (RlebP _ _))/(iffP eqP) => h; last by rewrite Rabs_pos_eq //; lra.
by have := Rabs_pos (Rminus y x); rewrite h; lra.
Qed.
Fact Rltb_def (x y : R) : (Rltb x y) = (y != x) && (Rleb x y).
Proof. by rewrite /Rltb andbC eq_sym. Qed.

Definition R_numMixin := NumMixin Rleb_norm_add addr_Rgtb0 Rnorm0_eq0 Rleb_leVge RnormM Rleb_def Rltb_def.
Canonical R_porderType := POrderType ring_display R R_numMixin.
Canonical R_numDomainType := NumDomainType R R_numMixin.
Canonical R_normedZmodType := NormedZmodType R R R_numMixin.
Canonical R_numFieldType := [numFieldType of R].
Lemma Rleb_total : totalPOrderMixin [porderType of R].
Proof.
move=> x y; case: (Rle_dec x y) => h; first by have /RlebP e := h; apply/orP; left.
by have /RlebP e := Rlt_le _ _ (Rnot_le_lt _ _ h); apply/orP; right.
Qed.
Canonical R_latticeType := LatticeType R Rleb_total.
Canonical R_distrLatticeType := DistrLatticeType R Rleb_total.
Canonical R_orderType := OrderType R Rleb_total.
Canonical R_realDomainType := [realDomainType of R].
Canonical R_realFieldType := [realFieldType of R].

Lemma horner_cont (p : {poly R}) : continuity (fun x => p.[x]).
Proof.
elim/poly_ind: p => [|p c IH] x.
  have -> : (fun y : R => (0 : {poly R}).[y]) = (fun _ => R0).
    by apply: functional_extensionality => y; rewrite horner0.
  exact: continuity_pt_const.
have -> : (fun y : R => (p * 'X + c%:P).[y]) = plus_fct (mult_fct (fun y => p.[y]) Ranalysis1.id) (fun _ => c).
  by apply: functional_extensionality => y; rewrite hornerMXaddC.
apply: continuity_pt_plus; last exact: continuity_pt_const.
by apply: continuity_pt_mult; [exact: IH | exact: derivable_continuous_pt (derivable_pt_id x)].
Qed.

Lemma Rreal_closed_axiom : Num.real_closed_axiom R_numDomainType.
Proof.
move=> p a b /RlebP ab /andP [/RlebP pa /RlebP pb].
case: (Req_EM_T a b) => [e|n].
  exists a; first by apply/andP; split; apply/RlebP; rewrite -?e; exact: Rle_refl.
  by apply/eqP; apply: Rle_antisym => //; rewrite e.
have [z [[az zb] e]] := IVT_cor (fun x => p.[x]) a b (horner_cont p) ab
   (Rle_trans _ _ _ (Req_le _ _ (Rmult_comm _ _)) (Rle_trans _ _ _ (Rmult_le_compat_l _ _ _ pb pa) (Req_le _ _ (Rmult_0_r _)))).
exists z; first by apply/andP; split; apply/RlebP.
exact/eqP.
Qed.
Canonical R_rcfType := RcfType R Rreal_closed_axiom.
End Num.
