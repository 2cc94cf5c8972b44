(** * Witnesses for the contracts assumed of library functions

    A theorem whose hypothesis is a contract on an external function says something only if some
    function meets the contract. The witnesses for scipy's quad and brentq are in DiagThms2.v, for
    the bivariate normal distribution function in ScoreThms.v, for the multinomial draws in
    SmcThms.v. This file has the one for statistics.NormalDist().inv_cdf, used by C75. *)
From Coq Require Import Reals Lra.
From Coquelicot Require Import Coquelicot.
From Verif Require Import PriorModel PriorProofs GaussProofs.
Local Open Scope R_scope.

(** the least upper bound of the points where the normal distribution function is at most q *)
Definition sup_inv_cdf (q : R) : R := real (Lub_Rbar (fun x => ncdf x <= q)).

Lemma ncdf_continuous x : continuity_pt ncdf x.
Proof. apply continuity_pt_filterlim, (ex_derive_continuous ncdf). exists (npdf x). apply ncdf_derive. Qed.

Lemma ncdf_hits q : 1 / 2 < q < 1 -> exists x, 0 < x /\ ncdf x = q.
Proof.
  intro hq. assert (L := ncdf_lim_p). apply is_lim_spec in L. destruct (L (mkposreal (1 - q) ltac:(lra))) as [M hM]. cbn in hM.
  set (b := Rmax 1 (M + 1)). assert (b1 : 1 <= b) by apply Rmax_l. assert (b2 : M + 1 <= b) by apply Rmax_r.
  specialize (hM b ltac:(lra)). apply Rabs_def2 in hM.
  destruct (IVT (fun x => ncdf x - q) 0 b) as [x [hx e]].
  - intro x. apply continuity_pt_minus; [apply ncdf_continuous | apply continuity_pt_const; intros u v; reflexivity].
  - lra.
  - rewrite ncdf_0. lra.
  - lra.
  - exists x. split; [| lra]. destruct (Req_dec x 0) as [-> | n]; [rewrite ncdf_0 in e; lra | lra].
Qed.

Lemma sup_inv_cdf_eq x : sup_inv_cdf (ncdf x) = x.
Proof.
  unfold sup_inv_cdf. rewrite (is_lub_Rbar_unique _ (Finite x)); [reflexivity |]. split.
  - intros y hy. cbn. destruct (Rle_or_lt y x) as [h | h]; [exact h |]. apply ncdf_increasing in h. lra.
  - intros b hb. apply (hb x). apply Rle_refl.
Qed.

Theorem inv_cdf_contract_holds : inv_cdf_contract sup_inv_cdf.
Proof.
  intros q hq. destruct (ncdf_hits q hq) as [x [hx <-]]. rewrite sup_inv_cdf_eq. split; [exact hx |].
  replace (ncdf x - 1 / 2) with (minus (ncdf x) (ncdf 0)) by (rewrite ncdf_0; reflexivity).
  apply (is_RInt_derive ncdf std_normal_density 0 x).
  - intros t _. replace (std_normal_density t) with (npdf t); [apply ncdf_derive |].
    unfold npdf, bell, std_normal_density. f_equal. f_equal. field.
  - intros t _. apply density_cont.
Qed.
Print Assumptions inv_cdf_contract_holds.

(** so the hypotheses of C75 can be met: with gamma = 2 and coverage 1/2 the prior is defined and the
    interval (s0 - log 2, s0 + log 2) has mass one half *)
Example C75_coverage_ex s0 : exists std, logsigma2_prior_std sup_inv_cdf 2 (1 / 2) = Some std /\ 0 < std /\
  is_RInt (fun t => std_normal_density ((t - s0) / std) / std) (s0 - ln 2) (s0 + ln 2) (1 / 2).
Proof. apply coverage_holds; [apply inv_cdf_contract_holds | lra | lra]. Qed.
