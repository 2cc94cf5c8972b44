(* SmoothReal.v: the half-integer Matern kernel at small distances. *)
From Coq Require Import Reals Lra.
From Coquelicot Require Import Coquelicot.
From Verif Require Import MaternModel MaternProofs.
Local Open Scope R_scope.

Lemma kernel_near p eps : 0 < eps -> exists d, 0 < d /\ forall h, 0 <= h < d -> 1 - eps <= maternp_kernel p h.
Proof.
  intros e0.
  assert (c : continuous (fun h => maternp_kernel p h) 0).
  { apply continuous_ext with (fun h => exp (- (mconst p * h)) * theta p (mconst p * h) / theta p 0).
    { intros h. symmetry. apply kernel_theta. }
    apply (ex_derive_continuous (K := R_AbsRing) (V := R_NormedModule)). unfold Rdiv.
    apply ex_derive_mult; [|apply ex_derive_const].
    apply ex_derive_mult; [auto_derive; trivial|].
    apply (ex_derive_comp (theta p) (fun h => mconst p * h)); [|auto_derive; trivial].
    eexists. apply theta_derive. }
  assert (l := proj1 (filterlim_locally _ _) c (mkposreal eps e0)). cbn in l.
  destruct l as [d Hd]. exists d. split; [apply cond_pos|]. intros h [h0 h1].
  assert (b : Rabs (maternp_kernel p h - maternp_kernel p 0) < eps).
  { apply (Hd h). unfold ball; cbn. unfold AbsRing_ball, abs, minus, plus, opp; cbn.
    rewrite Rabs_pos_eq; lra. }
  rewrite kernel_at_0 in b. apply Rabs_def2 in b. lra.
Qed.
