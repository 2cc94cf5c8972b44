(* MaternModel.v: gpmp/kernel/matern.py and gpmp/kernel/exponential.py, the
   kernels as functions of the scaled distance.  Definitions only.

   Simplifications: exact real arithmetic; the distance h is a real number, so
   gnp.inftobigf (which only replaces infinite entries) is the identity. *)
From Coq Require Import Reals List.
Import ListNotations.
Local Open Scope R_scope.

(* gnp.compute_gammaln(p)[k] for k >= 1: gammaln(k) = log((k-1)!)
   (gpmp/num/numpy_backend.py compute_gammaln, scipy.special.gammaln).  The
   table itself and the entries read are modelled in FrameModel.v. *)
Definition lgam (k : nat) : R := ln (INR (fact (k - 1))).

(* gpmp/kernel/exponential.py:8-24 exponential_kernel *)
Definition exponential_kernel (h : R) : R := exp (- h).

(* gpmp/kernel/matern.py:10-29 matern32_kernel *)
Definition matern32_kernel (h : R) : R :=
  let nu := 3 / 2 in
  let c := 2 * sqrt nu in
  let t := c * h in
  (1 + t) * exp (- t).

(* gpmp/kernel/matern.py:60-63, the term added for index i *)
Definition matern_term (p : nat) (twoch : R) (i : nat) : R :=
  exp (lgam (p + 1) - lgam (2 * p + 1) + lgam (p + i + 1) - lgam (i + 1)
       - lgam (p - i + 1)) * twoch ^ (p - i).

(* gpmp/kernel/matern.py:32-64 maternp_kernel *)
Definition maternp_kernel (p : nat) (h : R) : R :=
  let c := 2 * sqrt (INR p + 1 / 2) in
  let twoch := 2 * c * h in
  let polynomial :=
    fold_left (fun acc i => acc + matern_term p twoch i) (seq 0 p) 1 in
  exp (- (c * h)) * polynomial.
