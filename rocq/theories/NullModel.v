(* NullModel.v
   Model of qr_nullspace (gpmp/core/linalg.py 92-110).  Definitions only.  gnp.qr with mode="complete" is an argument, with the
   contract is_qr of LinQR. *)
From mathcomp Require Import all_ssreflect all_algebra.
From Verif Require Import KrigModel.
Set Implicit Arguments.
Unset Strict Implicit.
Unset Printing Implicit Defensive.
Local Open Scope ring_scope.

(* 108-110: Q[:, :q], Q[:, q:], R[:q, :q] *)
Definition qr_nullspace (R : rcfType) q r (qr : qr_fun R q r) (P : 'M[R]_(q + r, q)) : 'M[R]_(q + r, q) * 'M[R]_(q + r, r) * 'M[R]_q :=
  let '(Q, Rm) := qr P in (lsubmx Q, rsubmx Q, usubmx Rm).
