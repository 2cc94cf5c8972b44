(* LinBackModel.v
   The linear algebra helpers of gpmp.num in the two backends.  Definitions only.  Simplified: exact arithmetic over a real
   closed field; unit_diagonal=False; the calls to SciPy, NumPy and Torch are replaced by what their documentation says they
   compute; a singular triangular system is an exception with NumPy, with Torch it stands for non-finite numbers. *)
From mathcomp Require Import all_ssreflect all_algebra.
From Verif Require Import LinAlg KrigModel.
Set Implicit Arguments.
Unset Strict Implicit.
Unset Printing Implicit Defensive.
Import GRing.Theory.
Local Open Scope ring_scope.

Section Back.
Variable R : rcfType.

(* the triangle that a triangular solver reads *)
Definition lower_part n (A : 'M[R]_n) : 'M[R]_n := \matrix_(i, j) (if (j <= i)%N then A i j else 0).
Definition upper_part n (A : 'M[R]_n) : 'M[R]_n := \matrix_(i, j) (if (i <= j)%N then A i j else 0).
Definition part n (lower : bool) (A : 'M[R]_n) : 'M[R]_n := if lower then lower_part A else upper_part A.

(* gpmp/num/numpy_backend.py:140 solve_triangular is SciPy's: the triangle of A is taken first, then transposed;
   trans: 0 or 1 (2 is the same for real numbers) *)
Definition np_solve_triangular n m (trans lower : bool) (A : 'M[R]_n) (B : 'M[R]_(n, m)) : res 'M[R]_(n, m) :=
  solve (if trans then (part lower A)^T else part lower A) B.
(* gpmp/num/torch_backend.py:841-865: A is transposed first, then torch.linalg.solve_triangular(Aop, B, upper=not lower) *)
Definition torch_solve_triangular n m (trans lower : bool) (A : 'M[R]_n) (B : 'M[R]_(n, m)) : res 'M[R]_(n, m) :=
  let Aop := if trans then A^T else A in solve (part lower Aop) B.

(* gpmp/num/numpy_backend.py:458-463 cholesky_inv *)
Definition np_cholesky_inv n (A : 'M[R]_n) : res 'M[R]_n := inv A.
(* gpmp/num/torch_backend.py:888-890 cholesky_inv *)
Definition torch_cholesky_inv n (A : 'M[R]_n) : res 'M[R]_n :=
  match chol A with Some C => Ok (invmx (C *m C^T)) | None => Err LinAlgError end.

(* gpmp/num/torch_backend.py:868-870 cho_factor and 873-876 cho_solve *)
Definition torch_cho_factor n (lower : bool) (A : 'M[R]_n) : res ('M[R]_n * bool) :=
  match chol A with Some L => Ok (if lower then L else L^T, lower) | None => Err LinAlgError end.
Definition torch_cho_solve n m (c_and_lower : 'M[R]_n * bool) (b : 'M[R]_(n, m)) : res 'M[R]_(n, m) :=
  let '(C, lower) := c_and_lower in
  let T := part lower C in
  solve (if lower then T *m T^T else T^T *m T) b.

(* gpmp/num/numpy_backend.py:450-456 logdet: sign and logarithm of |det A|; the value returned is a function ln of det A *)
Definition np_logdet n (ln : R -> R) (A : 'M[R]_n) : res R :=
  let sign := Num.sg (\det A) in
  let logabsdet := ln `|\det A| in
  if sign <= 0 then Err ValueErr else Ok logabsdet.
End Back.
