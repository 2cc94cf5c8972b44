(* MaternCov.v: covariance matrices of gpmp/kernel/matern.py and the distance
   functions of the two numerical backends.  Definitions only.

   Simplification: in the element-wise variant both arrays have the same number
   of rows (NumPy broadcasting of a one-row array is not represented). *)
From Coq Require Import Reals.
From mathcomp Require Import all_ssreflect all_algebra.
From Verif Require Import LinAlg KrigModel Rinst LikModel MaternModel.
Set Implicit Arguments.
Unset Strict Implicit.
Unset Printing Implicit Defensive.
Import Order.TTheory GRing.Theory Num.Theory.
Local Open Scope ring_scope.
Local Arguments exp : clear scopes.
Local Arguments sqrt : clear scopes.
Bind Scope ring_scope with R.

(* scipy.spatial.distance.cdist, Euclidean (gpmp/num/numpy_backend.py:134) *)
Definition cdist_np n m d (x : 'M[R]_(n, d)) (y : 'M[R]_(m, d)) : 'M[R]_(n, m) :=
  \matrix_(i, j) sqrt (\sum_k (x i k - y j k) ^+ 2).

(* gpmp/num/torch_backend.py:783-788 custom_sqrt *)
Definition custom_sqrt (x : R) : R :=
  let mask := x == 0 in
  let x_copy := if mask then 1 else x in
  if mask then 0 else sqrt x_copy.

(* gpmp/num/torch_backend.py:791-807 cdist; same = (x is y) *)
Definition cdist_torch (same : bool) n m d (x : 'M[R]_(n, d)) (y : 'M[R]_(m, d)) : 'M[R]_(n, m) :=
  \matrix_(i, j)
    let distances := \sum_k x i k ^+ 2 + \sum_k y j k ^+ 2 - 2%:R * (x *m y^T) i j in
    let s := custom_sqrt (Num.max distances 0) in
    if same && (val i == val j) then 0 else s.

(* invrho * x, row by row *)
Definition scale_rows n d (loginvrho : 'rV[R]_d) (x : 'M[R]_(n, d)) : 'M[R]_(n, d) :=
  \matrix_(i, k) (exp (loginvrho 0 k) * x i k).

(* scaled_distance: gpmp/num/numpy_backend.py:432-436, torch_backend.py:810-820 *)
Definition scaled_distance (b : backend) (same : bool) n m d (loginvrho : 'rV[R]_d)
  (x : 'M[R]_(n, d)) (y : 'M[R]_(m, d)) : 'M[R]_(n, m) :=
  let xs := scale_rows loginvrho x in
  let ys := scale_rows loginvrho y in
  match b with NumPy => cdist_np xs ys | Torch => cdist_torch same xs ys end.

(* scaled_distance_elementwise for another array object:
   gpmp/num/numpy_backend.py:438-446, torch_backend.py:823-829 *)
Definition scaled_distance_elementwise n d (loginvrho : 'rV[R]_d)
  (x y : 'M[R]_(n, d)) : 'rV[R]_n :=
  \row_i sqrt (\sum_k (exp (loginvrho 0 k) * (x i k - y i k)) ^+ 2).

(* gnp.finfo(gnp.float64).eps *)
Definition float_eps : R := (2%:R ^+ 52)^-1.

Section Cov.
Variables (b : backend) (p d : nat) (param : 'rV[R]_(1 + d)).
Definition mat_sigma2 : R := exp (param 0 (lshift d 0)).     (* exp(param[0]) *)
Definition mat_loginvrho : 'rV[R]_d := rsubmx param.         (* param[1:] *)
Definition mat_nugget : R := 10%:R * mat_sigma2 * float_eps.

(* gpmp/kernel/matern.py:67-94 maternp_covariance_ii_or_tt, pairwise=False; this
   is also maternp_covariance(x, y) when "y is x or y is None" (138-139) *)
Definition maternp_covariance_ii n (x : 'M[R]_(n, d)) : 'M[R]_n :=
  let K := scaled_distance b true mat_loginvrho x x in
  \matrix_(i, j) (mat_sigma2 * maternp_kernel p (K i j)) + mat_nugget%:M.
(* pairwise=True *)
Definition maternp_covariance_ii_pw n (x : 'M[R]_(n, d)) : 'rV[R]_n :=
  \row_i (mat_sigma2 * 1).
(* gpmp/kernel/matern.py:97-121 maternp_covariance_it, pairwise=False (140) *)
Definition maternp_covariance_it n m (x : 'M[R]_(n, d)) (y : 'M[R]_(m, d)) : 'M[R]_(n, m) :=
  let D := scaled_distance b false mat_loginvrho x y in
  \matrix_(i, j) (mat_sigma2 * maternp_kernel p (D i j)).
(* pairwise=True *)
Definition maternp_covariance_it_pw n (x y : 'M[R]_(n, d)) : 'rV[R]_n :=
  let D := scaled_distance_elementwise mat_loginvrho x y in
  \row_i (mat_sigma2 * maternp_kernel p (D 0 i)).

(* what kriging asks for: gpmp/core/kriging.py:58-62 and 184-192 *)
Definition matern_tt m (xt : 'M[R]_(m, d)) : prior_tt R_rcfType m :=
  PriorTT (maternp_covariance_ii_pw xt) (maternp_covariance_ii xt).
End Cov.
