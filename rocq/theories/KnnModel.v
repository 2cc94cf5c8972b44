(* KnnModel.v: gpmp/mcmc/knn_cov.py and ParticlesSet.perturb of gpmp/mcmc/smc.py.  Definitions only.
   The particles are the rows of x.  The answers of the nearest neighbour index (hnswlib) and of the random choice
   are arguments.  A covariance that is not a number (NaN: fewer than two rows) is None. *)
From mathcomp Require Import all_ssreflect all_algebra.
From Verif Require Import LinAlg.
Set Implicit Arguments.
Unset Strict Implicit.
Unset Printing Implicit Defensive.
Import GRing.Theory Num.Theory.
Local Open Scope ring_scope.

Section Knn.
Variables (R : rcfType) (n d : nat).
Implicit Type x : 'M[R]_(n, d).

(* gnp.cov(x[idx].T): sample covariance with divisor k - 1 of the selected rows *)
Definition row_mean x (idx : seq 'I_n) : 'rV[R]_d := (size idx)%:R^-1 *: \sum_(i <- idx) row i x.
Definition cov_rows x (idx : seq 'I_n) : option 'M[R]_d :=
  if (size idx <= 1)%N then None
  else let m := row_mean x idx in
       Some ((size idx).-1%:R^-1 *: \sum_(i <- idx) (row i x - m)^T *m (row i x - m)).

(* knn_cov.py 22-29 estimate_cov_matrix *)
Definition estimate_cov_matrix x : option 'M[R]_d := cov_rows x (enum 'I_n).

(* gnp.mean(local_covs, axis=0): NaN if the list is empty or one matrix is NaN *)
Fixpoint sum_covs (l : seq (option 'M[R]_d)) : option 'M[R]_d :=
  match l with
  | [::] => Some 0
  | o :: l' => match o, sum_covs l' with Some A, Some B => Some (A + B) | _, _ => None end
  end.
Definition mean_covs (l : seq (option 'M[R]_d)) : option 'M[R]_d :=
  if l is [::] then None
  else match sum_covs l with Some A => Some ((size l)%:R^-1 *: A) | None => None end.

(* knn_cov.py 31-100 estimate_cov_matrix_knn; available = HNSWLIB_AVAILABLE; choice k = gnp.choice(N, size=k,
   replace=False); query i k = labels of p.knn_query(x[i], k),
   assumed to return (hnswlib may raise, e.g. for k > N) *)
Definition estimate_cov_matrix_knn (available : bool) (choice : nat -> seq 'I_n) (query : 'I_n -> nat -> seq 'I_n)
  (n_random n_neighbors : nat) x : option 'M[R]_d :=
  if ~~ available then estimate_cov_matrix x
  else
    let n_random := if (n < n_random)%N then n else n_random in
    mean_covs [seq cov_rows x (query i n_neighbors) | i <- choice n_random].

(* smc.py 41: covariance_method, an unchecked string *)
Inductive method := MKnn | MNormal | MOther.
Inductive outcome :=
  | Moved of 'M[R]_(n, d)          (* self.x + eps *)
  | ParticlesSetError              (* 373-374 *)
  | UnboundLocalError              (* base_cov is never assigned, 385 *)
  | NameError                      (* np is not imported, 400 *)
  | RuntimeError.                  (* 410-415, only with jitter_max_iterations = 0 *)

(* smc.py 357-417 perturb; rvs C = the noise drawn by scipy, None for its ValueError (C not PSD, or NaN) *)
Definition perturb (m : method) (available : bool) (choice : nat -> seq 'I_n) (query : 'I_n -> nat -> seq 'I_n)
  (n_random n_neighbors jitter_max : nat) (rvs : 'M[R]_d -> option 'M[R]_(n, d)) (lo hi s : R) x : outcome :=
  if (hi < s) || (s < lo) then ParticlesSetError
  else
    let go (base : option 'M[R]_d) :=
      match (match base with Some B => rvs (s *: B) | None => None end) with
      | Some eps => Moved (x + eps)
      | None => if jitter_max is 0%N then RuntimeError else NameError
      end in
    match m with
    | MKnn => go (estimate_cov_matrix_knn available choice query n_random n_neighbors x)
    | MNormal => go (estimate_cov_matrix x)
    | MOther => UnboundLocalError
    end.
(* smc.py 419-447 move: rows of y accepted by the mask *)
Definition accept_rows (mask : 'I_n -> bool) x (y : 'M[R]_(n, d)) : 'M[R]_(n, d) :=
  \matrix_(i, j) if mask i then y i j else x i j.
End Knn.
