(* MhPoolModel.v: gpmp/mcmc/mh.py: draws with jitter, covariances of pooled chains, check of the acceptance rates.  Definitions only.
   Exceptions are None. *)
From Coq Require Import Reals.
From mathcomp Require Import all_ssreflect all_algebra.
From Verif Require Import LinAlg Rinst MhMat.
Set Implicit Arguments.
Unset Strict Implicit.
Unset Printing Implicit Defensive.
Import Order.TTheory GRing.Theory Num.Theory.
Local Open Scope ring_scope.
Bind Scope ring_scope with R.

Section Pool.
Variable d : nat.
(* sample_multivariate_normal_with_jitter 59-77; draw is gnp.multivariate_normal.rvs, None when it raises *)
Variable draw : 'M[R]_d -> option 'rV[R]_d.
Fixpoint jitter_loop (cov : 'M[R]_d) (initial : R) (attempts : nat) (jitter : R) : option 'rV[R]_d :=
  match attempts with
  | 0 => None
  | a.+1 =>
      let cov_try := if jitter == 0 then cov else cov + jitter *: 1%:M in
      match draw cov_try with
      | Some x => Some x
      | None => jitter_loop cov initial a (if jitter == 0 then initial else 10%:R * jitter)
      end
  end.
Definition sample_with_jitter (cov : 'M[R]_d) (initial : R) (max_attempts : nat) : option 'rV[R]_d :=
  jitter_loop cov initial max_attempts.+1 0.

(* _get_pooled_samples 214-223 and compute_empirical_covariance_whole_chain 1197-1212 on the traces x; at least two rows per group
   (the covariance of one row is NaN) *)
Definition pooled_samples (x : seq (seq 'rV[R]_d)) (burnin n_pool : nat) : option (seq (seq 'rV[R]_d)) :=
  if (0 < n_pool)%N && (size x %% n_pool == 0)%N
  then Some [seq flatten [seq drop burnin c | c <- take n_pool (drop (i * n_pool) x)] | i <- iota 0 (size x %/ n_pool)]
  else None.
Definition empirical_covariances (x : seq (seq 'rV[R]_d)) (burnin : nat) (pooled : bool) (n_pool : nat) : option (seq 'M[R]_d) :=
  if pooled then Some [:: sample_cov (flatten [seq drop burnin c | c <- x])]
  else omap (map (@sample_cov d)) (pooled_samples x burnin n_pool).
(* recompute_all_chains_full_covariance 1181-1195 with update_proposal_covariance_from_samples 331-341: the new proposal covariances *)
Definition recompute_all (x : seq (seq 'rV[R]_d)) (burnin : nat) (scaling : option R) (eps : R) : seq 'M[R]_d :=
  let s := if scaling is Some s then s else (238%:R / 100%:R) ^+ 2 / d%:R in
  [seq haario_cov eps s (sample_cov (drop burnin c)) | c <- x].
End Pool.

(* check_acceptance_rates 702-767: smallest rate, largest rate, verdict *)
Definition check_rates (rates : seq (seq R)) (burnin global_iter : nat) (last_n : option nat) (low high : R) : option (R * R * bool) :=
  let i0 := if last_n is Some n then (global_iter - n)%N else burnin in
  if (global_iter - i0 <= 1)%N then None
  else match flatten [seq drop i0 (take global_iter r) | r <- rates] with
       | [::] => None
       | a :: l => let mn := foldl Num.min a l in let mx := foldl Num.max a l in Some (mn, mx, (low <= mn) && (mx <= high))
       end.
