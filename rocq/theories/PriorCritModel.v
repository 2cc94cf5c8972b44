(* PriorCritModel.v: the other penalised restricted likelihoods of gpmp/kernel/priors.py (the power-law one is in
   PriorMat.v), for a Matern model.  Definitions only.  The covariance parameter is (log_sigma2, l) with
   l = covparam[1:]; hyperparameters are given (their defaults are in PriorModel.v). *)
From Coq Require Import Reals.
From mathcomp Require Import all_ssreflect all_algebra.
From Verif Require Import ConfigModel FlModel PriorModel LinAlg KrigModel Rinst LikModel MaternModel MaternCov.
Set Implicit Arguments.
Unset Strict Implicit.
Unset Printing Implicit Defensive.
Import GRing.Theory Num.Theory.
Local Open Scope ring_scope.
Bind Scope ring_scope with R.

Definition to_fl (e : ereal) : fl := match e with LikModel.Fin v => ConfigModel.Fin v | LikModel.PInf => ConfigModel.PInf end.
(* a ValueError of a prior *)
Definition or_raise (a : option fl) : res fl := match a with Some v => Ok v | None => Err ValueErr end.

Section Crit.
Variables (b b' : backend) (p d q r : nat) (qr : qr_fun R_rcfType q r).
Variables (x : 'M[R]_(q + r, d)) (P : 'M[R]_(q + r, q)) (z : 'cV[R]_(q + r)).
(* model.negative_log_restricted_likelihood(covparam, xi, zi) *)
Definition matern_reml (log_sigma2 : R) (l : 'rV[R]_d) : res fl :=
  rbind (nrl b' qr (maternp_covariance_ii b p (row_mx log_sigma2%:M l) x) P z) (fun L => Ok (to_fl L)).
Definition loginvrho_list (l : 'rV[R]_d) : seq fl := [seq ConfigModel.Fin (l 0 k) | k <- enum 'I_d].
(* gpmp/kernel/priors.py 315-342 neg_log_restricted_posterior_with_jeffreys_prior *)
Definition jeffreys_criterion (lambda_var log_sigma2 : R) (l : 'rV[R]_d) : res fl :=
  rbind (matern_reml log_sigma2 l) (fun L =>
    Ok (fl_sub L (ConfigModel.Fin (log_prior_jeffreys_variance log_sigma2 lambda_var)))).
(* 372-418 neg_log_restricted_posterior_logsigma2_prior *)
Definition logsigma2_criterion (inv_cdf : R -> R) (log_sigma2_0 gamma coverage log_sigma2 : R) (l : 'rV[R]_d) : res fl :=
  rbind (matern_reml log_sigma2 l) (fun L =>
    or_raise (match log_prior_gaussian_logsigma2 inv_cdf log_sigma2 log_sigma2_0 gamma coverage with
              | Some a => Some (fl_sub L (ConfigModel.Fin a))
              | None => None
              end)).
(* 420-464 neg_log_restricted_posterior_with_logrho_prior *)
Definition logrho_criterion (alpha : fl) (logrho_min logrho_0 : seq fl) (log_sigma2 : R) (l : 'rV[R]_d) : res fl :=
  rbind (matern_reml log_sigma2 l) (fun L =>
    or_raise (match log_prior_logrho_barrier_linear alpha (loginvrho_list l) logrho_min logrho_0 with
              | Some a => Some (fl_sub L a)
              | None => None
              end)).
(* 467-558 neg_log_restricted_posterior_logsigma2_and_logrho_prior *)
Definition map_criterion (inv_cdf : R -> R) (log_sigma2_0 gamma coverage : R) (alpha : fl) (logrho_min logrho_0 : seq fl)
  (log_sigma2 : R) (l : 'rV[R]_d) : res fl :=
  rbind (matern_reml log_sigma2 l) (fun L =>
    or_raise (neg_log_restricted_posterior inv_cdf L log_sigma2 (loginvrho_list l) log_sigma2_0 gamma coverage
                logrho_min logrho_0 alpha)).
End Crit.
