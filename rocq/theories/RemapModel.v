(* RemapModel.v: the REMAP wrappers of gpmp/kernel/parameter_selection.py as the objective and the starting point they
   hand to select_parameters_with_criterion (SelectModel.v), for a Matern model; and that objective over the batches of
   a dataloader.  Definitions only.  A covariance parameter is (log sigma2, l) with l = covparam[1:].  gamma, coverage,
   alpha and factor: the hyperparameters after resolve_prior_defaults_for_selection (ConfigModel.v). *)
From Coq Require Import Reals.
From mathcomp Require Import all_ssreflect all_algebra.
From Verif Require Import ConfigModel FlModel PriorModel LinAlg KrigModel Rinst LikModel MaternModel MaternCov PriorCritModel InitLoaderModel.
From Verif Require SelectModel.
Set Implicit Arguments.
Unset Strict Implicit.
Unset Printing Implicit Defensive.
Import GRing.Theory Num.Theory.
Local Open Scope ring_scope.
Bind Scope ring_scope with R.

Section Remap.
Variables (b b' : backend) (p d q r : nat) (qr : qr_fun R_rcfType q r).
Variables (x : 'M[R]_(q + r, d)) (P : 'M[R]_(q + r, q)) (z : 'cV[R]_(q + r)).
Definition param := (R * 'rV[R]_d)%type.
Variables (inv_cdf : R -> R) (guess : param) (gamma coverage : R).

(* 1157-1200 select_parameters_with_remap_gaussian_logsigma2 *)
Definition select_remap_logsigma2 (covparam0 covparam0_prior covparam0_init : option param) : (param -> res fl) * param :=
  let '(prior, init, _) := resolve_prior_and_init guess covparam0 covparam0_prior covparam0_init in
  (fun t => logsigma2_criterion b b' p qr x P z inv_cdf prior.1 gamma coverage t.1 t.2, init).
(* 1254-1281 update_parameters_with_remap_gaussian_logsigma2; model_covparam: model.covparam *)
Definition update_remap_logsigma2 (model_covparam covparam0 covparam0_prior covparam0_init : option param) :=
  let '(prior, init, _, _) := resolve_roles_for_update guess model_covparam covparam0 covparam0_prior covparam0_init true in
  select_remap_logsigma2 covparam0 (Some prior) (Some init).

Variables (alpha : fl) (factor : R).
Definition columns : seq (seq R) := [seq [seq x i k | i <- enum 'I_(q + r)] | k <- enum 'I_d].
(* 1425-1483 select_parameters_with_remap_gaussian_logsigma2_and_logrho_prior, with arrays; None: ValueError *)
Definition select_remap (covparam0 covparam0_prior covparam0_init : option param)
  (prior_log_sigma2_0 : option R) (prior_logrho_0 prior_logrho_min : option (seq fl)) : option ((param -> res fl) * param) :=
  let '(prior, init, _) := resolve_prior_and_init guess covparam0 covparam0_prior covparam0_init in
  match resolve_prior_args prior.1 (loginvrho_list prior.2) columns factor prior_log_sigma2_0 prior_logrho_0 prior_logrho_min with
  | None => None
  | Some (s0, r0, rm) => Some (fun t => map_criterion b b' p qr x P z inv_cdf s0 gamma coverage alpha rm r0 t.1 t.2, init)
  end.
(* 1541-1577 update_parameters_with_remap_gaussian_logsigma2_and_logrho_prior *)
Definition update_remap (model_covparam covparam0 covparam0_prior covparam0_init : option param)
  (prior_log_sigma2_0 : option R) (prior_logrho_0 prior_logrho_min : option (seq fl)) :=
  let '(prior, init, _, _) := resolve_roles_for_update guess model_covparam covparam0 covparam0_prior covparam0_init true in
  select_remap covparam0 (Some prior) (Some init) prior_log_sigma2_0 prior_logrho_0 prior_logrho_min.
End Remap.

(* the criteria with a dataloader: make_selection_criterion_with_gradient (parameter_selection.py 116-124, batches_per_eval = 0
   as in all the wrappers) around BatchDifferentiableSelectionCriterion (SelectModel.batch_eval).
   mean: model.mean; qr: the QR factorisation; bs: what a pass over the loader yields *)
Section Loader.
Variables (b b' : backend) (p d q : nat) (mean : forall n, 'M[R]_(n, d) -> 'M[R]_(n, q)) (qr : forall r, qr_fun R_rcfType q r).
(* exceptions recognised by _is_linalg_exception *)
Definition outcome_of (t : res fl) : SelectModel.outcome :=
  match t with
  | Ok v => SelectModel.Value v
  | Err LinAlgError => SelectModel.LinalgError
  | Err _ => SelectModel.OtherError
  end.
Definition batch_reml (t : param d) (a : lbatch d q) : res fl :=
  matern_reml b b' p (@qr (lrest a)) (lx a) (mean (lx a)) (lz a) t.1 t.2.
Definition batch_logsigma2 inv_cdf s0 gamma coverage (t : param d) (a : lbatch d q) : res fl :=
  logsigma2_criterion b b' p (@qr (lrest a)) (lx a) (mean (lx a)) (lz a) inv_cdf s0 gamma coverage t.1 t.2.
Definition loader_objective (numpy : bool) (crit : param d -> lbatch d q -> res fl) (bs : seq (lbatch d q)) (t : param d)
  : SelectModel.eval_result :=
  let loader := fun _ : nat => bs in
  (SelectModel.batch_eval (param d) (lbatch d q) (@lsize d q) (fun t a => outcome_of (crit t a)) loader numpy 0 true t
     (SelectModel.batch_init (lbatch d q) loader 0)).1.
End Loader.
