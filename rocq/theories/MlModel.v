(* MlModel.v: maximum likelihood with a parameterised mean.  gpmp/kernel/parameter_selection.py, negative_log_likelihood and the
   two wrappers for a constant mean, for a Matern model.  Definitions only. *)
From Coq Require Import Reals List.
From mathcomp Require Import all_ssreflect all_algebra.
From Verif Require Import ConfigModel FlModel LinAlg KrigModel Rinst LikModel MaternModel MaternCov PriorCritModel.
From Verif Require SelectModel.
Set Implicit Arguments.
Unset Strict Implicit.
Unset Printing Implicit Defensive.
Import GRing.Theory Num.Theory.
Local Open Scope ring_scope.
Bind Scope ring_scope with R.

(* 531-551 negative_log_likelihood, i.e. model.negative_log_likelihood(meanparam, covparam, xi, zi) (LikModel.nll), when
   model.mean(xi, meanparam) is P beta; a constant mean has the single column P = 1 *)
Definition matern_ml (b b' : backend) (p d n q : nat) (x : 'M[R]_(n, d)) (P : 'M[R]_(n, q)) (z : 'cV[R]_n)
  (beta : 'cV[R]_q) (log_sigma2 : R) (l : 'rV[R]_d) : res fl :=
  rbind (nll b' (maternp_covariance_ii b p (row_mx log_sigma2%:M l) x) (P *m beta) z) (fun L => Ok (to_fl L)).

Section Wrapper.
Variable crit : option (list R) -> list R -> SelectModel.outcome.
(* result of anisotropic_parameters_initial_guess_constant_mean, None when it raises (InitModel.init_constant_mean, with arrays) *)
Variable guess : option (list R * list R).
Variable opt : list R -> SelectModel.strat (list R).
(* 583-680 select_parameters_with_ml_constant_mean; parameterized: model.meantype == "parameterized"; None: an exception *)
Definition select_ml_constant_mean (parameterized : bool) (m : SelectModel.gp_model) (meanparam0 covparam0 : option (list R))
  : option (SelectModel.gp_model * SelectModel.result (list R)) :=
  if ~~ parameterized then None
  else
    let filled := match meanparam0, covparam0 with
                  | Some m0, Some c0 => Some (m0, c0)
                  | _, _ => match guess with
                            | None => None
                            | Some (mg, cg) => Some (if meanparam0 is Some m0 then m0 else mg, if covparam0 is Some c0 then c0 else cg)
                            end
                  end in
    match filled with
    | None => None
    | Some (m0, c0) => if Nat.eqb (length m0) 1 then SelectModel.select_with crit c0 opt m (Some m0) (Some c0) true 1 else None
    end.
(* 683-743 update_parameters_with_ml_constant_mean *)
Definition update_ml_constant_mean (parameterized : bool) (m : SelectModel.gp_model) :=
  select_ml_constant_mean parameterized m (SelectModel.m_meanparam m) (SelectModel.m_covparam m).
End Wrapper.
