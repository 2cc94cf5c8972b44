(** Model of gpmp/kernel/priors.py and gpmp/kernel/prior_helpers.py.
    Definitions only.  One-dimensional arrays are lists, a scalar is an
    extended real [fl]; [None] is a raised ValueError.  Vector arguments of one
    call have the same length (NumPy broadcasting is not modelled).
    The default hyperparameters are resolved by [resolve_prior_defaults]; the
    argument [xi] of get_default_prior_hyperparameters only triggers a shape
    check and is left out. *)
From Coq Require Import List Reals Bool.
From Verif Require Import ConfigModel FlModel.
Import ListNotations.
Local Open Scope R_scope.

(** *** basic priors *)
(** [log_prior_jeffreys_variance], priors.py 43-69 *)
Definition log_prior_jeffreys_variance (log_sigma2 lambda_var : R) : R := - lambda_var * log_sigma2.

Definition sum_list (l : list R) : R := fold_left Rplus l 0.

(** [log_prior_power_law], priors.py 72-128; covparam = log_sigma2 :: p *)
Record power_law := mkPow { pl_lambda_var : R; pl_cut_high : R; pl_lambda_len : R;
  pl_len_low : R; pl_len_high : R; pl_penalty : R }.
(** the default argument values, 74-79 *)
Definition power_law_default : power_law := mkPow 1 (921 / 100) 0 (- (921 / 100)) (921 / 100) 100.
Definition log_prior_power_law (h : power_law) (log_sigma2 : R) (p : list R) : R :=
  let log_prior_sigma2 := - pl_lambda_var h * log_sigma2 in
  let extra_sigma2 := pl_penalty h * Rmax (log_sigma2 - pl_cut_high h) 0 in
  let extra_low := map (fun v => pl_penalty h * Rmax (pl_len_low h - v) 0) p in
  let extra_high := map (fun v => pl_penalty h * Rmax (v - pl_len_high h) 0) p in
  let log_prior_lengths := - pl_lambda_len h * sum_list p - sum_list extra_low - sum_list extra_high in
  log_prior_sigma2 + extra_sigma2 + log_prior_lengths.

(** *** hyperparameters *)
(** [_resolve_prior_defaults], priors.py 169-177 *)
Definition resolve_prior_defaults (d : prior_defaults) (gamma coverage alpha : option fl) : fl * fl * fl :=
  (match gamma with None => d_gamma d | Some g => g end,
   match coverage with None => d_coverage d | Some c => c end,
   match alpha with None => d_alpha d | Some a => a end).
(** [_logsigma2_prior_std], priors.py 180-190; [inv_cdf] is NormalDist().inv_cdf *)
Definition logsigma2_prior_std (inv_cdf : R -> R) (gamma coverage : R) : option R :=
  if rleb gamma 1 then None
  else if negb (rltb 0 coverage && rltb coverage 1) then None
  else
    let q := 1 / 2 * (1 + coverage) in
    let zq := inv_cdf q in
    if rleb zq 0 then None else Some (ln gamma / zq).
(** [log_prior_gaussian_logsigma2], priors.py 193-236, hyperparameters given *)
Definition log_prior_gaussian_logsigma2 (inv_cdf : R -> R) (log_sigma2 log_sigma2_0 gamma coverage : R)
  : option R :=
  match logsigma2_prior_std inv_cdf gamma coverage with
  | None => None
  | Some std => let z := (log_sigma2 - log_sigma2_0) / std in Some (- (1 / 2) * z * z)
  end.

(** *** log-range prior *)
(** one component of priors.py 272-278 *)
Definition nlf_component (alpha : fl) (logrho logrho_min logrho_0 : fl) : fl :=
  let beta := alpha in
  let alpha_eff := fl_mul beta (fl_sub logrho_0 logrho_min) in
  let shifted := fl_sub logrho logrho_min in
  let mask := fl_lt (Fin 0) shifted in
  let shifted_safe := if mask then shifted else Fin 1 in
  let nlf_valid := fl_add (fl_mul (fl_opp alpha_eff) (fl_ln shifted_safe)) (fl_mul beta shifted_safe) in
  if mask then nlf_valid else PInf.
Fixpoint zip_with3 {A B C D} (f : A -> B -> C -> D) (la : list A) (lb : list B) (lc : list C) : list D :=
  match la, lb, lc with
  | a :: la', b :: lb', c :: lc' => f a b c :: zip_with3 f la' lb' lc'
  | _, _, _ => []
  end.
(** [neglog_f_logrho], priors.py 239-278 *)
Definition neglog_f_logrho (alpha : fl) (logrho logrho_min logrho_0 : list fl) : option (list fl) :=
  if fl_le alpha (Fin 0) then None
  else if existsb (fun '(r0, rm) => fl_le r0 rm) (combine logrho_0 logrho_min) then None
  else Some (zip_with3 (nlf_component alpha) logrho logrho_min logrho_0).
(** [log_prior_logrho_barrier_linear], priors.py 281-311; loginvrho = covparam[1:] *)
Definition log_prior_logrho_barrier_linear (alpha : fl) (loginvrho logrho_min logrho_0 : list fl) : option fl :=
  match neglog_f_logrho alpha (map fl_opp loginvrho) logrho_min logrho_0 with
  | None => None
  | Some l => Some (fl_opp (fl_sum l))
  end.
(** [neg_log_restricted_posterior_logsigma2_and_logrho_prior], priors.py 467-558, with
    hyperparameters given; nlrl is the value of the restricted likelihood *)
Definition neg_log_restricted_posterior (inv_cdf : R -> R) (nlrl : fl) (log_sigma2 : R) (loginvrho : list fl)
  (log_sigma2_0 gamma coverage : R) (logrho_min logrho_0 : list fl) (alpha : fl) : option fl :=
  match log_prior_gaussian_logsigma2 inv_cdf log_sigma2 log_sigma2_0 gamma coverage,
        log_prior_logrho_barrier_linear alpha loginvrho logrho_min logrho_0 with
  | Some a, Some b => Some (fl_sub (fl_sub nlrl (Fin a)) b)
  | _, _ => None
  end.

(** *** prior_helpers.py *)
(** gnp.sort on a one-dimensional array *)
Fixpoint insert (a : R) (l : list R) : list R :=
  match l with
  | [] => [a]
  | b :: l' => if rleb a b then a :: b :: l' else b :: insert a l'
  end.
Definition sort_list (l : list R) : list R := fold_right insert [] l.
(** gnp.diff *)
Fixpoint diff_list (l : list R) : list R :=
  match l with
  | a :: (b :: _) as l' => (b - a) :: diff_list l'
  | _ => []
  end.
Definition min_from (a : R) (l : list R) : R := fold_left Rmin l a.
Definition max_from (a : R) (l : list R) : R := fold_left Rmax l a.
(** [_minimum_nonzero_gap_distance_1d], prior_helpers.py 22-30 (same text in bounds.py 12-20) *)
Definition minimum_nonzero_gap (xj : list R) : fl :=
  if Nat.ltb (length xj) 2 then PInf
  else
    let xs := sort_list xj in
    let diffs := filter (fun v => rltb 0 v) (diff_list xs) in
    match diffs with
    | [] => PInf
    | a :: t => Fin (min_from a t)
    end.
(** one column of [_componentwise_logrho_min_from_xi], 33-58 *)
Definition logrho_min_from_gap (xj : list R) : fl :=
  let g := minimum_nonzero_gap xj in if fl_is_finite g then fl_ln g else NInf.
(** gnp.max(xj) - gnp.min(xj); the column is a :: t *)
Definition col_range (xj : list R) : R :=
  match xj with [] => 0 | a :: t => max_from a t - min_from a t end.
(** [compute_logrho_min_from_xi], 61-95; xi is given by its columns *)
Definition compute_logrho_min (xi : list (list R)) (factor : R) : option (list fl) :=
  if rleb factor 0 then None
  else Some (map (fun xj =>
    let min_rho_from_range := col_range xj * factor in
    let positive := rltb 0 min_rho_from_range in
    let min_rho_safe := if positive then min_rho_from_range else 1 in
    let logrho_min_range := if positive then Fin (ln min_rho_safe) else NInf in
    fl_max (logrho_min_from_gap xj) logrho_min_range) xi).

(** *** covparam0 resolution.  [V] is the type of parameter vectors, [guess] the value returned
    by anisotropic_parameters_initial_guess; the results are (prior, init, number of calls of
    the initial guess, warnings). *)
(** [resolve_covparam0_prior_and_init], 98-149 *)
Definition resolve_prior_and_init {V} (guess : V) (covparam0 covparam0_prior covparam0_init : option V)
  : V * V * nat :=
  let '(init, ig, c1) :=
    match covparam0_init with
    | Some v => (v, None, 0%nat)
    | None => match covparam0 with
              | Some v => (v, None, 0%nat)
              | None => (guess, Some guess, 1%nat)
              end
    end in
  let '(prior, c2) :=
    match covparam0_prior with
    | Some v => (v, 0%nat)
    | None => match covparam0 with
              | Some v => (v, 0%nat)
              | None => match ig with
                        | Some v => (v, 0%nat)
                        | None => (guess, 1%nat)
                        end
              end
    end in
  (prior, init, c1 + c2)%nat.
Inductive role_warning := Covparam0AsPrior | ModelCovparamAsPrior.
(** [resolve_covparam0_roles_for_update], 152-217 *)
Definition resolve_roles_for_update {V} (guess : V) (model_covparam covparam0 covparam0_prior covparam0_init : option V)
  (warn : bool) : V * V * nat * list role_warning :=
  let '(init, ig, c1) :=
    match covparam0_init with
    | Some v => (v, None, 0%nat)
    | None => match covparam0 with
              | Some v => (v, None, 0%nat)
              | None => match model_covparam with
                        | Some v => (v, None, 0%nat)
                        | None => (guess, Some guess, 1%nat)
                        end
              end
    end in
  let '(prior, c2, w) :=
    match covparam0_prior with
    | Some v => (v, 0%nat, [])
    | None => match covparam0 with
              | Some v => (v, 0%nat, if warn then [Covparam0AsPrior] else [])
              | None => match model_covparam with
                        | Some v => (v, 0%nat, if warn then [ModelCovparamAsPrior] else [])
                        | None => match ig with
                                  | Some v => (v, 0%nat, [])
                                  | None => (guess, 1%nat, [])
                                  end
                        end
              end
    end in
  (prior, init, c1 + c2, w)%nat.
(** the parameters used by update_parameters_with_remap_gaussian_logsigma2(_and_logrho_prior)
    (parameter_selection.py 1254-1281 and 1541-1576): the update resolution followed by the
    selection resolution *)
Definition update_remap_roles {V} (guess : V) (model_covparam covparam0 covparam0_prior covparam0_init : option V)
  (warn : bool) : V * V * nat * list role_warning :=
  let '(p, i, c, w) := resolve_roles_for_update guess model_covparam covparam0 covparam0_prior covparam0_init warn in
  let '(p', i', c') := resolve_prior_and_init guess covparam0 (Some p) (Some i) in
  (p', i', c + c', w)%nat.
(** [resolve_logsigma2_logrho_prior_args], 220-292, array data: (log_sigma2_0, logrho_0, logrho_min);
    covparam0_prior = s0 :: li0 *)
Definition resolve_prior_args (s0 : R) (li0 : list fl) (xi : list (list R)) (factor : R)
  (prior_log_sigma2_0 : option R) (prior_logrho_0 prior_logrho_min : option (list fl))
  : option (R * list fl * list fl) :=
  let ls := match prior_log_sigma2_0 with None => s0 | Some v => v end in
  let r0 := match prior_logrho_0 with None => map fl_opp li0 | Some v => v end in
  match match prior_logrho_min with Some v => Some v | None => compute_logrho_min xi factor end with
  | None => None
  | Some rm => Some (ls, r0, rm)
  end.
(** the log-ranges of the anisotropic initial guess, which are the default prior_logrho_0
    (init.py 57-60 followed by -covparam0_prior[1:], prior_helpers.py 263): minus minus the log of
    rho = exp(gammaln(d/2 + 1)/d) / pi**0.5 * (range of the column); glog is gammaln(d/2 + 1) *)
Definition default_logrho_0 (glog : R) (xi : list (list R)) : list fl :=
  map (fun xj => fl_opp (fl_opp (fl_ln (Fin (exp (glog / INR (length xi)) / sqrt PI * col_range xj))))) xi.
