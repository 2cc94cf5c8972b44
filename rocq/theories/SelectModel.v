(** Model of parameter selection: gpmp/kernel/parameter_selection.py
    (autoselect_parameters, select_parameters_with_criterion), gpmp/kernel/bounds.py and the
    criterion wrappers of gpmp/num/{numpy,torch}_backend.py.  Definitions only. *)
From Coq Require Import List Arith Reals Bool.
From Verif Require Import ConfigModel FlModel PriorModel.
Import ListNotations.

(** what a call of a criterion does: return a number, raise an exception recognised by
    [_is_linalg_exception], or raise another one *)
Inductive outcome := Value (J : fl) | LinalgError | OtherError.

(** ** autoselect_parameters, parameter_selection.py 128-276 *)
Section Autoselect.
Variables P St : Type.
(** [criterion(p)]; St is whatever state the callable keeps (batch position, caches) *)
Variable criterion : P -> St -> outcome * St.

(** scipy.optimize.minimize as an arbitrary adversary: it ends with a result (r.x, r.fun), asks
    for the criterion at a point and continues depending on the answer, or raises (itself, or
    because the gradient callable raised). Options, bounds and gradient answers only influence
    which strategy is played. *)
Inductive strat := Done (x : P) (f : fl) | Ask (p : P) (k : fl -> strat) | Raise.

(** 210-218: history_params, history_criterion (as one list of pairs), best_params, best_criterion *)
Record hist := mkHist { visited : list (P * fl); best_params : option P; best_criterion : fl }.
Definition hist0 : hist := mkHist [] None PInf.
(** 213-218 record *)
Definition record (h : hist) (p : P) (J : fl) : hist :=
  let h' := visited h ++ [(p, J)] in
  if fl_lt J (best_criterion h) then mkHist h' (Some p) J else mkHist h' (best_params h) (best_criterion h).
(** 222-231 criterion_with_history; None is a re-raised exception *)
Definition criterion_with_history (p : P) (st : St) (h : hist) : option (fl * St * hist) :=
  let '(o, st') := criterion p st in
  match o with
  | Value J => Some (J, st', record h p J)
  | LinalgError => Some (PInf, st', record h p PInf)
  | OtherError => None
  end.
(** 253-260 the call of minimize *)
Fixpoint minimize (s : strat) (st : St) (h : hist) : option (P * fl * hist) :=
  match s with
  | Done x f => Some (x, f, h)
  | Raise => None
  | Ask p k =>
      match criterion_with_history p st h with
      | None => None
      | Some (J, st', h') => minimize (k J) st' h'
      end
  end.
Record result := mkResult {
  r_x : option P; r_fun : fl; best_value_returned : bool; history : list (P * fl) }.
(** 262-276 *)
Definition autoselect (s : strat) (st : St) : option result :=
  match minimize s st hist0 with
  | None => None
  | Some (x, f, h) =>
      if fl_lt (best_criterion h) f
      then Some (mkResult (best_params h) (best_criterion h) false (visited h))
      else Some (mkResult (Some x) f true (visited h))
  end.
End Autoselect.
Arguments Done {P}.
Arguments Ask {P}.
Arguments Raise {P}.

(** ** automatic bounds, parameter_selection.py 199-208 *)
Section Bounds.
Local Open Scope R_scope.
Definition auto_bound (delta p : R) : R * R := (Rmax (p - delta) (-500), Rmin (p + delta) 500).
Definition select_bounds (bounds : option (list (R * R))) (bounds_auto : bool) (delta : R) (p0 : list R)
  : option (list (R * R)) :=
  match bounds with
  | Some b => Some b
  | None => if bounds_auto then Some (map (auto_bound delta) p0) else None
  end.

(** ** empirical_bounds_factory, bounds.py 22-42; columns of xi; [var] is the population variance
    (ddof = 0 on both backends) *)
Definition pop_variance (z : list R) : R :=
  let n := INR (length z) in
  let m := sum_list z / n in
  sum_list (map (fun v => (v - m) * (v - m)) z) / n.
Definition length_bound (fct : R) (xj : list R) : fl * fl :=
  match minimum_nonzero_gap xj with
  | Fin g => (NInf, fl_opp (fl_ln (Fin (fct * g))))
  | _ => (NInf, PInf)
  end.
Definition empirical_bounds (mean_len : nat) (lowf upf lenf : R)
  (xi : list (list R)) (zi : list R) : list (fl * fl) :=
  let v := pop_variance zi in
  repeat (NInf, PInf) mean_len ++ [(fl_ln (Fin (lowf * v)), fl_ln (Fin (upf * v)))] ++ map (length_bound lenf) xi.
End Bounds.

(** ** select_parameters_with_criterion, parameter_selection.py 285-437 *)
Section SelectWith.
(** parameters of the model object *)
Record gp_model := mkModel { m_meanparam : option (list R); m_covparam : option (list R) }.
(** the wrapped criterion of two (mean, covariance) parameter vectors; without a parameterised
    mean the first argument is not used *)
Variable crit : option (list R) -> list R -> outcome.
(** make_selection_criterion_with_gradient 104-114: crit_ *)
Definition crit_ (parameterized_mean : bool) (meanparam_len : nat) (p : list R) (st : unit) : outcome * unit :=
  (if parameterized_mean then crit (Some (firstn meanparam_len p)) (skipn meanparam_len p) else crit None p, tt).
(** [guess] is anisotropic_parameters_initial_guess; [opt p0] the strategy played by the optimiser *)
Definition select_with (guess : list R) (opt : list R -> strat (list R)) (m : gp_model)
  (meanparam0 covparam0 : option (list R)) (parameterized_mean : bool) (meanparam_len : nat)
  : option (gp_model * result (list R)) :=
  let cov0 := match covparam0 with Some c => c | None => guess end in
  let param0 := if parameterized_mean then option_map (fun m0 => m0 ++ cov0) meanparam0 else Some cov0 in
  match param0 with
  | None => None
  | Some p0 =>
      match autoselect (list R) unit (crit_ parameterized_mean meanparam_len) (opt p0) tt with
      | None => None
      | Some r =>
          match r_x _ r with
          | None => None
          | Some x =>
              Some (if parameterized_mean
                    then mkModel (Some (firstn meanparam_len x)) (Some (skipn meanparam_len x))
                    else mkModel (m_meanparam m) (Some x), r)
          end
      end
  end.
(** 440-503 update_parameters_with_criterion *)
Definition update_with (guess : list R) (opt : list R -> strat (list R)) (m : gp_model)
  (parameterized_mean : bool) (meanparam_len : nat) :=
  select_with guess opt m (if parameterized_mean then m_meanparam m else None) (m_covparam m)
    parameterized_mean meanparam_len.
End SelectWith.

(** ** BatchDifferentiableSelectionCriterion, numpy_backend.py 353-428, torch_backend.py 607-718 *)
Section Batch.
Variables P B : Type.
Variable size : B -> nat.
(** [crit(p, xb, zb)] *)
Variable crit : P -> B -> outcome.
(** the e-th call of iter(loader) yields [loader e]; a loader without shuffling is constant *)
Variable loader : nat -> list B.

(** [_batch_iter]: what it will still yield, and the number of iter(loader) calls so far *)
Record batch_state := mkBatch { rest : list B; opened : nat }.
(** __init__ *)
Definition batch_init (bpe : nat) : batch_state :=
  if bpe =? 0 then mkBatch [] 0 else mkBatch (loader 0) 1.
(** one [next], reopening the loader at its end; None: StopIteration of the fresh iterator,
    turned into RuntimeError by the generator *)
Definition next_batch (st : batch_state) : option B * batch_state :=
  match rest st with
  | b :: l => (Some b, mkBatch l (opened st))
  | [] => match loader (opened st) with
          | b :: l => (Some b, mkBatch l (S (opened st)))
          | [] => (None, mkBatch [] (S (opened st)))
          end
  end.
(** result of one evaluation: a number, an exception of the criterion, ValueError
    "Loader is empty.", RuntimeError *)
Inductive eval_result := EValue (v : fl) | ELinalg | EOther | EEmpty | ERuntime.
Definition finish (mean : bool) (total : fl) (n : nat) : eval_result :=
  if n =? 0 then EEmpty else EValue (if mean then fl_div total (Fin (INR n)) else total).
(** accumulation over the batches yielded by the generator; the generator is advanced only when
    the previous batch has been processed *)
Fixpoint loop_cycle (k : nat) (p : P) (mean : bool) (st : batch_state) (total : fl) (n : nat)
  : eval_result * batch_state :=
  match k with
  | 0 => (finish mean total n, st)
  | S k' =>
      match next_batch st with
      | (None, st') => (ERuntime, st')
      | (Some b, st') =>
          match crit p b with
          | Value v => loop_cycle k' p mean st' (fl_add total (fl_mul v (Fin (INR (size b))))) (n + size b)
          | LinalgError => (ELinalg, st')
          | OtherError => (EOther, st')
          end
      end
  end.
Fixpoint loop_full (l : list B) (p : P) (mean : bool) (total : fl) (n : nat) : eval_result :=
  match l with
  | [] => finish mean total n
  | b :: l' =>
      match crit p b with
      | Value v => loop_full l' p mean (fl_add total (fl_mul v (Fin (INR (size b))))) (n + size b)
      | LinalgError => ELinalg
      | OtherError => EOther
      end
  end.
(** evaluate_no_grad / evaluate; NumPy maps the linear algebra exception to +inf, Torch does not *)
Definition batch_eval (numpy : bool) (bpe : nat) (mean : bool) (p : P) (st : batch_state)
  : eval_result * batch_state :=
  let '(r, st') :=
    if bpe =? 0 then (loop_full (loader (opened st)) p mean (Fin 0) 0, mkBatch [] (S (opened st)))
    else loop_cycle bpe p mean st (Fin 0) 0 in
  (match r with ELinalg => if numpy then EValue PInf else ELinalg | _ => r end, st').
(** a sequence of evaluations *)
Fixpoint batch_evals numpy bpe mean (ps : list P) (st : batch_state) : list eval_result * batch_state :=
  match ps with
  | [] => ([], st)
  | p :: ps' => let '(r, st') := batch_eval numpy bpe mean p st in
                let '(rs, st'') := batch_evals numpy bpe mean ps' st' in (r :: rs, st'')
  end.
End Batch.

(** ** value/gradient pairing of the Torch wrappers *)
Section TorchGrad.
Variables P G : Type.
Variable eqP : P -> P -> bool.
(** value and gradient of the wrapped criterion; None: linear algebra exception *)
Variable f : P -> option (fl * G).
(** DifferentiableSelectionCriterion, torch_backend.py 546-604.  [_p_value]; [_f_value]: the
    point at which it was computed, or None for the constant +inf of a failed evaluation; the
    graph is released by the first gradient call *)
Record torch_state := mkTorch { p_value : option P; f_value : option (option P); freed : bool }.
Definition torch0 : torch_state := mkTorch None None false.
Definition evaluate_pre_grad (p : P) (st : torch_state) : fl * torch_state :=
  match f p with
  | Some (v, _) => (v, mkTorch (Some p) (Some (Some p)) false)
  | None => (PInf, mkTorch (Some p) (Some None) false)
  end.
Inductive grad_result := Grad (g : option G) | GValueError | GRuntimeError.
Definition gradient (p : P) (st : torch_state) : grad_result * torch_state :=
  match f_value st, p_value st with
  | Some fv, Some pv =>
      if eqP p pv then
        match fv with
        | None => (GRuntimeError, st)
        | Some q => if freed st then (GRuntimeError, st)
                    else (Grad (option_map snd (f q)), mkTorch (p_value st) (f_value st) true)
        end
      else (GValueError, st)
  | _, _ => (GValueError, st)
  end.
End TorchGrad.

(** BatchDifferentiableSelectionCriterion.evaluate_pre_grad / gradient, torch_backend.py 690-718 *)
Section TorchBatchGrad.
Variables P B : Type.
Variable size : B -> nat.
(** value and gradient of crit(p, xb, zb); None: an exception *)
Variable crit : P -> B -> option (R * list R).
Variable loader : nat -> list B.
Definition vscale (c : R) (v : list R) : list R := map (Rmult c) v.
Definition vadd (u v : list R) : list R := map (fun t => Rplus (fst t) (snd t)) (combine u v).
Definition vacc (acc : option (list R)) (g : list R) : list R :=
  match acc with None => g | Some u => vadd u g end.
Inductive pre_grad_result := PValue (v : R) | PFail | PEmpty | PRuntime.
Fixpoint loop_grad (k : nat) (p : P) (st : batch_state B) (total : R) (acc : option (list R)) (n : nat)
  : option (R * option (list R) * nat) * batch_state B * bool :=
  match k with
  | 0 => (Some (total, acc, n), st, false)
  | S k' =>
      match next_batch B loader st with
      | (None, st') => (None, st', true)
      | (Some b, st') =>
          match crit p b with
          | None => (None, st', false)
          | Some (v, g) =>
              let w := INR (size b) in
              loop_grad k' p st' (total + v * w)%R (Some (vacc acc (vscale w g))) (n + size b)
          end
      end
  end.
(** the object: batch iterator and cached gradient ([bpe > 0], reduction "mean") *)
Definition batch_pre_grad (bpe : nat) (p : P) (o : batch_state B * option (list R))
  : pre_grad_result * (batch_state B * option (list R)) :=
  let '(st, cached) := o in
  match loop_grad bpe p st 0%R None 0 with
  | (None, st', true) => (PRuntime, (st', cached))
  | (None, st', false) => (PFail, (st', cached))
  | (Some (total, acc, n), st', _) =>
      if n =? 0 then (PEmpty, (st', cached))
      else (PValue (total / INR n)%R, (st', option_map (vscale (/ INR n)%R) acc))
  end.
(** 715-718: the argument is not used *)
Definition batch_gradient (p : P) (o : batch_state B * option (list R)) : option (list R) := snd o.
End TorchBatchGrad.
