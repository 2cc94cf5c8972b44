(** NutsRunModel.v: the NUTS driver nuts_sample (gpmp/mcmc/nuts.py 772-1131) and the entry point
    sample_from_selection_criterion_nuts (gpmp/mcmc/param_posterior.py 493-650).  Definitions only.
    Uniform numbers are drawn through [rnd]; the Gaussian numbers of iteration t, chain c are [xi t c].  The gradient
    of the potential, the step size found by the initial search (NutsModel: find_step) and the draws of the random
    initial states are arguments.  Logging, timing and plots are left out.  Raised exceptions are [None]. *)
From Coq Require Import List Arith ZArith Reals Bool.
From Verif Require Import ConfigModel FlModel PriorModel SmcModel MhModel DesignModel PostModel NutsModel.
Import ListNotations.
Local Open Scope R_scope.

Section Run.
Variables (d : nat) (lp : vec -> fl) (grad : vec -> option vec) (xi : nat -> nat -> vec).
Variables (max_depth : nat) (delta_max : R).

(** 412-421 potential_and_grad: value -log_prob; finite value and finite gradient, or None *)
Definition pot_of (q : vec) : option (R * vec) :=
  match lp q with
  | Fin v => match grad q with Some g => Some (- v, g) | None => None end
  | _ => None
  end.
Definition vfin_of (q : vec) : bool := match lp q with Fin _ => true | _ => false end.

(** one row of the traces: outcome of the transition and log_prob(q_new) *)
Record rowc := RowC { c_out : nuts_out; c_lp : fl }.
(** 952-968 and 1072-1089: the transitions of all chains at one iteration; p0 = randn * sqrt(mass) *)
Fixpoint chains_iter (step : R) (mass : vec) (t c : nat) (qs : list vec) : rnd (list rowc) :=
  match qs with
  | [] => Ret []
  | q :: qs =>
      bind (nuts_transition d pot_of (fun i => 1 / mass i) step delta_max vfin_of max_depth q (fun i => xi t c i * sqrt (mass i))) (fun o =>
      bind (chains_iter step mass t (S c) qs) (fun rest => Ret (RowC o (lp (o_q o)) :: rest)))
  end.
Definition positions (rows : list rowc) : list vec := map (fun r => o_q (c_out r)) rows.
Definition stats (rows : list rowc) : list (vec * R) := map (fun r => (o_q (c_out r), o_accept (c_out r))) rows.

(** 948-1035: [n] remaining iterations; None: OverflowError *)
Fixpoint warm_phase (o : adapt_opts) (ws : list (Z * Z)) (n t : nat) (s : warm) (qs : list vec)
  : rnd (option (warm * list vec * list (list rowc))) :=
  match n with
  | O => Ret (Some (s, qs, []))
  | S n =>
      bind (chains_iter (m_step s) (m_mass s) t 0 qs) (fun rows =>
      match warm_iter o ws (Z.of_nat t) s (stats rows) with
      | None => Ret None
      | Some s' =>
          bind (warm_phase o ws n (S t) s' (positions rows)) (fun r =>
          Ret (match r with None => None | Some (s'', qs'', tr) => Some (s'', qs'', rows :: tr) end))
      end)
  end.
(** 1068-1089 *)
Fixpoint sample_phase (step : R) (mass : vec) (n t : nat) (qs : list vec) : rnd (list (list rowc)) :=
  match n with
  | O => Ret []
  | S n =>
      bind (chains_iter step mass t 0 qs) (fun rows =>
      bind (sample_phase step mass n (S t) (positions rows)) (fun tr => Ret (rows :: tr)))
  end.
(** 1116-1131 *)
Record nuts_run := NutsRun { n_warm : list (list rowc); n_rows : list (list rowc); n_step : R; n_mass : vec; n_state : warm }.
(** 834-1131; without chains the mean over the chains is a division by zero (971, 1091) *)
Definition nuts_sample (o : adapt_opts) (pol : wpolicy) (mass : option vec) (eps0 : fl) (q_init : list vec)
  (num_warmup num_samples : nat) : rnd (option nuts_run) :=
  match make_warmup_windows pol (Z.of_nat num_warmup) with
  | None => Ret None
  | Some ws =>
      if match q_init with [] => (0 <? num_warmup + num_samples)%nat | _ => false end then Ret None
      else
      bind (warm_phase o ws num_warmup 0 (warm_init o mass eps0) q_init) (fun w =>
      match w with
      | None => Ret None
      | Some (s, qs, tr) =>
          match final_step o s with
          | None => Ret None
          | Some e =>
              bind (sample_phase e (m_mass s) num_samples num_warmup qs) (fun rows =>
              Ret (Some (NutsRun tr rows e (m_mass s) s)))
          end
      end)
  end.
End Run.

(** arrays of length d and coordinate functions *)
Definition to_vec (l : list R) : vec := fun i => nth i l 0.
Definition of_vec (d : nat) (q : vec) : list R := map q (seq 0 d).
(** gnp.transpose(samples_raw, 0, 1): entry (t, c) becomes (c, t) *)
Definition swap01 {A} (n_chains : nat) (dflt : A) (rows : list (list A)) : list (list A) :=
  map (fun c => map (fun r => nth c r dflt) rows) (seq 0 n_chains).

(** gnp.value_and_grad, gpmp/num/numpy_backend.py 293-327, and derivative_finite_diff, gpmp/num/shared.py 44-55: the
    five-point difference in each coordinate (h = 1e-5 at 297).  A non-finite value makes the difference non-finite *)
Definition set_coord (x : list R) (i : nat) (v : R) : list R := firstn i x ++ v :: skipn (S i) x.
Definition np_partial (f : list R -> fl) (h : R) (x : list R) (i : nat) : option R :=
  let at_ s := f (set_coord x i (nth i x 0 + s)) in
  match at_ (2 * h), at_ h, at_ (- h), at_ (- (2 * h)) with
  | Fin p2, Fin p1, Fin m1, Fin m2 => Some ((- p2 + 8 * p1 - 8 * m1 + m2) / (12 * h))
  | _, _, _, _ => None
  end.
Fixpoint collect {A} (l : list (option A)) : option (list A) :=
  match l with
  | [] => Some []
  | None :: _ => None
  | Some a :: l => option_map (cons a) (collect l)
  end.
Definition np_grad (h : R) (f : list R -> fl) (x : list R) : option (list R) := collect (map (np_partial f h x) (seq 0 (length x))).

(** param_posterior.py 592-650; the target has temperature 1 (620).  [vgrad f x] is the gradient of f at x computed by
    gnp.value_and_grad (None: some entry is not finite).  Result: samples (n_chains, num_samples, dim) and the info of
    nuts_sample *)
Definition sample_nuts (vgrad : (list R -> fl) -> list R -> option (list R)) (xi : nat -> nat -> vec) (inf : option (info (list R -> option fl)))
  (crit : option (list R -> option fl)) (states : option arr) (random_init : bool) (init_box sampling_box : option box)
  (o : adapt_opts) (pol : wpolicy) (mass : option vec) (eps0 : fl) (max_depth : nat) (delta_max : R)
  (num_samples num_warmup n_chains : nat) (rand : list (list R))
  : rnd (option (list (list (list R)) * nuts_run)) :=
  match prepare _ true inf crit states random_init init_box sampling_box n_chains rand with
  | None => Ret None
  | Some p =>
      match make_log_prob_nuts (p_crit p) (p_box p) 1 with
      | None => Ret None
      | Some f =>
          let lp x := match f x with Some v => v | None => NInf end in
          let lpv q := lp (of_vec (p_dim p) q) in
          let g q := option_map to_vec (vgrad (fun x => fl_opp (lp x)) (of_vec (p_dim p) q)) in
          bind (nuts_sample (p_dim p) lpv g xi max_depth delta_max o pol mass eps0 (map to_vec (p_states p)) num_warmup num_samples) (fun r =>
          Ret (option_map (fun run => (swap01 (length (p_states p)) [] (map (fun rows => map (of_vec (p_dim p)) (positions rows)) (n_rows run)), run)) r))
      end
  end.

(** nuts.py 183-221 NUTSOptions (first block) and 223-269 _resolve_nuts_options; floats other than the seed and the
    initial mass are reals; [None] for init_step_size, init_mass_diag, seed is Python's None *)
Record nopts (M : Type) := NOpts {
  no_warmup : Z; no_target : R; no_depth : Z; no_delta : R; no_jitter : R; no_step : option R; no_mass : option M; no_seed : option Z }.
Arguments NOpts {M}. Arguments no_warmup {M}. Arguments no_target {M}. Arguments no_depth {M}. Arguments no_delta {M}.
Arguments no_jitter {M}. Arguments no_step {M}. Arguments no_mass {M}. Arguments no_seed {M}.
Definition nopts_default {M} : @nopts M := NOpts 1000 (8 / 10) 10 1000 (1 / 10000) None None None.
Definition is_none {A} (o : option A) : bool := match o with None => true | Some _ => false end.
Definition resolve_nuts_options {M} (options : option (@nopts M)) (args : @nopts M) : @nopts M :=
  let get {A} (f : @nopts M -> A) (dflt : A -> bool) : A := resolve dflt (option_map f options) (f args) in
  NOpts (get no_warmup (fun v => Z.eqb v 1000)) (get no_target (fun v => reqb v (8 / 10))) (get no_depth (fun v => Z.eqb v 10))
    (get no_delta (fun v => reqb v 1000)) (get no_jitter (fun v => reqb v (1 / 10000)))
    (get no_step is_none) (get no_mass is_none) (get no_seed is_none).
