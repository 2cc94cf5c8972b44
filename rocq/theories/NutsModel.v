(** Model of gpmp/mcmc/nuts.py (leapfrog, NUTS tree and transition, adaptation).  Definitions only.
    Exact real arithmetic.  Vectors are coordinate functions, of which the first [d] coordinates are the
    array.  The potential with its gradient is an argument; [None] stands for a value or gradient that is not
    finite (the energy of the new state is then NaN or infinite).  Uniform numbers are drawn through the
    constructor [Draw]; the Gaussian momentum is an argument.  Logging, progress bars and timing are left out. *)
From Coq Require Import List Arith ZArith Reals Bool.
From Verif Require Import ConfigModel FlModel PriorModel SmcModel.
Import ListNotations.
Local Open Scope R_scope.

(** programs drawing uniform numbers in [0,1) with gnp.rand() *)
Inductive rnd (A : Type) : Type :=
| Ret (a : A)
| Draw (k : R -> rnd A).
Arguments Ret {A} _.
Arguments Draw {A} _.
Fixpoint bind {A B} (m : rnd A) (f : A -> rnd B) : rnd B :=
  match m with Ret a => f a | Draw k => Draw (fun u => bind (k u) f) end.

Definition vec := nat -> R.
Definition vsum (d : nat) (f : vec) : R := sum_list (map f (seq 0 d)).

(** position, momentum and gradient of the potential at the position *)
Record phase := Phase { pq : vec; pp : vec; pg : vec }.

Section Nuts.
Variable d : nat.
Variable pot : vec -> option (R * vec).
Variable im : vec. (* inv_mass_diag *)
Variable eps : R.  (* step_size *)
Variable delta_max : R.

(** nuts.py 424-425 *)
Definition kinetic (p : vec) : R := 1 / 2 * vsum d (fun i => p i * p i * im i).
(** 428-440, the new state and its potential *)
Definition leapfrog (z : phase) (e : R) : option (phase * R) :=
  let p_half := fun i => pp z i - 1 / 2 * e * pg z i in
  let q_new := fun i => pq z i + e * (p_half i * im i) in
  match pot q_new with
  | None => None
  | Some (U_new, g_new) =>
      let p_new := fun i => p_half i - 1 / 2 * e * g_new i in
      Some (Phase q_new p_new g_new, U_new)
  end.
(** 443-447 *)
Definition is_uturn (zm zp : phase) : bool :=
  let dq := fun i => pq zp i - pq zm i in
  rltb (vsum d (fun i => dq i * (im i * pp zm i))) 0 || rltb (vsum d (fun i => dq i * (im i * pp zp i))) 0.

Record tree := Tree {
  t_minus : phase; t_plus : phase; t_prop : vec; t_n : nat; t_s : bool;
  t_alpha : R; t_nalpha : nat; t_nlf : nat; t_div : bool }.

(** eps * v *)
Definition signed (fwd : bool) : R := if fwd then eps else - eps.
(** 532-535: alpha = exp(clip(-(H1 - H0), max=0)) *)
Definition alpha_of (H0 H1 : R) : R :=
  let a := exp (Rmin (- (H1 - H0)) 0) in if rltb 1 a then 1 else a.
(** 520-537: depth 0 *)
Definition leaf (z : phase) (log_u : R) (fwd : bool) (H0 : R) : tree :=
  match leapfrog z (signed fwd) with
  | None => Tree z z (pq z) 0 false 0 0 1 true
  | Some (z1, U1) =>
      let H1 := U1 + kinetic (pp z1) in
      let n_valid := if rleb log_u (- H1) then 1%nat else 0%nat in
      let divergent := rltb delta_max (H1 - H0) in
      let s_continue := rltb log_u (delta_max - H1) && negb divergent in
      Tree z1 z1 (pq z1) n_valid s_continue (alpha_of H0 H1) 1 1 divergent
  end.
(** 620-623 and 748-751: the candidate of the new part replaces the current one with probability n2/(n1+n2) *)
Definition pick (draw : bool) (n1 n2 : nat) (q1 q2 : vec) : rnd vec :=
  if draw && (0 <? n1 + n2)%nat
  then Draw (fun u => Ret (if rltb u (INR n2 / INR (n1 + n2)) then q2 else q1))
  else Ret q1.
(** 539-648 *)
Fixpoint build_tree (depth : nat) (z : phase) (log_u : R) (fwd : bool) (H0 : R) : rnd tree :=
  match depth with
  | O => Ret (leaf z log_u fwd H0)
  | S depth =>
      bind (build_tree depth z log_u fwd H0) (fun t1 =>
      if t_s t1 && negb (t_div t1) then
        bind (build_tree depth (if fwd then t_plus t1 else t_minus t1) log_u fwd H0) (fun t2 =>
        let zm := if fwd then t_minus t1 else t_minus t2 in
        let zp := if fwd then t_plus t2 else t_plus t1 in
        bind (pick true (t_n t1) (t_n t2) (t_prop t1) (t_prop t2)) (fun q =>
        Ret (Tree zm zp q (t_n t1 + t_n t2) (t_s t2 && negb (is_uturn zm zp))
               (t_alpha t1 + t_alpha t2) (t_nalpha t1 + t_nalpha t2) (t_nlf t1 + t_nlf t2)
               (t_div t1 || t_div t2))))
      else Ret t1)
  end.

(** loop variables of nuts_transition *)
Record walk := Walk {
  w_minus : phase; w_plus : phase; w_prop : vec; w_n : nat;
  w_alpha : R; w_nalpha : nat; w_nlf : nat; w_div : bool; w_depth : nat }.
(** 686-761: the doubling loop; [m] is max_depth - depth *)
Fixpoint nuts_loop (m : nat) (log_u H0 : R) (w : walk) : rnd walk :=
  match m with
  | O => Ret w
  | S m =>
      Draw (fun r =>
      let fwd := negb (rltb r (1 / 2)) in
      bind (build_tree (w_depth w) (if fwd then w_plus w else w_minus w) log_u fwd H0) (fun t =>
      let zm := if fwd then w_minus w else t_minus t in
      let zp := if fwd then t_plus t else w_plus w in
      bind (pick (t_s t && negb (t_div t)) (w_n w) (t_n t) (w_prop w) (t_prop t)) (fun q =>
      let w' := Walk zm zp q (w_n w + t_n t) (w_alpha w + t_alpha t) (w_nalpha w + t_nalpha t)
                  (w_nlf w + t_nlf t) (w_div w || t_div t) (S (w_depth w)) in
      if t_s t && negb (is_uturn zm zp) then nuts_loop m log_u H0 w' else Ret w')))
  end.
(** 669-684 *)
Definition start_walk (z : phase) : walk := Walk z z (pq z) 1 0 0 0 false 0.
Record nuts_out := NutsOut { o_q : vec; o_accept : R; o_nlf : nat; o_depth : nat; o_div : bool }.
(** 763-764 *)
Definition finish (w : walk) : nuts_out :=
  NutsOut (w_prop w) (w_alpha w / INR (Nat.max 1 (w_nalpha w))) (w_nlf w) (w_depth w) (w_div w).
(** [vfin q]: the value of the potential at q is finite; read only where [pot q] is None, where true means that the
    gradient is not finite.  The test of 664 looks at the value only; with a gradient that is not finite the first
    leapfrog step gives a NaN energy (524) and ends the loop *)
Variable vfin : vec -> bool.
Definition stuck (max_depth : nat) (q0 : vec) : nuts_out :=
  if vfin q0
  then match max_depth with O => NutsOut q0 0 0 0 false | S _ => NutsOut q0 0 1 1 true end
  else NutsOut q0 0 0 0 true.
(** the transition once momentum and slice level are drawn *)
Definition nuts_slice (max_depth : nat) (q0 p0 : vec) (log_u : R) : rnd nuts_out :=
  match pot q0 with
  | None => Ret (stuck max_depth q0)
  | Some (U0, g0) =>
      bind (nuts_loop max_depth log_u (U0 + kinetic p0) (start_walk (Phase q0 p0 g0))) (fun w => Ret (finish w))
  end.
(** 651-764; p0 = randn * sqrt(mass_diag) is an argument (659-660); rand() = 0 would give log_u = -inf and is
    replaced by ln 0 = 0 of Coq's library: statements about the slice level are made for [nuts_slice] *)
Definition nuts_transition (max_depth : nat) (q0 p0 : vec) : rnd nuts_out :=
  match pot q0 with
  | None => Ret (stuck max_depth q0)
  | Some (U0, g0) => Draw (fun r => nuts_slice max_depth q0 p0 (- (U0 + kinetic p0) + ln r))
  end.

End Nuts.

(** 455-492 find_reasonable_step_size: [a eps] is the acceptance statistic of one leapfrog step of size eps
    from the initial state with the drawn momentum (474-476, 481-484), None for NaN (the comparisons are then
    false); it is an argument.  None: still looping after [fuel] iterations *)
Definition alpha_gt (a : option R) (t : R) : bool := match a with Some v => rltb t v | None => false end.
Definition alpha_lt (a : option R) (t : R) : bool := match a with Some v => rltb v t | None => false end.
Fixpoint search_loop (fuel : nat) (a : R -> option R) (target base mn mx : R) (up : bool) (e : R) : option R :=
  match fuel with
  | O => None
  | S fuel =>
      let e := if up then e * base else e * / base in
      if (alpha_gt (a e) target && negb up) || (alpha_lt (a e) target && up) then Some e
      else if rltb e mn || rltb mx e then Some e
      else search_loop fuel a target base mn mx up e
  end.
Definition find_step (fuel : nat) (a : R -> option R) (init target base mn mx : R) : option R :=
  search_loop fuel a target base mn mx (alpha_gt (a init) target) init.

(** 298-323 DualAveragingState; math.exp raises OverflowError beyond the double range: None *)
Record da := Da { da_mu : R; da_log_eps : R; da_log_bar : R; da_h : R; da_t : nat }.
Definition math_exp (x : R) : option R := if rltb x (1024 * ln 2) then Some (exp x) else None.
Definition da_update (s : da) (accept target gamma t0 kappa : R) : da :=
  let t := S (da_t s) in
  let eta := 1 / (INR t + t0) in
  let h := (1 - eta) * da_h s + eta * (target - accept) in
  let log_eps := da_mu s - sqrt (INR t) / gamma * h in
  let w := Rpower (INR t) (- kappa) in
  Da (da_mu s) log_eps (w * log_eps + (1 - w) * da_log_bar s) h t.
(** 894-902 and 1005-1013: a fresh state *)
Definition da_start (eps_min factor eps : R) : da :=
  Da (ln (Rmax eps_min (factor * eps))) (ln eps) (ln eps) 0 0.

(** 326-347 RunningDiagVar *)
Record rdv := Rdv { r_n : nat; r_mean : vec; r_m2 : vec }.
Definition rdv_new : rdv := Rdv 0 (fun _ => 0) (fun _ => 0).
Definition rdv_one (s : rdv) (x : vec) : rdv :=
  let n := S (r_n s) in
  let delta := fun i => x i - r_mean s i in
  let mean := fun i => r_mean s i + delta i / INR n in
  let delta2 := fun i => x i - mean i in
  Rdv n mean (fun i => r_m2 s i + delta i * delta2 i).
Definition rdv_batch (s : rdv) (xs : list vec) : rdv := fold_left rdv_one xs s.
Definition rdv_var (s : rdv) : vec :=
  if (r_n s <? 2)%nat then fun _ => 1 else fun i => r_m2 s i / (INR (r_n s) - 1).

(** 350-396 make_warmup_windows; int() of a non-negative float is the floor *)
Record wpolicy := WPolicy {
  min_no_window : Z; large_threshold : Z; large_init : Z; large_term : Z; large_base : Z;
  init_ratio : R; term_ratio : R; base_divisor : R }.
Definition default_policy : wpolicy := WPolicy 20 150 75 50 25 (15 / 100) (10 / 100) 3.
(** 381-396, with the loop bounded by [fuel] (None: still looping) *)
Fixpoint window_loop (fuel : nat) (start win end_middle : Z) : option (list (Z * Z)) :=
  match fuel with
  | O => None
  | S fuel =>
      let last := if (start <? end_middle)%Z then [(start, end_middle)] else [] in
      if (start + win <? end_middle)%Z then
        let start' := (start + win)%Z in
        let win' := Z.min (2 * win) (end_middle - start') in
        if (win' <=? 0)%Z
        then Some ((start, start') :: if (start' <? end_middle)%Z then [(start', end_middle)] else [])
        else option_map (cons (start, start')) (window_loop fuel start' win' end_middle)
      else Some last
  end.
Definition windows_of (init_buffer term_buffer base_window num_warmup : Z) : option (list (Z * Z)) :=
  let end_middle := (num_warmup - term_buffer)%Z in
  if (end_middle <=? init_buffer)%Z then Some []
  else window_loop (S (Z.to_nat (end_middle - init_buffer))) init_buffer
         (Z.min base_window (end_middle - init_buffer)) end_middle.
Definition make_warmup_windows (w : wpolicy) (num_warmup : Z) : option (list (Z * Z)) :=
  if (num_warmup <=? min_no_window w)%Z then Some []
  else if (large_threshold w <=? num_warmup)%Z
  then windows_of (large_init w) (large_term w) (large_base w) num_warmup
  else
    let ib := Z.max 1 (Int_part (init_ratio w * IZR num_warmup)) in
    let tb := Z.max 1 (Int_part (term_ratio w * IZR num_warmup)) in
    let bw := Z.max 1 (Int_part (IZR (num_warmup - ib - tb) / base_divisor w)) in
    windows_of ib tb bw num_warmup.

(** 835-850: the clamping bounds and _clamp_step_size *)
Definition eps_min_of (m : fl) : R := match m with Fin v => if rleb v 0 then / (10 ^ 12) else v | _ => / (10 ^ 12) end.
Definition eps_max_of (emin : R) (m : fl) : R :=
  match m with Fin v => if rleb v emin then Rmax 1 (10 * emin) else v | _ => Rmax 1 (10 * emin) end.
Definition clamp (emin emax : R) (e : fl) : R :=
  match e with
  | Fin v => if rleb v 0 then emin else if rltb v emin then emin else if rltb emax v then emax else v
  | _ => emin
  end.
(** gnp.clip(x, min=jitter) *)
Definition clip_min (jitter : R) (v : vec) : vec := fun i => Rmax (v i) jitter.

(** * the warm-up loop, 948-1013.  The outcomes of the transitions of one iteration (new position and acceptance
    statistic of every chain) are arguments *)
Record adapt_opts := AdaptOpts { a_target : R; a_gamma : R; a_t0 : R; a_kappa : R; a_factor : R; a_jitter : R; a_min : R; a_max : R }.
Record warm := Warm { m_step : R; m_mass : vec; m_da : da; m_rv : rdv; m_used : list (R * vec) }.
Definition in_window (ws : list (Z * Z)) (t : Z) : bool :=
  existsb (fun w => (fst w <=? t)%Z && (t <? snd w)%Z) ws.
Definition at_end (ws : list (Z * Z)) (t : Z) : bool := existsb (fun w => (snd w =? t)%Z) ws.
(** one iteration; None: math.exp overflows *)
Definition warm_iter (o : adapt_opts) (ws : list (Z * Z)) (t : Z) (s : warm) (outs : list (vec * R)) : option warm :=
  let mean_accept := sum_list (map snd outs) / INR (length outs) in
  let da1 := da_update (m_da s) mean_accept (a_target o) (a_gamma o) (a_t0 o) (a_kappa o) in
  match math_exp (da_log_eps da1) with
  | None => None
  | Some e =>
      let step := clamp (a_min o) (a_max o) (Fin e) in
      let rv := if in_window ws t then rdv_batch (m_rv s) (map fst outs) else m_rv s in
      let used := m_used s ++ [(m_step s, m_mass s)] in
      if at_end ws (t + 1)
      then Some (Warm (clamp (a_min o) (a_max o) (Fin step)) (clip_min (a_jitter o) (rdv_var rv))
                   (da_start (a_min o) (a_factor o) (clamp (a_min o) (a_max o) (Fin step))) rdv_new used)
      else Some (Warm step (m_mass s) da1 rv used)
  end.
Fixpoint warm_loop (o : adapt_opts) (ws : list (Z * Z)) (t : Z) (s : warm) (outs : list (list (vec * R))) : option warm :=
  match outs with
  | [] => Some s
  | out :: outs => match warm_iter o ws t s out with None => None | Some s' => warm_loop o ws (t + 1) s' outs end
  end.
(** 863-903: initial state; [eps0] is the given or searched initial step *)
Definition warm_init (o : adapt_opts) (mass : option vec) (eps0 : fl) : warm :=
  let e := clamp (a_min o) (a_max o) eps0 in
  Warm e (match mass with None => fun _ => 1 | Some m => clip_min (a_jitter o) m end)
    (da_start (a_min o) (a_factor o) e) rdv_new [].
(** 1038-1039: the step size of the sampling phase *)
Definition final_step (o : adapt_opts) (s : warm) : option R :=
  option_map (fun e => clamp (a_min o) (a_max o) (Fin e)) (math_exp (da_log_bar (m_da s))).

(** 223-268 _resolve_nuts_options: one argument.  [opt] is the field of the options object if one is given *)
Definition resolve {A} (is_default : A -> bool) (opt : option A) (arg : A) : A :=
  match opt with None => arg | Some v => if is_default arg then v else arg end.
