(** Model of gpmp/mcmc/smc.py: ParticlesSet, SMC, run_subset_simulation.  Definitions only.
    Random draws (multinomial counts, proposals, uniforms) are arguments.  Logging, plotting and
    debug output are not modelled.  X is the type of particle positions. *)
From Coq Require Import List Arith ZArith Reals Bool.
From Verif Require Import ConfigModel FlModel PriorModel.
Import ListNotations.

Fixpoint zip2 {A B C} (g : A -> B -> C) (l : list A) (l' : list B) : list C :=
  match l, l' with a :: l, b :: l' => g a b :: zip2 g l l' | _, _ => [] end.
(** all entries finite *)
Fixpoint fins_of (l : list fl) : option (list R) :=
  match l with
  | [] => Some []
  | Fin a :: l => option_map (cons a) (fins_of l)
  | _ :: _ => None
  end.

Section Smc.
Variable X : Type.
(** smc.py 128-148: self.x, self.logpx, self.w, self.w_tmp, self.logpdf_function *)
Record particles := mkPart { px : list X; plogpx : list fl; pw : list fl; pw_tmp : list fl; plogpdf : X -> fl }.
(** 150-191 particles_init, with the drawn positions; logpdf_function is left as it is *)
Definition particles_init (x : list X) (f : X -> fl) : particles :=
  let n := length x in
  mkPart x (repeat (Fin 0) n) (repeat (Fin (1 / INR n)%R) n) (repeat (Fin (1 / INR n)%R) n) f.
(** 193-219 set_logpdf, set_logpdf_with_parameter *)
Definition set_logpdf (f : X -> fl) (s : particles) : particles := mkPart (px s) (plogpx s) (pw s) (pw_tmp s) f.
(** 221-226 reweight *)
Definition reweight (update : bool) (s : particles) : particles :=
  let new := map (plogpdf s) (px s) in
  let wt := zip2 fl_mul (pw s) (zip2 (fun a b => fl_exp (fl_sub a b)) new (plogpx s)) in
  if update then mkPart (px s) new wt wt (plogpdf s) else mkPart (px s) (plogpx s) (pw s) wt (plogpdf s).
(** 228-234 ess *)
Definition ess (s : particles) : fl :=
  let normalization := fl_sum (map (fun v => fl_mul v v) (pw_tmp s)) in
  match normalization with
  | Fin v => if reqb v 0%R then Fin 0 else fl_div (let t := fl_sum (pw_tmp s) in fl_mul t t) normalization
  | _ => fl_div (let t := fl_sum (pw_tmp s) in fl_mul t t) normalization
  end.
(** 276-284 and 342-350: the copy loop; position j is written counts[j] times *)
Fixpoint copy_loop {V} (l : list V) (counts : list nat) : list V :=
  match l, counts with a :: l, c :: counts => repeat a c ++ copy_loop l counts | _, _ => [] end.
(** the output arrays have n rows: too many copies is an IndexError (None), rows that are not written keep
    the content of gnp.empty, shown as None inside the list *)
Definition into_rows {V} (n : nat) (l : list V) : option (list (option V)) :=
  if length l <=? n then Some (map Some l ++ repeat None (n - length l)) else None.
Fixpoint all_written {V} (l : list (option V)) : option (list V) :=
  match l with [] => Some [] | Some a :: l => option_map (cons a) (all_written l) | None :: _ => None end.
(** 259-263, 302-306 p: normalised w_tmp, uniform if all weights vanish; None when some weight is not finite
    (0/0 and inf/inf probabilities, refused by the multinomial generator) *)
Definition probs (s : particles) : option (list R) :=
  match fins_of (pw_tmp s) with
  | None => None
  | Some w =>
      let n := length (px s) in
      let t := sum_list w in
      Some (if reqb t 0%R then repeat (1 / INR n)%R n else map (fun v => v / t)%R w)
  end.
(** after the counts are known, 276-289; None: exception, or a row left unwritten *)
Definition resample_with (counts : list nat) (s : particles) : option particles :=
  let n := length (px s) in
  match into_rows n (copy_loop (combine (px s) (plogpx s)) counts) with
  | None => None
  | Some rows =>
      match all_written rows with
      | None => None
      | Some l => Some (mkPart (map fst l) (map snd l) (repeat (Fin (1 / INR n)%R) n) (repeat (Fin (1 / INR n)%R) n) (plogpdf s))
      end
  end.
(** 250-289 multinomial_resample; [draw n p] is scipy.stats.multinomial.rvs *)
Definition multinomial_resample (draw : nat -> list R -> list nat) (s : particles) : option particles :=
  match probs s with
  | None => None
  | Some p => resample_with (draw (length (px s)) p) s
  end.
(** 291-355 residual_resample *)
Definition floor_nat (v : R) : nat := Z.to_nat (Int_part v).
Definition residual_counts (draw : nat -> list R -> list nat) (n : nat) (p : list R) : list nat :=
  let det := map (fun v => floor_nat (INR n * v)%R) p in
  let n_det := list_sum det in
  let n_res := (n - n_det)%nat in
  let res := zip2 (fun v c => Rmax (INR n * v - INR c)%R 0%R) p det in
  let total := sum_list res in
  let pv := if reqb total 0%R then map (fun _ => 1 / INR (length res))%R res else map (fun v => v / total)%R res in
  let cres := if (0 <? n_res) then draw n_res pv else map (fun _ => 0) det in
  zip2 Nat.add det cres.
Definition residual_resample (draw : nat -> list R -> list nat) (s : particles) : option particles :=
  match probs s with
  | None => None
  | Some p => resample_with (residual_counts draw (length (px s)) p) s
  end.
(** 236-248 resample; an unknown scheme raises (AttributeError, self.resample_scheme does not exist) *)
Inductive scheme := Multinomial | Residual | Unknown.
Definition resample (sch : scheme) (draw : nat -> list R -> list nat) (s : particles) : option particles :=
  match sch with
  | Multinomial => multinomial_resample draw s
  | Residual => residual_resample draw s
  | Unknown => None
  end.
(** 419-447 move; [ys] = perturb(), [us] the uniforms *)
Definition accept (u : R) (lpy lpx : fl) : bool := fl_lt (fl_ln (Fin u)) (fl_sub lpy lpx).
Definition move_one (f : X -> fl) (x : X) (lx : fl) (y : X) (u : R) : X * fl * bool :=
  if accept u (f y) lx then (y, f y, true) else (x, lx, false).
Fixpoint move_rows (f : X -> fl) (xs : list X) (ls : list fl) (ys : list X) (us : list R) : list (X * fl * bool) :=
  match xs, ls, ys, us with
  | x :: xs, l :: ls, y :: ys, u :: us => move_one f x l y u :: move_rows f xs ls ys us
  | _, _, _, _ => []
  end.
Definition move (ys : list X) (us : list R) (s : particles) : particles * R :=
  let rows := move_rows (plogpdf s) (px s) (plogpx s) ys us in
  (mkPart (map (fun r => fst (fst r)) rows) (map (fun r => snd (fst r)) rows) (pw s) (pw_tmp s) (plogpdf s),
   (INR (length (filter (fun r => snd r) rows)) / INR (length (px s)))%R).

(** ** SMC *)
(** proposals and uniforms of one move, chosen knowing the current particles *)
Definition mover := particles -> list X * list R.
Definition apply_move (m : mover) (s : particles) : particles :=
  let '(ys, us) := m s in fst (move ys us s).
(** 609-664 step; [moves] are all the moves made in the tuning phase and after it *)
Definition step (sch : scheme) (logpdf : R -> X -> fl) (draw : nat -> list R -> list nat) (moves : list mover)
  (param : R) (s : particles) : option particles :=
  let s1 := reweight true (set_logpdf (logpdf param) s) in
  match resample sch draw s1 with
  | None => None
  | Some s2 => Some (fold_left (fun s m => apply_move m s) moves s2)
  end.
(** 954-984 compute_p_value *)
Definition p_value (logpdf : R -> X -> fl) (s : particles) (new cur : R) : fl :=
  fl_div (fl_sum (map (fun x => fl_exp (fl_sub (logpdf new x) (logpdf cur x))) (px s))) (Fin (INR (length (px s)))).
(** 986-1057 compute_next_logpdf_param_p0; [pv] is p -> compute_p_value; the while loop gets fuel *)
Definition close_to (p : fl) (p0 : R) : bool := fl_lt (match fl_sub p (Fin p0) with Fin v => Fin (Rabs v) | NaN => NaN | _ => PInf end) (Fin (1 / 20)%R).
Fixpoint bisect (fuel : nat) (pv : R -> fl) (p0 low high : R) : option R :=
  match fuel with
  | 0 => None
  | S fuel =>
      let mid := ((high + low) / 2)%R in
      let p := pv mid in
      if close_to p p0 then Some mid
      else if fl_lt p (Fin p0) then bisect fuel pv p0 low mid else bisect fuel pv p0 mid high
  end.
Definition next_param_p0 (fuel : nat) (pv : R -> fl) (cur target p0 : R) : option R :=
  if fl_le (Fin p0) (pv target) then Some target else bisect fuel pv p0 cur target.
(** 863-952 compute_next_logpdf_param_ess; [d] is compute_delta_eta, [brentq] the root finder *)
Definition next_param_ess (brentq : R -> R -> R) (d : R -> fl) (cur target : R) : R :=
  if fl_lt (Fin 0) (d target) then target
  else
    let low := Rmin target cur in
    let high := Rmax target cur in
    if fl_lt (Fin 0) (fl_mul (d low) (d high)) then target else brentq low high.
(** 742-827 restart from freshly drawn particles; None: out of fuel or an exception.  [next] is
    compute_next_logpdf_param with its threshold
    (the probes it makes change only w_tmp and the density, which step sets anew); the randomness of iteration k comes from [draws k], [mv k] *)
Fixpoint restart_loop (fuel : nat) (sch : scheme) (logpdf : R -> X -> fl)
  (draws : nat -> nat -> list R -> list nat) (mv : nat -> list mover)
  (next : particles -> R -> option R) (target cur : R) (k : nat) (s : particles) (path : list R)
  : option (list R * particles) :=
  if reqb cur target then Some (path, s)
  else match fuel with
       | 0 => None
       | S fuel =>
           match next s cur with
           | None => None
           | Some t =>
               match step sch logpdf (draws k) (mv k) t s with
               | None => None
               | Some s' => restart_loop fuel sch logpdf draws mv next target t (S k) s' (path ++ [t])
               end
           end
       end.
Definition restart fuel sch logpdf draws mv next (initial target : R) (x : list X) : option (list R * particles) :=
  restart_loop fuel sch logpdf draws mv next target initial 0
    (reweight false (set_logpdf (logpdf initial) (particles_init x (logpdf initial)))) [initial].
(** 666-740 step_with_possible_restart *)
Definition step_with_possible_restart fuel sch logpdf draws mv next (initial target min_ess_ratio : R)
  (x : list X) (s : particles) : option particles :=
  let s1 := reweight false (set_logpdf (logpdf target) s) in
  if fl_lt (fl_div (ess s1) (Fin (INR (length (px s))))) (Fin min_ess_ratio)
  then option_map snd (restart fuel sch logpdf draws mv next initial target x)
  else step sch logpdf (draws 0) (mv 0) target s1.

(** ** scaling of the proposal, perturb 369-374 and move_with_controlled_acceptation_rate 829-861:
    [rates] are the acceptance rates the successive moves would give; result: the final param_s and the number
    of moves made, or None for ParticlesSetError *)
Fixpoint tune (fuel : nat) (lower upper factor rmin rmax : R) (rates : nat -> R) (k : nat) (s : R) : option (R * nat) :=
  match fuel with
  | 0 => Some (s, k)
  | S fuel =>
      if (rltb upper s || rltb s lower)%bool then None
      else if rltb (rates k) rmin then tune fuel lower upper factor rmin rmax rates (S k) (s / factor)%R
      else if rltb rmax (rates k) then tune fuel lower upper factor rmin rmax rates (S k) (s * factor)%R
      else Some (s, S k)
  end.

(** ** subset simulation, 1345-1468 *)
Variable perf : X -> R.
Variable log_px : X -> fl.
(** 1345-1359 log_indicator_density; [far] stands for -1e100 *)
Definition far : R := (- 10 ^ 100)%R.
Definition log_indicator (upper : bool) (threshold : R) (x : X) : fl :=
  if (if upper then rltb threshold (perf x) else rltb (perf x) threshold) then log_px x else Fin far.
(** one stage, 1434-1461: w_sum (the division of w by w_sum is omitted, resampling uses w_tmp and resets w) and the particles after resampling and moves *)
Definition subset_stage (sch : scheme) (upper : bool) (draw : nat -> list R -> list nat) (moves : list mover) (u : R) (s : particles)
  : fl * option particles :=
  let s1 := reweight true (set_logpdf (log_indicator upper u) s) in
  (fl_sum (pw s1),
   match resample sch draw s1 with
   | None => None
   | Some s2 => Some (fold_left (fun s m => apply_move m s) moves s2)
   end).
Fixpoint subset_run (sch : scheme) (upper : bool) (draws : nat -> nat -> list R -> list nat) (mv : nat -> list mover)
  (us : list R) (k : nat) (s : particles) : option (list fl) :=
  match us with
  | [] => Some []
  | u :: us' =>
      match subset_stage sch upper (draws k) (mv k) u s with
      | (_, None) => None
      | (p, Some s') => option_map (cons p) (subset_run sch upper draws mv us' (S k) s')
      end
  end.
Definition fl_prod (l : list fl) : fl := fold_left fl_mul l (Fin 1).
End Smc.
Arguments px {X}. Arguments plogpx {X}. Arguments pw {X}. Arguments pw_tmp {X}. Arguments plogpdf {X}.
