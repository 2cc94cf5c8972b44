(** Model of gpmp/mcmc/svgd.py.  Definitions only.  Raised exceptions are [None].  Particles and velocities are real
    (overflow of a velocity, which the code replaces by 0, is not modelled); values of the target are extended floats. *)
From Coq Require Import Reals List Bool Arith ZArith.
From Verif Require Import ConfigModel FlModel PriorModel ParamModel.
Import ListNotations.
Local Open Scope R_scope.

Definition vec : Type := list R.
(** a box bound: a number or an array *)
Inductive side := Scalar (a : R) | Array (l : vec).
(** gnp.asarray(side).reshape(-1), tiled when it has one entry, svgd.py 77-82 *)
Definition flatten (s : side) (dim : nat) : vec :=
  match s with Scalar a => repeat a dim | Array [a] => repeat a dim | Array l => l end.
(** _normalize_bounds 63-86 *)
Definition normalize_bounds (box : side * side) (dim : nat) : option (vec * vec) :=
  match box with
  | (Scalar a, Scalar b) => Some (repeat a dim, repeat b dim)
  | (l, u) => let lo := flatten l dim in let hi := flatten u dim in
              if Nat.eqb (length lo) dim && Nat.eqb (length hi) dim then Some (lo, hi) else None
  end.
(** gnp.clip: minimum(maximum(x, lo), hi) *)
Definition clip1 (x lo hi : R) : R := Rmin (Rmax x lo) hi.
Fixpoint clip (x lo hi : vec) : vec :=
  match x, lo, hi with a :: x', l :: lo', h :: hi' => clip1 a l h :: clip x' lo' hi' | _, _, _ => [] end.
(** _project_to_box 89-96 *)
Definition project (bounds : option (vec * vec)) (xs : list vec) : list vec :=
  match bounds with None => xs | Some (lo, hi) => map (fun x => clip x lo hi) xs end.

(** _annealed_temperature 99-121 *)
Inductive schedule := Linear | Geometric | OtherSchedule.
Definition annealed_temperature (step n_steps : nat) (t0 t1 : R) (s : schedule) : option R :=
  if rleb t0 0 || rleb t1 0 then None
  else if Nat.leb n_steps 1 then Some t1
  else let u := INR step / INR (n_steps - 1) in
       match s with
       | Linear => Some (t0 + u * (t1 - t0))
       | Geometric => Some (t0 * Rpower (t1 / t0) u)
       | OtherSchedule => None
       end.
(** _resolve_preconditioner 124-140 *)
Definition resolve_preconditioner (diag : option vec) (dim : nat) (jitter : R) : option vec :=
  match diag with
  | None => Some (repeat 1 dim)
  | Some d =>
      let d := match d with [a] => repeat a dim | _ => d end in
      if Nat.eqb (length d) dim then
        if existsb (fun a => rleb a 0) d then None else Some (map (fun a => Rmax a jitter) d)
      else None
  end.
(** _safe_value_and_grad 151-166: an exception gives -inf and a zero gradient; so does (up to the value) a value that
    is not finite; entries of the gradient that are not finite become 0 *)
Definition nan_to_num (a : fl) : R := match a with Fin v => v | _ => 0 end.
Definition safe_value_and_grad (vg : option (fl * list fl)) (dim : nat) : fl * vec :=
  match vg with
  | None => (NInf, repeat 0 dim)
  | Some (v, g) => if fl_is_finite v then (v, map nan_to_num g) else (v, repeat 0 dim)
  end.

(** rbf_kernel_matrix 169-238 *)
Definition sq_dist (u v : vec) : R := sum_list (map (fun d => d * d) (zip_with Rminus u v)).
Definition sq_dists (xs : list vec) : list R := concat (map (fun u => map (fun v => sq_dist u v) xs) xs).
(** gnp.percentile(., 50): middle order statistic, or the average of the two middle ones *)
Fixpoint insert (a : R) (l : list R) : list R :=
  match l with [] => [a] | b :: l' => if rleb a b then a :: l else b :: insert a l' end.
Definition isort (l : list R) : list R := fold_right insert [] l.
Definition median (l : list R) : R :=
  let s := isort l in let m := length l in (nth ((m - 1) / 2) s 0 + nth (m / 2) s 0) / 2.
Definition raw_bandwidth (xs : list vec) (bandwidth : option fl) (scale : R) : fl :=
  match bandwidth with
  | None =>
      let pos := filter (fun a => rltb 0 a) (sq_dists xs) in
      match pos with
      | [] => Fin scale
      | _ => let s := ln (INR (length xs) + 1) in
             let s := if rleb s 0 then 1 else s in
             Fin (scale * median pos / s)
      end
  | Some b => fl_mul (Fin scale) b
  end.
Definition effective_bandwidth (xs : list vec) (bandwidth : option fl) (scale : R) (bmin : option R) (jitter : R) : option R :=
  if rleb scale 0 then None
  else if match bmin with Some b => rleb b 0 | None => false end then None
  else
    let h := match raw_bandwidth xs bandwidth scale with
             | Fin h => if rleb h jitter then Rmax scale jitter else h
             | _ => Rmax scale jitter
             end in
    Some (match bmin with Some b => Rmax h b | None => h end).
Definition kernel (h : R) (u v : vec) : R := exp (- sq_dist u v / h).

(** svgd_step 241-356 *)
Record options := mkOptions {
  o_step_size : R; o_bandwidth : option fl; o_scale : R; o_bmin : option R; o_precond : option vec; o_box : option (side * side); o_jitter : R }.
(** a particle with its value and score *)
Record particle := mkParticle { px : vec; pvalue : fl; pscore : vec }.
Definition alive (p : particle) : bool := fl_is_finite (pvalue p).
(** the mask zeroes the kernel entries of dead particles, 323 *)
Definition masked (h : R) (p q : particle) : R := if alive p && alive q then kernel h (px p) (px q) else 0.
Definition denom (ps : list particle) : R := INR (Nat.max (length (filter alive ps)) 1).
(** coordinate c of the velocity of particle p, 330-337 *)
Definition velocity (h : R) (precond : vec) (ps : list particle) (p : particle) (c : nat) : R :=
  if alive p then
    (sum_list (map (fun q => masked h p q * nth c (pscore q) 0) ps) / denom ps
     + 2 / h * sum_list (map (fun q => masked h p q * (nth c (px p) 0 - nth c (px q) 0)) ps) / denom ps) * nth c precond 0
  else 0.
Definition move (h eps : R) (precond : vec) (ps : list particle) (dim : nat) (p : particle) : vec :=
  map (fun c => nth c (px p) 0 + eps * velocity h precond ps p c) (seq 0 dim).
(** the tempered log density, 297-306: -inf outside the box *)
Definition outside (bounds : option (vec * vec)) (x : vec) : bool :=
  match bounds with
  | None => false
  | Some (lo, hi) => existsb (fun b => b) (zip_with rltb x lo) || existsb (fun b => b) (zip_with rltb hi x)
  end.
Definition tempered (log_prob : vec -> option fl) (bounds : option (vec * vec)) (temperature : R) (x : vec) : option fl :=
  if outside bounds x then Some NInf
  else match log_prob x with Some v => Some (fl_div v (Fin temperature)) | None => None end.
Section Step.
(** gnp.value_and_grad of the backend; [None] when it raises *)
Variable value_and_grad : (vec -> option fl) -> vec -> option (fl * list fl).
Definition evaluate (f : vec -> option fl) (dim : nat) (x : vec) : particle :=
  let vg := safe_value_and_grad (value_and_grad f x) dim in mkParticle x (fst vg) (snd vg).
Record step_result := mkStep { sr_next : list vec; sr_bandwidth : R; sr_cloud : list particle; sr_precond : vec }.
Definition svgd_step (log_prob : vec -> option fl) (xs : list vec) (dim : nat) (o : options) (temperature : R) : option step_result :=
  if rleb (o_step_size o) 0 || rleb temperature 0 then None
  else
    match match o_box o with None => Some None | Some b => match normalize_bounds b dim with Some r => Some (Some r) | None => None end end with
    | None => None
    | Some bounds =>
        let xs := project bounds xs in
        match resolve_preconditioner (o_precond o) dim (o_jitter o) with
        | None => None
        | Some precond =>
            match xs with
            | [] => None
            | _ =>
              let ps := map (evaluate (tempered log_prob bounds temperature) dim) xs in
              match effective_bandwidth xs (o_bandwidth o) (o_scale o) (o_bmin o) (o_jitter o) with
              | None => None
              | Some h => Some (mkStep (project bounds (map (move h (o_step_size o) precond ps dim) ps)) h ps precond)
              end
            end
        end
    end.
(** svgd_sample 355-... : the loop over the annealing schedule; returns the final cloud, the temperatures used and the
    clouds after each step *)
Fixpoint svgd_loop (log_prob : vec -> option fl) (dim : nat) (o : options) (temps : list (option R)) (xs : list vec) : option (list vec * list R * list (list vec)) :=
  match temps with
  | [] => Some (xs, [], [])
  | None :: _ => None
  | Some t :: temps' =>
      match svgd_step log_prob xs dim o t with
      | None => None
      | Some r => match svgd_loop log_prob dim o temps' (sr_next r) with
                  | None => None
                  | Some (ys, ts, hist) => Some (ys, t :: ts, sr_next r :: hist)
                  end
      end
  end.
Definition svgd_sample (log_prob : vec -> option fl) (dim : nat) (o : options) (n_steps : nat) (t0 t1 : R) (s : schedule) (xs : list vec) :=
  svgd_loop log_prob dim o (map (fun k => annealed_temperature k n_steps t0 t1 s) (seq 0 n_steps)) xs.
End Step.

(** value_and_grad of the NumPy backend, num/numpy_backend.py 293-327: five-point differences (num/shared.py 44-55) of
    step h in each coordinate; a raising evaluation raises *)
Definition five_point (f : R -> option fl) (x h : R) : option fl :=
  match f (x - 2 * h), f (x - h), f (x + h), f (x + 2 * h) with
  | Some a, Some b, Some c, Some d =>
      Some (fl_div (fl_add (fl_sub (fl_add (fl_opp d) (fl_mul (Fin 8) c)) (fl_mul (Fin 8) b)) a) (Fin (12 * h)))
  | _, _, _, _ => None
  end.
Fixpoint all_some (A : Type) (l : list (option A)) : option (list A) :=
  match l with
  | [] => Some []
  | Some a :: l' => match all_some A l' with Some r => Some (a :: r) | None => None end
  | None :: _ => None
  end.
Arguments all_some {A} l.
Definition numpy_value_and_grad (h : R) (f : vec -> option fl) (x : vec) : option (fl * list fl) :=
  match f x with
  | None => None
  | Some y => match all_some (map (fun i => five_point (fun v => f (upd x i v)) (nth i x 0) h) (seq 0 (length x))) with
              | Some g => Some (y, g)
              | None => None
              end
  end.
