(** Model of the gradients of the NumPy backend (gpmp/num/numpy_backend.py 257-327, gpmp/num/shared.py 44-55), with the array
    that is written and read during the computation.  Definitions only. *)
From Coq Require Import List Arith Reals Bool.
From Verif Require Import DataModel ParamModel ParamMemModel.
Import ListNotations.
Local Open Scope R_scope.

(** What a function handed to [grad] or [value_and_grad] returns.  [Fresh v]: a number, or an array with one element and memory
    of its own.  [View k]: an array with one element that shares the memory of entry k of the argument, as [lambda x: x[:1]]
    or [lambda x: x[..., 0]] return.  [NotScalar]: anything else. *)
Inductive fret := Fresh (v : R) | View (k : nat) | NotScalar.
(** the number such a result stands for once the argument contains [buf]; None: ValueError.
    [_coerce_scalar_like] 305-313: [reshape(y_, ())] of an array with one element is a view of it *)
Definition deref (buf : list R) (r : fret) : option R :=
  match r with Fresh v => Some v | View k => nth_error buf k | NotScalar => None end.
(** the last line of [derivative_finite_diff], shared.py 55 *)
Definition stencil (h : R) (p2 p1 m1 m2 : option R) : option R :=
  match p2, p1, m1, m2 with
  | Some a, Some b, Some c, Some d => Some ((- a + 8 * b - 8 * c + d) / (12 * h))
  | _, _, _, _ => None
  end.

(** One turn of the loop of [value_and_grad] 318-326.  The four calls of f (shared.py 51-54) write the same array [x_tmp] and
    hand it to f; the results are combined after the fourth call, when x_tmp contains x - 2 h. Returns the entry of the gradient
    and x_tmp after [x_tmp[idx] = x[idx]].  An integer array truncates what is written into it ([cast]). *)
Definition vg_step (t : dtype) (f : list R -> fret) (h : R) (x tmp : list R) (i : nat) : option R * list R :=
  let xi := nth i x 0 in
  let b1 := upd tmp i (cast t (xi + 2 * h)) in
  let b2 := upd b1 i (cast t (xi + h)) in
  let b3 := upd b2 i (cast t (xi - h)) in
  let b4 := upd b3 i (cast t (xi - 2 * h)) in
  (stencil h (deref b4 (f b1)) (deref b4 (f b2)) (deref b4 (f b3)) (deref b4 (f b4)), upd b4 i xi).
Fixpoint vg_loop (t : dtype) (f : list R -> fret) (h : R) (x tmp : list R) (is_ : list nat) : option (list R) :=
  match is_ with
  | [] => Some []
  | i :: r => match vg_step t f h x tmp i with
              | (None, _) => None
              | (Some d, tmp') => match vg_loop t f h x tmp' r with Some g => Some (d :: g) | None => None end
              end
  end.
(** [value_and_grad] 293-327 on a one-dimensional array of type [t] with entries x; None: ValueError.  The gradient is an array
    of floats whatever the type of x (316). *)
Definition np_value_and_grad (t : dtype) (f : list R -> fret) (h : R) (x : list R) : option (R * list R) :=
  match deref x (f x) with
  | None => None
  | Some y => match vg_loop t f h x x (seq 0 (length x)) with Some g => Some (y, g) | None => None end
  end.

(** [grad] 257-291: each call of f receives a copy of x of its own (283-286), so views of it keep their value; the gradient has
    the type of x (276: [zeros_like(x_arr)]).  An array whose size is not one cannot be assigned to an entry (289: ValueError). *)
Definition g_entry (t : dtype) (f : list R -> fret) (h : R) (x : list R) (i : nat) : option R :=
  let at_ v := let b := upd x i (cast t v) in deref b (f b) in
  let xi := nth i x 0 in
  match stencil h (at_ (xi + 2 * h)) (at_ (xi + h)) (at_ (xi - h)) (at_ (xi - 2 * h)) with
  | Some d => Some (cast t d)
  | None => None
  end.
Fixpoint g_loop (t : dtype) (f : list R -> fret) (h : R) (x : list R) (is_ : list nat) : option (list R) :=
  match is_ with
  | [] => Some []
  | i :: r => match g_entry t f h x i, g_loop t f h x r with Some d, Some g => Some (d :: g) | _, _ => None end
  end.
Definition np_grad (t : dtype) (f : list R -> fret) (h : R) (x : list R) : option (list R) :=
  g_loop t f h x (seq 0 (length x)).
