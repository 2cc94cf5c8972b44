(** Model of SecondOrderDifferentiableFunction of gpmp/num/torch_backend.py 721-779, used by fisher_information_torch (gpmp/core/fisher.py
    187-190): an object that stores the point, the value and the gradient of the last calls.  Definitions only.  torch.autograd.grad enters by
    its documented behaviour: it raises for an output that is not one number or that was not computed from the input, and gives None for an unused
    input when allow_unused=True.  Simplified: points are vectors; gradient() is called with its default retain=True. *)
From Coq Require Import List Arith Reals Bool.
Import ListNotations.
Local Open Scope R_scope.

(** what the function of the user returns: it raises, or a tensor, which may have no axis (dim0) and one element (one) of value y *)
Inductive out := Fails | Tensor (dim0 one : bool) (y : R).
Inductive call := Evaluate (x : list R) | Gradient | Hessian.
Inductive ans := Number (y : R) | Vector (l : list R) | Matrix (m : list (list R)) | ErrUser | ErrValue | ErrRuntime.

(** the attributes _x, _y, _grad: numbers of the tensors they were computed from; fresh: the next number *)
Record st := St { sx : option (nat * list R); sy : option (nat * list R * out); sg : option (nat * list R); fresh : nat }.
Definition init : st := St None None None 0.

Section Sodf.
(** f; whether f(x) is computed from x by recorded operations; its gradient; the derivatives of entry i of the gradient, None when that
    entry is not computed from x by recorded operations *)
Variables (f : list R -> out) (uses : list R -> bool) (gr : list R -> list R) (hs : list R -> nat -> option (list R)).

Fixpoint rows (x : list R) (l : list nat) : option (list (list R)) :=
  match l with
  | [] => Some []
  | i :: l => match hs x i, rows x l with Some r, Some m => Some (r :: m) | _, _ => None end
  end.
(** 776-777: 0.5 * (hessian + hessian.T) *)
Definition symmetrised (n : nat) (m : list (list R)) : list (list R) :=
  map (fun i => map (fun j => 1 / 2 * (nth j (nth i m []) 0 + nth i (nth j m []) 0)) (seq 0 n)) (seq 0 n).

(** evaluate 736-745, gradient 747-756, hessian 758-779 *)
Definition step (c : call) (s : st) : ans * st :=
  match c with
  | Evaluate x =>
      let k := fresh s in
      match f x with
      | Fails => (ErrUser, St (Some (k, x)) (sy s) (sg s) (S k))
      | Tensor dim0 one y => (if dim0 then Number y else ErrValue, St (Some (k, x)) (Some (k, x, Tensor dim0 one y)) (sg s) (S k))
      end
  | Gradient =>
      match sy s, sx s with
      | Some (k, x, Tensor _ one _), Some (k', _) =>
          if one && Nat.eqb k k' && uses x then (Vector (gr x), St (sx s) (sy s) (Some (k, x)) (fresh s)) else (ErrRuntime, s)
      | _, _ => (ErrRuntime, s)
      end
  | Hessian =>
      match sg s, sx s with
      | Some (k, x), Some (k', x') =>
          match x' with
          | [] => (Matrix [], s)
          | _ => if Nat.eqb k k'
                 then match rows x (seq 0 (length x')) with Some m => (Matrix (symmetrised (length x') m), s) | None => (ErrRuntime, s) end
                 else (ErrRuntime, s)
          end
      | _, _ => (ErrRuntime, s)
      end
  end.
Fixpoint run (l : list call) (s : st) : st := match l with [] => s | c :: l => run l (snd (step c s)) end.
(** the answer to a call made after the calls of l on a new object *)
Definition reply (l : list call) (c : call) : ans := fst (step c (run l init)).

(** fisher.py 187-190 *)
Definition fisher_torch (theta : list R) : ans :=
  match reply [] (Evaluate theta), reply [Evaluate theta] Gradient with
  | Number _, Vector _ => match reply [Evaluate theta; Gradient] Hessian with
                          | Matrix m => Matrix (map (map (fun v => 1 / 2 * v)) m)
                          | a => a
                          end
  | Number _, a => a
  | a, _ => a
  end.
End Sodf.
