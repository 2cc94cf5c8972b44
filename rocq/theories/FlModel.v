(** Extended real arithmetic used to model NumPy / Torch floating point scalars:
    reals, the two infinities and NaN, with the IEEE 754 rules for the special
    values.  Rounding, overflow and signed zeros are not modelled (a zero
    divisor behaves as +0).  Definitions only. *)
From Coq Require Import List Reals Bool.
From Verif Require Import ConfigModel.
Import ListNotations.
Local Open Scope R_scope.

Definition rltb (a b : R) : bool := if Rlt_dec a b then true else false.
Definition rleb (a b : R) : bool := if Rle_dec a b then true else false.
Definition reqb (a b : R) : bool := if Req_EM_T a b then true else false.

Definition fl_opp (a : fl) : fl :=
  match a with Fin x => Fin (- x) | PInf => NInf | NInf => PInf | NaN => NaN end.
Definition fl_add (a b : fl) : fl :=
  match a, b with
  | NaN, _ | _, NaN => NaN
  | PInf, NInf | NInf, PInf => NaN
  | PInf, _ | _, PInf => PInf
  | NInf, _ | _, NInf => NInf
  | Fin x, Fin y => Fin (x + y)
  end.
Definition fl_sub (a b : fl) : fl := fl_add a (fl_opp b).
(** sign of a number that is not NaN *)
Definition fl_sgn (a : fl) : Z :=
  match a with
  | Fin x => if rltb 0 x then 1 else if rltb x 0 then -1 else 0
  | PInf => 1
  | NInf => -1
  | NaN => 0
  end%Z.
Definition fl_mul (a b : fl) : fl :=
  match a, b with
  | NaN, _ | _, NaN => NaN
  | Fin x, Fin y => Fin (x * y)
  | _, _ => match (fl_sgn a * fl_sgn b)%Z with
            | Z0 => NaN
            | Zpos _ => PInf
            | Zneg _ => NInf
            end
  end.
Definition fl_div (a b : fl) : fl :=
  match a, b with
  | NaN, _ | _, NaN => NaN
  | Fin x, Fin y =>
      if reqb y 0 then (if rltb 0 x then PInf else if rltb x 0 then NInf else NaN) else Fin (x / y)
  | Fin _, _ => Fin 0
  | _, Fin y => if rltb y 0 then fl_opp a else a
  | _, _ => NaN
  end.
Definition fl_ln (a : fl) : fl :=
  match a with
  | Fin x => if rltb 0 x then Fin (ln x) else if rltb x 0 then NaN else NInf
  | PInf => PInf
  | NInf | NaN => NaN
  end.
Definition fl_exp (a : fl) : fl :=
  match a with Fin x => Fin (exp x) | PInf => PInf | NInf => Fin 0 | NaN => NaN end.
(** numpy.maximum / minimum: NaN if either operand is NaN *)
Definition fl_max (a b : fl) : fl :=
  match a, b with NaN, _ | _, NaN => NaN | _, _ => if fl_le a b then b else a end.
Definition fl_min (a b : fl) : fl :=
  match a, b with NaN, _ | _, NaN => NaN | _, _ => if fl_le a b then a else b end.
Definition fl_sum (l : list fl) : fl := fold_left fl_add l (Fin 0).
Definition fl_is_finite (a : fl) : bool := match a with Fin _ => true | _ => false end.
Definition fl_is_nan (a : fl) : bool := match a with NaN => true | _ => false end.
