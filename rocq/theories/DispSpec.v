(** How a reader understands the displayed text: a decimal number with an optional sign,
    fractional part and power of ten; and where a cell sits in a line of a table.
    Independent of the functions that produce the text. *)
From Coq Require Import String Ascii List Arith ZArith Bool Reals.
Import ListNotations.
Local Open Scope string_scope.

Definition digit_value (c : ascii) : option Z :=
  let n := Z.of_nat (nat_of_ascii c) in
  if ((48 <=? n) && (n <=? 57))%Z then Some (n - 48)%Z else None.
Fixpoint read_digits (acc : Z) (s : string) : option Z :=
  match s with
  | "" => Some acc
  | String c r => match digit_value c with Some d => read_digits (10 * acc + d) r | None => None end
  end.
Definition read_nat (s : string) : option Z :=
  match s with "" => None | _ => read_digits 0 s end.
(** the text before and after the first occurrence of a character *)
Fixpoint cut (c : ascii) (s : string) : string * option string :=
  match s with
  | "" => ("", None)
  | String a r => if Ascii.eqb a c then ("", Some r)
                  else let (x, y) := cut c r in (String a x, y)
  end.
Definition read_unsigned (s : string) : option R :=
  match cut "." s with
  | (a, None) => option_map IZR (read_nat a)
  | (a, Some b) => match read_nat a, read_nat b with
                   | Some i, Some f => Some (IZR i + IZR f / 10 ^ String.length b)%R
                   | _, _ => None
                   end
  end.
Definition read_decimal (s : string) : option R :=
  match s with
  | String "-" r => option_map Ropp (read_unsigned r)
  | _ => read_unsigned s
  end.
Definition read_integer (s : string) : option Z :=
  match s with
  | String "-" r => option_map Z.opp (read_nat r)
  | _ => read_nat s
  end.
Definition read_number (s : string) : option R :=
  match cut "e" s with
  | (a, None) => read_decimal a
  | (a, Some b) => match read_decimal a, read_integer b with
                   | Some x, Some e => Some (x * powerRZ 10 e)%R
                   | _, _ => None
                   end
  end.

(** the cells of a line: column [j] has width [nth j ws 0] and starts after the previous
    columns and their separators *)
Fixpoint start_of (gap : nat) (ws : list nat) (j : nat) : nat :=
  match j, ws with
  | S k, w :: r => w + gap + start_of gap r k
  | _, _ => 0
  end.
Definition total_width (gap : nat) (ws : list nat) : nat :=
  fold_right Nat.add 0 ws + gap * (length ws - 1).
(** the text of a cell, padded on the left with spaces to the width of its column *)
Definition padded (w : nat) (cell text : string) : Prop :=
  String.length text = w /\
  exists k, text = fold_right (fun _ t => String " " t) cell (repeat tt k).
