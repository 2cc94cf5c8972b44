(** Model of the text shown to a user: gpmp/misc/dataframe.py 15-33 (ftos) and 84-99
    (DataFrame.__repr__), gpmp/parameter/param.py 269-302 (Param.__repr__) and
    gpmp/modeldiagnosis/utils.py 122-153 (pretty_print_dictionary).  Definitions only.
    Simplified: numbers are exact reals plus the special values; Python's rounding of a
    positive real to an integer in the [.kf] format is the argument [rnd]. *)
From Coq Require Import String Ascii List Arith ZArith Bool Reals.
From Verif Require Import FlModel ConfigModel FrameModel.
Import ListNotations.
Local Open Scope string_scope.

(** a call returns text or raises *)
Inductive shown (A : Type) := Shown (a : A) | ValueError | IndexError.
Arguments Shown {A} a. Arguments ValueError {A}. Arguments IndexError {A}.
Definition sbind (A B : Type) (m : shown A) (f : A -> shown B) : shown B :=
  match m with Shown a => f a | ValueError => ValueError | IndexError => IndexError end.
Arguments sbind {A B} m f.
(** list comprehension: the first element that raises decides *)
Fixpoint smap (A B : Type) (f : A -> shown B) (l : list A) : shown (list B) :=
  match l with
  | [] => Shown []
  | a :: r => sbind (f a) (fun b => sbind (smap A B f r) (fun t => Shown (b :: t)))
  end.
Arguments smap {A B} f l.

(** Decimal digits of an integer: [k] digits with leading zeros, and [str(m)]. *)
Definition digit (d : Z) : ascii := ascii_of_nat (48 + Z.to_nat d).
Definition one (c : ascii) : string := String c EmptyString.
Fixpoint zpad (k : nat) (m : Z) : string :=
  match k with
  | O => ""
  | S k' => zpad k' (m / 10)%Z ++ one (digit (m mod 10)%Z)
  end.
Fixpoint zdig (fuel : nat) (m : Z) : string :=
  match fuel with
  | O => ""
  | S f => (if (m <? 10)%Z then "" else zdig f (m / 10)%Z) ++ one (digit (m mod 10)%Z)
  end.
Definition nstr (m : Z) : string := zdig (S (Z.to_nat m)) m.
Definition zstr (z : Z) : string := if (z <? 0)%Z then "-" ++ nstr (- z) else nstr z.

(** [f"{x:.{k}f}"] *)
Definition fixed (rnd : R -> Z) (k : nat) (x : R) : string :=
  let m := rnd (Rabs x * 10 ^ k)%R in
  let u := (10 ^ Z.of_nat k)%Z in
  (if rltb x 0 then "-" else "") ++ nstr (m / u)%Z ++
  (if Nat.eqb k 0 then "" else "." ++ zpad k (m mod u)%Z).

(** ftos, dataframe.py 15-33; [math.floor(math.log10(nan))] is a ValueError (31) *)
Definition ftos (rnd : R -> Z) (fp : nat) (v : fl) : shown string :=
  match v with
  | PInf => Shown "+Inf"
  | NInf => Shown "-Inf"
  | NaN => ValueError
  | Fin x =>
      let a := Rabs x in
      if reqb x 0 then Shown "0.0"
      else if rleb (1 / 10) a && rltb a 1000 then Shown (fixed rnd fp x)
      else if rleb (1 / 100) a && rltb a (1 / 10) then Shown (fixed rnd (S fp) x)
      else let e := Int_part (ln a / ln 10)%R in
           Shown (fixed rnd fp (x / powerRZ 10 e)%R ++ "e" ++ zstr e)
  end.

(** [str.rjust] *)
Fixpoint spaces (n : nat) : string := match n with O => "" | S k => String " "%char (spaces k) end.
Definition rjust (w : nat) (s : string) : string := spaces (w - String.length s) ++ s.
(** [zip] of widths and cells, then [sep.join] *)
Definition layout (sep : string) (ws : list nat) (row : list string) : string :=
  String.concat sep (map (fun p => rjust (fst p) (snd p)) (combine ws row)).
Definition newline : string := one (ascii_of_nat 10).

(** rows of text of DataFrame.__repr__, dataframe.py 86-89: for a one-dimensional array
    [shape[1]] raises as soon as there is an entry *)
Definition repr_body (rnd : R -> Z) (d : frame fl) : shown (list (list string)) :=
  match f_data d with
  | D1 [] => Shown []
  | D1 (_ :: _) => IndexError
  | D2 rows =>
      smap (fun ir => match nth_error (f_rownames d) (fst ir) with
                      | None => IndexError
                      | Some n => sbind (smap (ftos rnd 3) (snd ir)) (fun t => Shown ((n ++ ":") :: t))
                      end) (combine (seq 0 (length rows)) rows)
  end.
(** 91-93: [rows[i][j]] over all rows, for [j] in the range of the header *)
Definition column (rows : list (list string)) (j : nat) : shown (list string) :=
  smap (fun r => match nth_error r j with Some s => Shown s | None => IndexError end) rows.
Definition widest (l : list string) : nat := fold_right Nat.max 0 (map String.length l).
Definition frame_repr (rnd : R -> Z) (d : frame fl) : shown string :=
  sbind (repr_body rnd d) (fun body =>
  let rows := ("" :: f_colnames d) :: body in
  sbind (smap (fun j => sbind (column rows j) (fun c => Shown (Nat.max 8 (widest c))))
              (seq 0 (length ("" :: f_colnames d)))) (fun ws =>
  Shown (String.concat newline (map (layout " " ws) rows)))).

(** Param.__repr__, param.py 269-302: per parameter its name, path, normalization, bounds,
    stored and denormalized value; the [.4g] format of a bound is the argument [fmt] *)
Record entry := mkEntry { e_name : string; e_path : list string; e_norm : string;
                          e_bounds : option (fl * fl); e_value : fl; e_denorm : fl }.
Definition param_row (rnd : R -> Z) (fmt : fl -> string) (e : entry) : shown (list string) :=
  sbind (ftos rnd 3 (e_value e)) (fun v =>
  sbind (ftos rnd 3 (e_denorm e)) (fun w =>
  Shown [e_name e ++ ":"; String.concat "->" (e_path e); e_norm e;
         match e_bounds e with
         | Some (l, h) => "[" ++ fmt l ++ ", " ++ fmt h ++ "]"
         | None => "(-inf, inf)"
         end; v; w])).
Definition param_headers : list string := ["Name:"; "Path"; "Norm"; "Bounds"; "Value"; "Denorm"].
(** 287-291: with no row, [zip] of nothing gives no column and no width *)
Definition param_repr (rnd : R -> Z) (fmt : fl -> string) (es : list entry) : shown string :=
  sbind (smap (param_row rnd fmt) es) (fun data =>
  let ws := match data with
            | [] => []
            | _ => map (fun j => Nat.max (String.length (nth j param_headers ""))
                                         (widest (map (fun r => nth j r "") data))) (seq 0 6)
            end in
  Shown (String.concat newline (layout "    " ws param_headers :: map (layout "    " ws) data))).

(** pretty_print_dictionary, utils.py 122-153: the lines printed; a value is a float or
    something shown by its own text; printing stops at the first value that raises, after
    the earlier lines have been printed *)
Inductive dvalue := DFloat (v : fl) | DOther (s : string).
Definition dict_width (d : list (string * dvalue)) : nat :=
  Nat.max 15 (widest (map fst d) + 2).
Definition dict_line (rnd : R -> Z) (fp w : nat) (kv : string * dvalue) : shown string :=
  match snd kv with
  | DFloat v => sbind (ftos rnd fp v) (fun s => Shown (rjust w (fst kv) ++ ": " ++ s))
  | DOther s => Shown (rjust w (fst kv) ++ ": " ++ s)
  end.
Fixpoint print_lines (rnd : R -> Z) (fp w : nat) (d : list (string * dvalue)) : list string * bool :=
  match d with
  | [] => ([], true)
  | kv :: r => match dict_line rnd fp w kv with
               | Shown l => let (ls, ok) := print_lines rnd fp w r in (l :: ls, ok)
               | _ => ([], false)
               end
  end.
Definition print_dict (rnd : R -> Z) (fp : nat) (d : list (string * dvalue)) : list string * bool :=
  print_lines rnd fp (dict_width d) d.
