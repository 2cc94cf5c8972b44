(** Model of gpmp/parameter/param.py (class Param and its constructors).  Definitions only.
    Array values are lists of reals; exceptions are [None]; methods that mutate the object
    return the object left behind together with a flag telling whether they raised. *)
From Coq Require Import String Ascii List Arith ZArith Reals Bool.
From Verif Require Import DataModel.
Import ListNotations.
Local Open Scope R_scope.

(** class Normalization 35-38 *)
Inductive normalization := LOG | LOG_INV | NONE.
Definition path := list string.
Definition bound := option (R * R).

Record param := mkParam {
  values : list R; paths : list path; normalizations : list normalization;
  names : list string; bounds : list bound }.

(** [_check_consistency] 98-109 *)
Definition consistent (p : param) : bool :=
  let dim := length (values p) in
  Nat.eqb (length (paths p)) (length (names p)) &&
  Nat.eqb (length (names p)) (length (normalizations p)) &&
  Nat.eqb (length (normalizations p)) (length (bounds p)) &&
  Nat.eqb (length (bounds p)) dim.

(** [__init__] 42-74 with every field given (normalisations already parsed) *)
Definition param_init (v : list R) (ps : list path) (ns : list normalization)
    (nm : list string) (bs : list bound) : option param :=
  let p := mkParam v ps ns nm bs in if consistent p then Some p else None.

(** lower() and [_parse_normalizations] 76-96 on a string *)
Definition lower_ascii (c : ascii) : ascii :=
  let n := nat_of_ascii c in
  if (65 <=? n)%nat && (n <=? 90)%nat then ascii_of_nat (n + 32) else c.
Fixpoint lower (s : string) : string :=
  match s with EmptyString => EmptyString | String c r => String (lower_ascii c) (lower r) end.
Definition parse_normalization (s : string) : option normalization :=
  let n := lower s in
  if String.eqb n "log" then Some LOG
  else if String.eqb n "log_inv" then Some LOG_INV
  else if String.eqb n "none" then Some NONE
  else None.

(** [_normalize] 141-146, [_denormalize] 148-153 *)
Definition normalize (v : R) (n : normalization) : R :=
  match n with LOG => ln v | LOG_INV => - ln v | NONE => v end.
Definition denormalize (v : R) (n : normalization) : R :=
  match n with LOG => exp v | LOG_INV => exp (- v) | NONE => v end.

(** [zip] of two lists through a function *)
Fixpoint zip_with (A B C : Type) (f : A -> B -> C) (l : list A) (k : list B) : list C :=
  match l, k with a :: l', b :: k' => f a b :: zip_with A B C f l' k' | _, _ => [] end.
Arguments zip_with {A B C} f l k.

(** [denormalized_values] 120-127 and its setter 129-139 *)
Definition denormalized_values (p : param) : list R :=
  zip_with denormalize (values p) (normalizations p).
Definition with_values (p : param) (v : list R) : param :=
  mkParam v (paths p) (normalizations p) (names p) (bounds p).
Definition set_denormalized_values (p : param) (nv : list R) : param * bool :=
  if Nat.eqb (length nv) (length (values p))
  then (with_values p (zip_with normalize nv (normalizations p)), true)
  else (p, false).

Fixpoint path_eqb (a b : path) : bool :=
  match a, b with
  | [], [] => true
  | x :: a', y :: b' => String.eqb x y && path_eqb a' b'
  | _, _ => false
  end.
(** the test of get_by_path/set_by_path 188-191, 209-212 and of
    [indices_by_path_prefix] 167-169 *)
Definition path_match (q : path) (prefix_match : bool) (p : path) : bool :=
  if prefix_match then path_eqb (firstn (length q) p) q else path_eqb p q.
(** [[i for i, p in enumerate(l) if f p]] *)
Fixpoint enum_filter (A : Type) (f : A -> bool) (i : nat) (l : list A) : list nat :=
  match l with
  | [] => []
  | a :: r => if f a then i :: enum_filter A f (S i) r else enum_filter A f (S i) r
  end.
Arguments enum_filter {A} f i l.
Definition path_indices (p : param) (q : path) (pm : bool) : list nat :=
  enum_filter (path_match q pm) 0 (paths p).

(** [self._values[indices]] with in-range non-negative indices *)
Fixpoint take (A : Type) (l : list A) (idx : list nat) : option (list A) :=
  match idx with
  | [] => Some []
  | i :: r => match nth_error l i, take A l r with Some a, Some t => Some (a :: t) | _, _ => None end
  end.
Arguments take {A} l idx.

(** [get_by_path] 185-201 with [return_view=False] *)
Definition get_by_path (p : param) (q : path) (pm : bool) : option (list R) :=
  take (values p) (path_indices p q pm).
(** [get_by_path] with [return_view=True]: consecutive indices only; no match is an
    IndexError. *)
Fixpoint consecutive (l : list nat) : bool :=
  match l with
  | a :: ((b :: _) as r) => Nat.eqb b (S a) && consecutive r
  | _ => true
  end.
Definition get_by_path_view (p : param) (q : path) (pm : bool) : option (list R) :=
  let idx := path_indices p q pm in
  if consecutive idx
  then match idx with
       | [] => None
       | i :: _ => Some (py_slice (values p) i (last idx 0%nat + 1))
       end
  else None.
(** [names_by_path_prefix] 171-173 *)
Definition names_by_path_prefix (p : param) (q : path) : option (list string) :=
  take (names p) (path_indices p q true).

(** [self._values[idx] = val] for idx in range *)
Fixpoint upd (A : Type) (l : list A) (i : nat) (v : A) : list A :=
  match l, i with
  | [], _ => []
  | _ :: r, O => v :: r
  | a :: r, S j => a :: upd A r j v
  end.
Arguments upd {A} l i v.

(** [set_by_path] 203-216 *)
Definition set_by_path (p : param) (q : path) (nv : list R) (pm : bool) : param * bool :=
  let indices := path_indices p q pm in
  if Nat.eqb (length indices) (length nv)
  then (with_values p (fold_left (fun v iv => upd v (fst iv) (snd iv)) (combine indices nv) (values p)), true)
  else (p, false).

(** [self.names.index(name)] : first position, ValueError if absent *)
Fixpoint index_of (name : string) (l : list string) : option nat :=
  match l with
  | [] => None
  | a :: r => if String.eqb a name then Some 0%nat
              else match index_of name r with Some i => Some (S i) | None => None end
  end.
(** [get_by_name] 175-179, [set_by_name] 181-183 *)
Definition get_by_name (p : param) (name : string) : option R :=
  match index_of name (names p) with Some i => nth_error (values p) i | None => None end.
Definition set_by_name (p : param) (name : string) (v : R) : param * bool :=
  match index_of name (names p) with
  | Some i => (with_values p (upd (values p) i v), true)
  | None => (p, false)
  end.
(** [set_from_unnormalized] 218-221: the keyword arguments in order *)
Fixpoint set_from_unnormalized (p : param) (kw : list (string * R)) : param * bool :=
  match kw with
  | [] => (p, true)
  | (name, v) :: r =>
      match index_of name (names p) with
      | None => (p, false)
      | Some i =>
          match nth_error (normalizations p) i with
          | None => (p, false)
          | Some n => set_from_unnormalized (with_values p (upd (values p) i (normalize v n))) r
          end
      end
  end.

(** [check_bounds] 223-227 *)
Definition in_bound (v : R) (b : bound) : bool :=
  match b with
  | None => true
  | Some (lo, hi) => if Rle_dec lo v then if Rle_dec v hi then true else false else false
  end.
Definition check_bounds (p : param) : list bool :=
  zip_with in_bound (denormalized_values p) (bounds p).

(** [__getitem__] 229-240; an int i is the index list [i], a slice the list of positions
    it selects ([list(range(dim))[slice]]).  Python indices may be negative. *)
Definition param_getitem (p : param) (index : list Z) : option param :=
  match py_take (values p) index, py_take (paths p) index, py_take (normalizations p) index,
        py_take (names p) index, py_take (bounds p) index with
  | Some v, Some ps, Some ns, Some nm, Some bs => param_init v ps ns nm bs
  | _, _, _, _, _ => None
  end.

(** [concat] 245-252; [gnp.concatenate] of an empty list raises *)
Definition param_concat (ps : list param) : option param :=
  match ps with
  | [] => None
  | _ => param_init (concat (map values ps)) (concat (map paths ps))
           (concat (map normalizations ps)) (concat (map names ps)) (concat (map bounds ps))
  end.

(** str(i) *)
Definition digit (n : nat) : ascii := ascii_of_nat (48 + n).
Fixpoint nat_to_string_aux (fuel n : nat) (acc : string) : string :=
  match fuel with
  | O => acc
  | S f => let acc' := String (digit (n mod 10)) acc in
           match (n / 10)%nat with O => acc' | m => nat_to_string_aux f m acc' end
  end.
Definition nat_to_string (n : nat) : string := nat_to_string_aux (S n) n "".

(** [make_anisotropic_param] 305-339 with [values] given (empty [values] gives d = -1 and a
    ValueError from the consistency check); [param_from_covparam_anisotropic] 342-361 is the
    same function. *)
Definition make_anisotropic_param (v : list R) (logsigma2_bounds loginvrho_bounds : bound)
    (prefix : string) : option param :=
  let d := (length v - 1)%nat in
  param_init v
    ([ "covparam"; "variance" ]%string :: repeat ["covparam"; "lengthscale"]%string d)
    (LOG :: repeat LOG_INV d)
    ((prefix ++ "sigma2")%string :: map (fun i => (prefix ++ "rho_" ++ nat_to_string i)%string) (seq 0 d))
    (logsigma2_bounds :: repeat loginvrho_bounds d).
