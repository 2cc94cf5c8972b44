(** Model of the dtype argument of gnp.asarray / gnp.array and of the functions that create arrays (full, linspace, logspace, meshgrid)
    in the two backends.  Definitions only.  Exact arithmetic for the grids; numpy.full, numpy.linspace, numpy.logspace,
    numpy.meshgrid and their Torch namesakes enter by their documented values. *)
From Coq Require Import List Arith ZArith Reals Bool Ascii String.
From Verif Require Import ConfigModel ConvModel.
Import ListNotations.
Local Open Scope R_scope.

(** a dtype argument: a torch.dtype; the Python types float, int, bool; anything else, known by its str() *)
Inductive dtarg := DTorch (d : dtype) | DFloat | DInt | DBool | DStr (s : string).

(** str.lower on ASCII *)
Definition lower_char (c : ascii) : ascii :=
  let n := nat_of_ascii c in if ((65 <=? n) && (n <=? 90))%nat then ascii_of_nat (n + 32) else c.
Fixpoint lower (s : string) : string := match s with EmptyString => EmptyString | String c s => String (lower_char c) (lower s) end.
(** Python's p in s *)
Fixpoint starts (p s : string) : bool :=
  match p, s with
  | EmptyString, _ => true
  | String c p, String d s => Ascii.eqb c d && starts p s
  | _, _ => false
  end.
Fixpoint contains (p s : string) : bool := starts p s || match s with EmptyString => false | String _ s => contains p s end.

(** torch_backend.py 192-214; None: the argument itself is returned, which Tensor.to and torch.tensor refuse with TypeError *)
Definition resolve (a : dtarg) : option dtype :=
  match a with
  | DTorch d => Some d
  | DFloat => Some F64
  | DInt => Some I64
  | DBool => Some B8
  | DStr s =>
      let l := lower s in
      if contains "float32" l then Some F32
      else if contains "float64" l || contains "double" l then Some F64
      else if contains "int64" l || contains "long" l then Some I64
      else if contains "int32" l then Some I32
      else if contains "bool" l then Some B8
      else None
  end.
(** torch_backend.py 217-244 with a dtype *)
Definition torch_asarray_as rnd32 dbl odd (a : dtarg) (x : obj) (m : mem) : option (arr * mem) :=
  match resolve a with Some d => torch_asarray rnd32 dbl odd (Some d) x m | None => None end.
(** ndarray.astype from int64 to an unsigned type with the given number of bits (numpy_backend.py 175-176) *)
Definition np_unsigned (bits z : Z) : Z := (z mod 2 ^ bits)%Z.

(** the type of gnp.full(shape, v): numpy_backend.py 199-202; torch.full, imported at torch_backend.py 88 *)
Definition full_type (b : backend) (v : val) : dtype := match b with NumPy => F64 | Torch => py_type v end.
(** a = gnp.full(shape, v); a[i] = r; the element read back *)
Definition full_then_set rnd32 dbl odd (b : backend) (v : val) (r : R) : val := cast rnd32 dbl odd (full_type b v) (VF (Fin r)).

(** element i of gnp.linspace(a, b, n): numpy_backend.py 211-220 *)
Definition np_linspace (a b : R) (n i : nat) : R := if (n <=? 1)%nat then a else a + INR i * ((b - a) / INR (n - 1)).
(** torch.linspace (imported at torch_backend.py 93): from both ends to the middle *)
Definition torch_linspace (a b : R) (n i : nat) : R :=
  if (n <=? 1)%nat then a
  else let step := (b - a) / INR (n - 1) in if (i <? n / 2)%nat then a + step * INR i else b - step * INR (n - 1 - i).
Definition linspace (k : backend) := match k with NumPy => np_linspace | Torch => torch_linspace end.
(** gnp.logspace(a, b, n), base 10: numpy_backend.py 222-231; torch_backend.py 94 *)
Definition logspace (k : backend) (a b : R) (n i : nat) : R := Rpower 10 (linspace k a b n i).

(** gnp.meshgrid(x, y): rows of the first array returned, then of the second; numpy.meshgrid has indexing='xy' as its default,
    torch.meshgrid (torch_backend.py 95) 'ij' *)
Inductive indexing := XY | IJ.
Definition meshgrid (b : backend) (ix : option indexing) (x y : list R) : list (list R) * list (list R) :=
  match ix, b with
  | Some IJ, _ | None, Torch => (map (fun u => map (fun _ => u) y) x, map (fun _ => y) x)
  | Some XY, _ | None, NumPy => (map (fun _ => x) y, map (fun v => map (fun _ => v) x) y)
  end.
