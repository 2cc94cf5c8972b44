(** Model of the conversions and small array helpers of gpmp/num/numpy_backend.py and gpmp/num/torch_backend.py: what they
    do to values, types, shapes, memory and gradient flags.  Definitions only.  numpy.asarray, numpy.array, ndarray.astype,
    torch.from_numpy, torch.as_tensor, Tensor.to and Tensor.requires_grad_ enter by their documented effects.  Simplified: five element
    types; an array is the whole of a block of memory, possibly read backwards (negative stride); one device; the NumPy backend is given no tensors. *)
From Coq Require Import List Arith ZArith Reals Bool.
From Verif Require Import ConfigModel.
Import ListNotations.
Local Open Scope R_scope.

Inductive backend := NumPy | Torch.
Inductive dtype := F32 | F64 | I32 | I64 | B8.
Definition is_float (d : dtype) : bool := match d with F32 | F64 => true | _ => false end.
Definition same (d e : dtype) : bool :=
  match d, e with F32, F32 | F64, F64 | I32, I32 | I64, I64 | B8, B8 => true | _, _ => false end.

(** one element *)
Inductive val := VF (x : fl) | VI (z : Z) | VB (b : bool).

(** toward zero *)
Definition trunc (r : R) : Z := if Rle_dec 0 r then Int_part r else (- Int_part (- r))%Z.
Definition in_bits (n z : Z) : bool := ((- 2 ^ (n - 1) <=? z) && (z <? 2 ^ (n - 1)))%Z.
(** the low 32 bits, as a signed number *)
Definition wrap32 (z : Z) : Z := ((z + 2 ^ 31) mod 2 ^ 32 - 2 ^ 31)%Z.

Section Conv.
(** rounding to single precision; integers to double precision; float to integer when the C standard leaves the result open *)
Variables (rnd32 : fl -> fl) (dbl : Z -> fl) (odd : dtype -> fl -> Z).

(** the element conversions of ndarray.astype and Tensor.to *)
Definition to_int (d : dtype) (bits : Z) (x : fl) : Z :=
  match x with Fin r => if in_bits bits (trunc r) then trunc r else odd d x | _ => odd d x end.
Definition nonzero (x : fl) : bool := match x with Fin r => if Req_EM_T r 0 then false else true | _ => true end.
Definition cast (d : dtype) (v : val) : val :=
  match d, v with
  | F64, VF x => VF x
  | F64, VI z => VF (dbl z)
  | F64, VB b => VF (dbl (Z.b2z b))
  | F32, VF x => VF (rnd32 x)
  | F32, VI z => VF (rnd32 (dbl z))
  | F32, VB b => VF (rnd32 (dbl (Z.b2z b)))
  | I64, VF x => VI (to_int I64 64 x)
  | I64, VI z => VI z
  | I64, VB b => VI (Z.b2z b)
  | I32, VF x => VI (to_int I32 32 x)
  | I32, VI z => VI (wrap32 z)
  | I32, VB b => VI (Z.b2z b)
  | B8, VF x => VB (nonzero x)
  | B8, VI z => VB (negb (z =? 0)%Z)
  | B8, VB b => VB b
  end.

(** blocks of memory, the flags requires_grad of the tensor objects, the next free numbers, torch.is_grad_enabled() *)
Record mem := Mem { cells : nat -> list val; flags : nat -> bool; next : nat; nexto : nat; rec : bool }.
(** an array object; kind: numpy.ndarray or torch.Tensor; neg: read backwards; leaf: not the result of a recorded operation *)
Record arr := Arr { kind : backend; ty : dtype; shp : list nat; loc : nat; neg : bool; oid : nat; leaf : bool }.
(** what a user may pass: int, float or bool; a nested list of them; an array *)
Inductive obj := Py (v : val) | Lst (sh : list nat) (l : list val) (d : dtype) | Ar (a : arr).

Definition upd {A} (f : nat -> A) (k : nat) (v : A) : nat -> A := fun i => if Nat.eqb i k then v else f i.
Definition flip (b : bool) (l : list val) : list val := if b then rev l else l.
Definition contents (m : mem) (a : arr) : list val := flip (neg a) (cells m (loc a)).
(** a[...] = l *)
Definition write (m : mem) (a : arr) (l : list val) : mem :=
  Mem (upd (cells m) (loc a) (flip (neg a) l)) (flags m) (next m) (nexto m) (rec m).

(** a new array in new memory *)
Definition fresh (k : backend) (d : dtype) (sh : list nat) (l : list val) (req lf : bool) (m : mem) : arr * mem :=
  (Arr k d sh (next m) false (nexto m) lf, Mem (upd (cells m) (next m) l) (upd (flags m) (nexto m) req) (S (next m)) (S (nexto m)) (rec m)).
Definition py_type (v : val) : dtype := match v with VF _ => F64 | VI _ => I64 | VB _ => B8 end.

(** a.astype(d, copy=False); t.to(dtype=d): the result of converting a tensor with a gradient is recorded *)
Definition astype (d : dtype) (a : arr) (m : mem) : arr * mem :=
  if same (ty a) d then (a, m)
  else fresh (kind a) d (shp a) (map (cast d) (contents m a)) (rec m && flags m (oid a)) (negb (rec m && flags m (oid a))) m.
(** the type of floating-point numbers of gpmp *)
Definition std_float (a : arr) (m : mem) : arr * mem := if is_float (ty a) then astype F64 a m else (a, m).

(** numpy_backend.py 174-188 *)
Definition np_asarray (dt : option dtype) (x : obj) (m : mem) : arr * mem :=
  match dt, x with
  | Some d, Ar a => astype d a m
  | Some d, Py v => fresh NumPy d [] [cast d v] false true m
  | Some d, Lst sh l _ => fresh NumPy d sh (map (cast d) l) false true m
  | None, Ar a => std_float a m
  | None, Py v => fresh NumPy (py_type v) [1%nat] [v] false true m
  | None, Lst sh l d => let (a, m) := fresh NumPy d sh l false true m in std_float a m
  end.
(** numpy_backend.py 166-172; numpy.array copies *)
Definition np_array (dt : option dtype) (x : obj) (m : mem) : arr * mem :=
  match dt, x with
  | Some d, Ar a => fresh NumPy d (shp a) (if same (ty a) d then contents m a else map (cast d) (contents m a)) false true m
  | Some d, Py v => fresh NumPy d [] [cast d v] false true m
  | Some d, Lst sh l _ => fresh NumPy d sh (map (cast d) l) false true m
  | None, Ar a => let (a', m) := fresh NumPy (ty a) (shp a) (contents m a) false true m in std_float a' m
  | None, Py v => let (a', m) := fresh NumPy (py_type v) [] [v] false true m in std_float a' m
  | None, Lst sh l d => let (a', m) := fresh NumPy d sh l false true m in std_float a' m
  end.

(** torch.from_numpy: a new tensor object on the same memory; None: ValueError, also from torch.as_tensor *)
Definition from_numpy (a : arr) (m : mem) : option (arr * mem) :=
  if neg a then None
  else Some (Arr Torch (ty a) (shp a) (loc a) false (nexto m) true,
             Mem (cells m) (upd (flags m) (nexto m) false) (next m) (S (nexto m)) (rec m)).
(** torch_backend.py 217-244 *)
Definition torch_asarray (dt : option dtype) (x : obj) (m : mem) : option (arr * mem) :=
  let conv a m := match dt with Some d => astype d a m | None => std_float a m end in
  match x with
  | Ar a => match kind a with
            | Torch => Some (conv a m)
            | NumPy => match from_numpy a m with Some (t, m) => Some (conv t m) | None => None end
            end
  | Py v => let d := match dt with Some d => d | None => py_type v end in
            Some (fresh Torch d [] [if same (py_type v) d then v else cast d v] false true m)
  | Lst sh l d => let (t, m) := fresh Torch d sh l false true m in Some (conv t m)
  end.

(** gnp.asarray, gnp.array (torch_backend.py 188-189) *)
Definition asarray (b : backend) (dt : option dtype) (x : obj) (m : mem) : option (arr * mem) :=
  match b with NumPy => Some (np_asarray dt x m) | Torch => torch_asarray dt x m end.
Definition array (b : backend) (dt : option dtype) (x : obj) (m : mem) : option (arr * mem) :=
  match b with NumPy => Some (np_array dt x m) | Torch => torch_asarray dt x m end.
(** gnp.copy: numpy.copy, which keeps the type; torch_backend.py 174-176 *)
Definition copy (b : backend) (x : obj) (m : mem) : option (arr * mem) :=
  match b with
  | NumPy => Some (match x with
                   | Ar a => fresh NumPy (ty a) (shp a) (contents m a) false true m
                   | Py v => fresh NumPy (py_type v) [] [v] false true m
                   | Lst sh l d => fresh NumPy d sh l false true m
                   end)
  | Torch => match torch_asarray None x m with
             | Some (t, m) => Some (fresh Torch (ty t) (shp t) (contents m t) false true m)
             | None => None
             end
  end.
(** asint: numpy_backend.py 236-237; torch_backend.py 251-252 *)
Definition asint (b : backend) (x : obj) (m : mem) : option (arr * mem) :=
  match b with
  | NumPy => Some (match x with
                   | Ar a => astype I64 a m
                   | Py v => let (a, m) := fresh NumPy (py_type v) [] [v] false true m in astype I64 a m
                   | Lst sh l d => let (a, m) := fresh NumPy d sh l false true m in astype I64 a m
                   end)
  | Torch => match torch_asarray None x m with Some (t, m) => Some (astype I32 t m) | None => None end
  end.
(** to_np of an array: numpy_backend.py 239-240; torch_backend.py 255-258 *)
Definition to_np (b : backend) (a : arr) (m : mem) : arr * mem :=
  match b, kind a with
  | Torch, Torch => (Arr NumPy (ty a) (shp a) (loc a) false (nexto m) true,
                     Mem (cells m) (upd (flags m) (nexto m) false) (next m) (S (nexto m)) (rec m))
  | _, _ => (a, m)
  end.
(** isscalar: numpy.isscalar; torch_backend.py 273-279 *)
Definition isscalar (b : backend) (x : obj) : bool :=
  match b, x with
  | _, Py _ => true
  | Torch, Ar a => match kind a with Torch => Nat.eqb (fold_right Nat.mul 1%nat (shp a)) 1 | NumPy => false end
  | _, _ => false
  end.

(** inftobigf, element by element: numpy_backend.py 250-252; torch_backend.py 500-502 *)
Definition inftobigf (bigf : R) (x : fl) : fl := match x with PInf | NInf => Fin bigf | _ => x end.
(** nan_to_num, element by element, and its argument copy: numpy.nan_to_num; torch_backend.py 142-147; with copy=True the result is written to a clone
    by out=, which torch refuses (None: RuntimeError) for a tensor that requires a gradient while operations are recorded *)
Definition fix_num (nanv pos neg_ : R) (v : val) : val :=
  match v with VF NaN => VF (Fin nanv) | VF PInf => VF (Fin pos) | VF NInf => VF (Fin neg_) | _ => v end.
Definition nan_to_num (b : backend) (cp : bool) (nanv pos neg_ : R) (a : arr) (m : mem) : option (arr * mem) :=
  let l := map (fix_num nanv pos neg_) (contents m a) in
  let req := rec m && flags m (oid a) in
  match b, cp with
  | NumPy, false => Some (a, write m a l)
  | NumPy, true => Some (fresh NumPy (ty a) (shp a) l false true m)
  | Torch, true => if req then None else Some (fresh Torch (ty a) (shp a) l false true m)
  | Torch, false => Some (fresh Torch (ty a) (shp a) l req (negb req) m)
  end.

(** torch_backend.py 648-653 BatchDifferentiableSelectionCriterion._prepare_param, called by evaluate_no_grad (680-690) with req = false under
    torch.no_grad and by evaluate_pre_grad (692-713) with req = true; None: RuntimeError (only floating-point tensors can require
    gradients; the flag of a tensor that is the result of a recorded operation cannot be cleared) *)
Definition prepare_param (x : obj) (req : bool) (m : mem) : option (arr * mem) :=
  match torch_asarray None x (Mem (cells m) (flags m) (next m) (nexto m) req) with
  | Some (t, m') =>
      if (if req then is_float (ty t) else leaf t || negb (flags m' (oid t)))
      then Some (t, Mem (cells m') (upd (flags m') (oid t) req) (next m') (nexto m') (rec m))
      else None
  | None => None
  end.
End Conv.
