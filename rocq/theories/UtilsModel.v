(** Model of gpmp/core/utils.py and gpmp/kernel/utils.py.  Definitions only.
    An array is its shape and its entries in row-major order.  A Python list or tuple, possibly nested, has no attribute
    shape; it is given by the array it converts to.
    [gnp.asarray] keeps shape and entries of an array (dtype and device are not modelled). *)
From Coq Require Import List Arith.
Import ListNotations.

Section Arrays.
Context {A : Type}.
Record arr := mkArr { shape : list nat; entries : list A }.
Inductive input := Array (a : arr) | Sequence (a : arr).
Inductive outcome (B : Type) := Done (b : B) | AssertionError | AttributeError | ValueError | TypeError.
Arguments Done {B}. Arguments AssertionError {B}. Arguments AttributeError {B}. Arguments ValueError {B}. Arguments TypeError {B}.
Definition bind {B C} (x : outcome B) (f : B -> outcome C) : outcome C :=
  match x with Done b => f b | AssertionError => AssertionError | AttributeError => AttributeError
             | ValueError => ValueError | TypeError => TypeError end.
(** v.shape *)
Definition get_shape (v : input) : outcome (list nat) := match v with Array a => Done (shape a) | Sequence _ => AttributeError end.
Definition check (b : bool) : outcome unit := if b then Done tt else AssertionError.
(** v.reshape(-1), core/utils.py 61; only reached by arrays *)
Definition ravel (v : input) : input :=
  match v with Array a => Array (mkArr [length (entries a)] (entries a)) | Sequence a => Sequence a end.
(** core/utils.py 55-56, 65-66 *)
Definition check2 (v : option input) : outcome unit :=
  match v with None => Done tt | Some v => bind (get_shape v) (fun s => check (length s =? 2)) end.
(** core/utils.py 58-63 *)
Definition check_zi (v : option input) : outcome (option input) :=
  match v with
  | None => Done None
  | Some v => bind (get_shape v) (fun s =>
      if length s =? 2 then bind (check (nth 1 s 0 =? 1)) (fun _ => Done (Some (ravel v)))
      else bind (check (length s =? 1)) (fun _ => Done (Some v)))
  end.
(** core/utils.py 68-71: u.shape[i] == v.shape[i] *)
Definition check_eq (u v : option input) (i : nat) : outcome unit :=
  match u, v with
  | Some u, Some v => bind (get_shape u) (fun s => bind (get_shape v) (fun t => check (nth i s 0 =? nth i t 0)))
  | _, _ => Done tt
  end.
(** gnp.asarray, core/utils.py 73-79 *)
Definition asarray (v : input) : input := match v with Array a => Array a | Sequence a => Array a end.
(** core/utils.py 19-81 ensure_shapes_and_type (assert statements active, i.e. not python -O) *)
Definition ensure_shapes_and_type (convert : bool) (xi zi xt : option input) : outcome (option input * option input * option input) :=
  bind (check2 xi) (fun _ => bind (check_zi zi) (fun zi => bind (check2 xt) (fun _ =>
  bind (check_eq xi zi 0) (fun _ => bind (check_eq xi xt 1) (fun _ =>
  if convert then Done (option_map asarray xi, option_map asarray zi, option_map asarray xt) else Done (xi, zi, xt)))))).

(** core/utils.py 84-118 validate_model_mean; [mean] is None, a callable, or something else; meanparam is not read *)
Inductive meantype := Zero | Parameterized | LinearPredictor | OtherType.
Inductive mean_arg := NoMean | Callable | NotCallable.
Definition validate_model_mean {P} (t : meantype) (m : mean_arg) (meanparam : option P) : outcome unit :=
  match t with
  | OtherType => ValueError
  | Zero => match m with NoMean => Done tt | _ => ValueError end
  | Parameterized | LinearPredictor => match m with Callable => Done tt | _ => TypeError end
  end.

(** kernel/utils.py 12-20 check_xi_zi_or_loader *)
Inductive source := FromArrays | FromLoader.
Definition check_xi_zi_or_loader {X Z L} (xi : option X) (zi : option Z) (loader : option L) : outcome source :=
  let arrays := match xi, zi with Some _, Some _ => true | _, _ => false end in
  let loader_p := match loader with Some _ => true | None => false end in
  if andb arrays loader_p then ValueError
  else if andb (negb arrays) (negb loader_p) then ValueError
  else Done (if arrays then FromArrays else FromLoader).
(** kernel/utils.py 22-38 prepare_data, whose first lines repeat the check above; [rows l], [cols l] = len(loader.dataset), loader.dataset.x_list[0].shape[1].
    n, d = xi_.shape needs two axes (ValueError otherwise); zi is reshaped to (-1, 1). *)
Definition prepare_data {L} (rows cols : L -> nat) (xi zi : option input) (loader : option L)
  : outcome (option input * option input * nat * nat * source) :=
  bind (check_xi_zi_or_loader xi zi loader) (fun src =>
    match src, xi, zi, loader with
    | FromArrays, Some x, Some z, _ =>
        match asarray x, asarray z with
        | Array a, Array c =>
            match shape a with
            | [n; d] => Done (Some (Array a), Some (Array (mkArr [length (entries c); 1] (entries c))), n, d, FromArrays)
            | _ => ValueError
            end
        | _, _ => ValueError
        end
    | _, _, _, Some l => Done (None, None, rows l, cols l, FromLoader)
    | _, _, _, None => ValueError
    end).
End Arrays.
Arguments arr : clear implicits. Arguments input : clear implicits.
Arguments Done {B}. Arguments AssertionError {B}. Arguments AttributeError {B}. Arguments ValueError {B}. Arguments TypeError {B}.
