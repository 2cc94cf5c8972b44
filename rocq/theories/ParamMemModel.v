(** Model of the arrays behind gpmp/parameter/param.py: which operations of Param share memory and which copy.  Definitions only.
    Labels are immutable lists; arrays are views (buffer, offset, length) of buffers of a heap. *)
From Coq Require Import String List Arith ZArith Reals Bool.
From Verif Require Import DataModel ParamModel.
Import ListNotations.
Local Open Scope R_scope.

(** NumPy and Torch keep integers when an array is made of integers (num/numpy_backend.py 174-188, torch_backend.py 217-244);
    a number written into an integer array is truncated towards zero *)
Inductive dtype := TInt | TFloat.
Definition trunc (x : R) : R := if Rle_dec 0 x then IZR (Int_part x) else - IZR (Int_part (- x)).
Definition cast (t : dtype) (x : R) : R := match t with TInt => trunc x | TFloat => x end.
Record buf := mkBuf { b_type : dtype; b_cells : list R }.
Definition heap := list buf.
Record view := mkView { v_buf : nat; v_off : nat; v_len : nat }.
Definition cell (h : heap) (b k : nat) : option R := match nth_error h b with Some bf => nth_error (b_cells bf) k | None => None end.
Definition contents (h : heap) (v : view) : list R :=
  match nth_error h (v_buf v) with Some bf => py_slice (b_cells bf) (v_off v) (v_off v + v_len v) | None => [] end.
Definition type_of (h : heap) (v : view) : dtype := match nth_error h (v_buf v) with Some bf => b_type bf | None => TFloat end.
(** [v[i] = x]; IndexError beyond the length *)
Definition write (h : heap) (b k : nat) (x : R) : heap :=
  match nth_error h b with Some bf => upd h b (mkBuf (b_type bf) (upd (b_cells bf) k (cast (b_type bf) x))) | None => h end.
Definition set_entry (h : heap) (v : view) (i : nat) (x : R) : heap * bool :=
  if Nat.ltb i (v_len v) then (write h (v_buf v) (v_off v + i) x, true) else (h, false).
Definition alloc (h : heap) (t : dtype) (l : list R) : heap * view := (h ++ [mkBuf t l], mkView (length h) 0 (length l)).
(** [v[a:b]] for a <= b: a view *)
Definition subview (v : view) (a b : nat) : view :=
  let a' := Nat.min a (v_len v) in mkView (v_buf v) (v_off v + a') (Nat.min b (v_len v) - a').

(** a Param object *)
Record pobj := mkObj { o_view : view; o_dim : nat; o_paths : list path; o_norms : list normalization; o_names : list string; o_bounds : list bound }.
Definition snapshot (h : heap) (o : pobj) : param := mkParam (contents h (o_view o)) (o_paths o) (o_norms o) (o_names o) (o_bounds o).
Definition lengths_ok (o : pobj) : bool :=
  Nat.eqb (length (o_paths o)) (length (o_names o)) && Nat.eqb (length (o_names o)) (length (o_norms o)) &&
  Nat.eqb (length (o_norms o)) (length (o_bounds o)) && Nat.eqb (length (o_bounds o)) (o_dim o).
(** [__init__] 42-74 given an array of the working precision or of integers ([gnp.asarray] returns its argument), or a list *)
Definition new_from_array (v : view) ps ns nm bs : option pobj :=
  let o := mkObj v (v_len v) ps ns nm bs in if lengths_ok o then Some o else None.
Definition new_from_list (h : heap) (t : dtype) (l : list R) ps ns nm bs : option (heap * pobj) :=
  let (h', v) := alloc h t l in match new_from_array v ps ns nm bs with Some o => Some (h', o) | None => None end.
(** [values] 111-113 and its setter 115-118 (no consistency check) *)
Definition m_values (o : pobj) : view := o_view o.
Definition m_set_values (o : pobj) (v : view) : pobj := mkObj v (v_len v) (o_paths o) (o_norms o) (o_names o) (o_bounds o).
(** [denormalized_values] 120-127: a new array, of integers when no entry is transformed and the values are integers *)
Definition m_denormalized (h : heap) (o : pobj) : heap * view :=
  let l := denormalized_values (snapshot h o) in
  let plain := forallb (fun n => match n with NONE => true | _ => false end) (firstn (length l) (o_norms o)) in
  alloc h (match l with [] => TFloat | _ => if plain then type_of h (o_view o) else TFloat end) l.
(** the setter 129-139: a new array; [dim] is not changed *)
Definition m_set_denormalized (h : heap) (o : pobj) (nv : list R) : heap * pobj * bool :=
  if Nat.eqb (length nv) (o_dim o) then
    let (h', v) := alloc h TFloat (zip_with normalize nv (o_norms o)) in
    (h', mkObj v (o_dim o) (o_paths o) (o_norms o) (o_names o) (o_bounds o), true)
  else (h, o, false).
Definition m_indices (o : pobj) (q : path) (pm : bool) : list nat := enum_filter (path_match q pm) 0 (o_paths o).
(** [get_by_name] 175-179 with [return_view=True] *)
Definition m_name_view (o : pobj) (name : string) : option view :=
  match index_of name (o_names o) with Some i => Some (subview (o_view o) i (i + 1)) | None => None end.
(** [get_by_path] 185-201, view and copy *)
Definition m_path_view (o : pobj) (q : path) (pm : bool) : option view :=
  let idx := m_indices o q pm in
  if consecutive idx then match idx with [] => None | i :: _ => Some (subview (o_view o) i (last idx 0%nat + 1)) end else None.
Definition m_get_by_path (h : heap) (o : pobj) (q : path) (pm : bool) : option (heap * view) :=
  match take (contents h (o_view o)) (m_indices o q pm) with
  | Some l => Some (alloc h (type_of h (o_view o)) l)
  | None => None
  end.
(** [set_by_name] 181-183, [set_by_path] 203-216, [set_from_unnormalized] 218-221: in place *)
Definition m_set_by_name (h : heap) (o : pobj) (name : string) (x : R) : heap * bool :=
  match index_of name (o_names o) with Some i => set_entry h (o_view o) i x | None => (h, false) end.
Fixpoint write_all (h : heap) (v : view) (l : list (nat * R)) : heap * bool :=
  match l with
  | [] => (h, true)
  | (i, x) :: r => let (h', ok) := set_entry h v i x in if ok then write_all h' v r else (h', false)
  end.
Definition m_set_by_path (h : heap) (o : pobj) (q : path) (nv : list R) (pm : bool) : heap * bool :=
  let indices := m_indices o q pm in
  if Nat.eqb (length indices) (length nv) then write_all h (o_view o) (combine indices nv) else (h, false).
Fixpoint m_set_from_unnormalized (h : heap) (o : pobj) (kw : list (string * R)) : heap * bool :=
  match kw with
  | [] => (h, true)
  | (name, x) :: r =>
      match index_of name (o_names o) with
      | None => (h, false)
      | Some i =>
          match nth_error (o_norms o) i with
          | None => (h, false)
          | Some n => let (h', ok) := set_entry h (o_view o) i (normalize x n) in
                      if ok then m_set_from_unnormalized h' o r else (h', false)
          end
      end
  end.
(** [__getitem__] 229-240 (an index list: a copy) and [concat] 245-252 ([gnp.concatenate]: a new array) *)
Definition m_getitem (h : heap) (o : pobj) (idx : list Z) : option (heap * pobj) :=
  match py_take (contents h (o_view o)) idx, py_take (o_paths o) idx, py_take (o_norms o) idx, py_take (o_names o) idx, py_take (o_bounds o) idx with
  | Some l, Some ps, Some ns, Some nm, Some bs => new_from_list h (type_of h (o_view o)) l ps ns nm bs
  | _, _, _, _, _ => None
  end.
Definition m_concat (h : heap) (os : list pobj) : option (heap * pobj) :=
  match os with
  | [] => None
  | _ => new_from_list h (if forallb (fun o => match type_of h (o_view o) with TInt => true | TFloat => false end) os then TInt else TFloat)
           (concat (map (fun o => contents h (o_view o)) os)) (concat (map o_paths os)) (concat (map o_norms os))
           (concat (map o_names os)) (concat (map o_bounds os))
  end.

(** one update of the values in place; an exception leaves what was written before it *)
Inductive update := UName (name : string) (x : R) | UPath (q : path) (nv : list R) (pm : bool) | UKw (kw : list (string * R)) | UCell (i : nat) (x : R).
Definition do_update (h : heap) (o : pobj) (u : update) : heap * bool :=
  match u with
  | UName name x => m_set_by_name h o name x
  | UPath q nv pm => m_set_by_path h o q nv pm
  | UKw kw => m_set_from_unnormalized h o kw
  | UCell i x => set_entry h (m_values o) i x
  end.
Fixpoint do_updates (h : heap) (o : pobj) (us : list update) : heap :=
  match us with [] => h | u :: r => do_updates (fst (do_update h o u)) o r end.
