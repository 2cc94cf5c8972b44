(** Model of modeldiagnosis_init (gpmp/modeldiagnosis/report.py 37-173), Param.to_simple_dict and
    param_from_covparam_anisotropic_noisy (gpmp/parameter/param.py 266-267, 364-383) and sigma_rho_from_covparam
    (gpmp/modeldiagnosis/utils.py 34-63).  Definitions only.  Exceptions are [None]. *)
From Coq Require Import String List Arith Reals Bool.
From Verif Require Import ParamModel ConfigModel.
Import ListNotations.
Local Open Scope R_scope.

(** bounds of a Param, possibly infinite on one side *)
Definition fbound := option (fl * fl).
Record pparam := mkPP { q_values : list R; q_paths : list path; q_norms : list normalization; q_names : list string; q_bounds : list fbound }.
Definition q_consistent (p : pparam) : bool :=
  Nat.eqb (length (q_paths p)) (length (q_names p)) && Nat.eqb (length (q_names p)) (length (q_norms p)) &&
  Nat.eqb (length (q_norms p)) (length (q_bounds p)) && Nat.eqb (length (q_bounds p)) (length (q_values p)).
Definition q_denormalized (p : pparam) : list R := zip_with denormalize (q_values p) (q_norms p).

(** param.py 342-361 with name_prefix="" and no bounds *)
Definition build_anisotropic (c : list R) : option pparam :=
  let d := (length c - 1)%nat in
  let p := mkPP c (["covparam"; "variance"]%string :: repeat ["covparam"; "lengthscale"]%string d) (LOG :: repeat LOG_INV d)
             ("sigma2"%string :: map (fun i => ("rho_" ++ nat_to_string i)%string) (seq 0 d)) (None :: repeat None d) in
  if q_consistent p then Some p else None.
(** param.py 364-383 *)
Definition build_noisy (c : list R) : option pparam :=
  let d := (length c - 2)%nat in
  let p := mkPP c (["covparam"; "variance"]%string :: ["covparam"; "variance"]%string :: repeat ["covparam"; "lengthscale"]%string d)
             (LOG :: LOG :: repeat LOG_INV d)
             ("sigma2"%string :: "sigma2_noise"%string :: map (fun i => ("rho_" ++ nat_to_string i)%string) (seq 0 d)) (None :: None :: repeat None d) in
  if q_consistent p then Some p else None.

(** [_apply_cov_bounds_to_param] 109-140 *)
Definition is_cov (p : path) : bool := match p with s :: _ => String.eqb s "covparam" | [] => false end.
Definition is_inf (x : fl) : bool := match x with PInf | NInf => true | _ => false end.
Definition stored_bound (b : fl * fl) : fbound := if is_inf (fst b) && is_inf (snd b) then None else Some b.
Definition apply_cov_bounds (p : pparam) (bs : list (fl * fl)) : pparam :=
  let inds := enum_filter is_cov 0 (q_paths p) in
  if Nat.eqb (length inds) (length bs)
  then mkPP (q_values p) (q_paths p) (q_norms p) (q_names p)
         (fold_left (fun l ib => upd l (fst ib) (stored_bound (snd ib))) (combine inds bs) (q_bounds p))
  else p.

(** [info.bounds]: absent, an array with two columns, or any other array *)
Inductive bounds_array := NoBounds | Pairs (l : list (fl * fl)) | OtherShape.
(** the Param of the report: the one given (modified in place) or the one built from model.covparam *)
Definition report_param (model_type : string) (cov : list R) (mean : option (list R)) (given : option pparam) (b : bounds_array) : option pparam :=
  match (match given with
         | Some p => Some p
         | None => if String.eqb model_type "linear_mean_matern_anisotropic" then build_anisotropic cov
                   else if String.eqb model_type "linear_mean_matern_anisotropic_noisy" then build_noisy cov else None
         end) with
  | None => None
  | Some p =>
      let mpl := match mean with None => 0%nat | Some m => length m end in
      match b with
      | Pairs l => if Nat.leb (mpl + length cov) (length l) then Some (apply_cov_bounds p (firstn (length cov) (skipn mpl l))) else Some p
      | _ => Some p
      end
  end.

(** a Python dict in insertion order; assigning to a present key keeps its place *)
Fixpoint dict_set (A : Type) (d : list (string * A)) (k : string) (v : A) : list (string * A) :=
  match d with
  | [] => [(k, v)]
  | (k', v') :: r => if String.eqb k k' then (k', v) :: r else (k', v') :: dict_set A r k v
  end.
Arguments dict_set {A} d k v.
Definition dict_of (A : Type) (l : list (string * A)) : list (string * A) := fold_left (fun d kv => dict_set d (fst kv) (snd kv)) l [].
Arguments dict_of {A} l.
Fixpoint dict_get (A : Type) (d : list (string * A)) (k : string) : option A :=
  match d with [] => None | (k', v) :: r => if String.eqb k k' then Some v else dict_get A r k end.
Arguments dict_get {A} d k.
(** [to_simple_dict] 266-267 *)
Definition to_simple_dict (p : pparam) : list (string * R) := dict_of (combine (q_names p) (q_denormalized p)).

(** [sigma_rho_from_covparam] utils.py 34-63; an empty vector is an IndexError *)
Definition sigma_rho (c : list R) : option (list (string * R)) :=
  match c with
  | [] => None
  | c0 :: r => Some (dict_of (("sigma"%string, exp (0.5 * c0)) ::
                 zip_with (fun i x => (("rho" ++ nat_to_string i)%string, exp (- x))) (seq 0 (length r)) r))
  end.
