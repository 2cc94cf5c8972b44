(** Model of the dictionaries, the list of paths and the default names of gpmp/parameter/param.py.  Definitions only; a dict is the
    insertion-ordered association list of ReportModel. *)
From Coq Require Import String List Arith Reals Bool.
From Verif Require Import ParamModel ReportModel.
Import ListNotations.
Local Open Scope R_scope.

(** [__init__] 42-74 given values only: paths 59-61, names 62-66, normalisations 79-80, bounds 70-72 by default *)
Definition default_param (v : list R) (name_prefix : string) : option param :=
  let dim := length v in
  param_init v (repeat ["param"]%string dim) (repeat NONE dim)
    (map (fun i => (name_prefix ++ nat_to_string i)%string) (seq 0 dim)) (repeat None dim).

(** [param_from_covparam_anisotropic_noisy] 364-383; fewer than two values give a ValueError from the consistency check *)
Definition make_noisy_param (v : list R) (logsigma2_bounds logsigma2_noise_bounds loginvrho_bounds : bound) (prefix : string) : option param :=
  let d := (length v - 2)%nat in
  param_init v
    (["covparam"; "variance"]%string :: ["covparam"; "variance"]%string :: repeat ["covparam"; "lengthscale"]%string d)
    (LOG :: LOG :: repeat LOG_INV d)
    ((prefix ++ "sigma2")%string :: (prefix ++ "sigma2_noise")%string :: map (fun i => (prefix ++ "rho_" ++ nat_to_string i)%string) (seq 0 d))
    (logsigma2_bounds :: logsigma2_noise_bounds :: repeat loginvrho_bounds d).

(** the dict of a name in [to_dict] *)
Record item := mkItem { i_value : R; i_path : path; i_norm : normalization; i_denorm : R; i_bounds : bound }.
(** [to_dict] 254-264: for i in range(dim); None: an IndexError *)
Fixpoint items (nm : list string) (vs : list R) (ps : list path) (ns : list normalization) (ds : list R) (bs : list bound) : option (list (string * item)) :=
  match vs with
  | [] => Some []
  | v :: vs =>
      match nm, ps, ns, ds, bs with
      | n :: nm, p :: ps, o :: ns, d :: ds, b :: bs =>
          match items nm vs ps ns ds bs with Some l => Some ((n, mkItem v p o d b) :: l) | None => None end
      | _, _, _, _, _ => None
      end
  end.
Definition to_dict (p : param) : option (list (string * item)) :=
  option_map (@dict_of item) (items (names p) (values p) (paths p) (normalizations p) (denormalized_values p) (bounds p)).
(** [to_simple_dict] 266-267 *)
Definition simple_dict (p : param) : list (string * R) := dict_of (combine (names p) (denormalized_values p)).

(** [get_paths(prefix)] 159; without prefix (157-158) the list of a set of tuples: the distinct paths in an unspecified order *)
Definition get_paths_prefix (p : param) (q : path) : list path := filter (path_match q true) (paths p).
Definition is_get_paths (p : param) (l : list path) : Prop := NoDup l /\ forall q, In q l <-> In q (paths p).
