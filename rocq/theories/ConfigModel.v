(** Model of the process-wide state of gpmp: gpmp/config.py, the table of
    [compute_gammaln] (gpmp/num/shared.py 21-41) and gpmp/kernel/prior_defaults.py.
    Definitions only. *)
From Coq Require Import String Ascii List Arith ZArith Reals Bool.
From Verif Require Import DataModel ParamModel.
Import ListNotations.
Local Open Scope string_scope.

(** ** compute_gammaln, shared.py 21-43.
    [g] is the external gammaln on integers; the cache is the entry "gammaln"/"table" of
    [_config.caches]; array results are lists. *)
(** [arange(a, b)] on integers *)
Definition z_arange (a b : Z) : list Z := map (fun k => (a + Z.of_nat k)%Z) (seq 0 (Z.to_nat (b - a))).
(** [t[:n]] with Python's meaning of a negative bound *)
Definition py_head (V : Type) (t : list V) (n : Z) : list V :=
  if (n <? 0)%Z then firstn (Z.to_nat (Z.of_nat (length t) + n)) t else firstn (Z.to_nat n) t.
Arguments py_head {V}.
Definition compute_gammaln (V : Type) (g : Z -> V) (cache : option (list V)) (up_to_p : Z)
  : list V * option (list V) :=
  let n := (2 * up_to_p + 2)%Z in
  match cache with
  | None => let t := map g (z_arange 0 n) in (py_head t n, Some t)
  | Some t =>
      if (Z.of_nat (length t) <? n)%Z
      then let t' := (t ++ map g (z_arange (Z.of_nat (length t)) n))%list in (py_head t' n, Some t')
      else (py_head t n, Some t)
  end.
Arguments compute_gammaln {V}.
(** the calls that touch the table: compute_gammaln itself and [clear_caches] (config.py 160-164) *)
Inductive cache_call := Compute (p : Z) | ClearAll | ClearNamed (name : string).
Definition cache_step (V : Type) (g : Z -> V) (cache : option (list V)) (c : cache_call) : option (list V) :=
  match c with
  | Compute p => snd (compute_gammaln g cache p)
  | ClearAll => None
  | ClearNamed n => if String.eqb n "gammaln" then None else cache
  end.
Arguments cache_step {V}.
(** the table positions read by maternp_kernel (matern.py 54-63) *)
Definition matern_reads (p i : Z) : list Z := [p + 1; 2 * p + 1; p + i + 1; i + 1; p - i + 1]%Z.

(** ** config.py *)
(** argument values: None, the type float, a string, or another object with its str() *)
Inductive pyval := VNone | VFloatType | VStr (s : string) | VObj (str_form : string).

Fixpoint prefixb (a b : string) : bool :=
  match a, b with
  | EmptyString, _ => true
  | String x a', String y b' => Ascii.eqb x y && prefixb a' b'
  | _, EmptyString => false
  end.
(** [a in b] and [b.endswith(a)] *)
Fixpoint substringb (a b : string) : bool :=
  prefixb a b || match b with EmptyString => false | String _ b' => substringb a b' end.
Fixpoint suffixb (a b : string) : bool :=
  String.eqb a b || match b with EmptyString => false | String _ b' => suffixb a b' end.

(** [_normalize_dtype_spec] 59-79; None is the ValueError *)
Definition normalize_dtype_spec (v : pyval) : option string :=
  match v with
  | VNone | VFloatType => Some "float64"
  | VStr s0 | VObj s0 =>
      let s := lower s0 in
      if substringb "float32" s || suffixb "f4" s || suffixb "32" s then None
      else if substringb "float64" s || substringb "double" s || suffixb "f8" s || suffixb "64" s
      then Some "float64" else None
  end.
(** [_normalize_backend_spec] 82-92; outer None is the ValueError *)
Definition normalize_backend_spec (v : pyval) : option (option string) :=
  match v with
  | VNone => Some None
  | VStr s => let b := lower s in
              if String.eqb b "jax" then None
              else if String.eqb b "numpy" || String.eqb b "torch" then Some (Some b) else None
  | _ => None
  end.

(** The attributes of [_GPMPConfig] 95-107 used here, and the two environment variables.
    [others] are the remaining attributes, set without a check. *)
Record config := mkConfig {
  c_backend : option string; c_dtype : string; c_dtype_resolved : pyval; c_device : pyval;
  c_others : list (string * pyval); env_backend : option string; env_dtype : option string }.

Definition set_cfg_backend (c : config) (b : option string) :=
  mkConfig b (c_dtype c) (c_dtype_resolved c) (c_device c) (c_others c) (env_backend c) (env_dtype c).
Definition set_env_backend (c : config) (b : option string) :=
  mkConfig (c_backend c) (c_dtype c) (c_dtype_resolved c) (c_device c) (c_others c) b (env_dtype c).
Definition set_cfg_dtype (c : config) (d : string) :=
  mkConfig (c_backend c) d (c_dtype_resolved c) (c_device c) (c_others c) (env_backend c) (env_dtype c).
Definition set_cfg_resolved (c : config) (d : pyval) :=
  mkConfig (c_backend c) (c_dtype c) d (c_device c) (c_others c) (env_backend c) (env_dtype c).
Definition set_cfg_device (c : config) (d : pyval) :=
  mkConfig (c_backend c) (c_dtype c) (c_dtype_resolved c) d (c_others c) (env_backend c) (env_dtype c).
Definition set_cfg_other (c : config) (k : string) (v : pyval) :=
  mkConfig (c_backend c) (c_dtype c) (c_dtype_resolved c) (c_device c) ((k, v) :: c_others c)
    (env_backend c) (env_dtype c).
Definition set_env_dtype (c : config) (d : option string) :=
  mkConfig (c_backend c) (c_dtype c) (c_dtype_resolved c) (c_device c) (c_others c) (env_backend c) d.

(** [update] 143-158: keyword arguments are the optional recognised ones and the list of
    the others.  The bool is false when the call raised. *)
Record kwargs := mkKw { kw_backend : option pyval; kw_dtype : option pyval;
  kw_dtype_resolved : option pyval; kw_device : option pyval; kw_others : list (string * pyval) }.
Definition update (c : config) (k : kwargs) : config * bool :=
  (* 145-148 *)
  let step1 :=
    match kw_backend k with
    | None => Some (c, None)
    | Some v => match normalize_backend_spec v with
                | None => None
                | Some None => Some (c, Some None)
                | Some (Some b) => Some (set_env_backend c (Some b), Some (Some b))
                end
    end in
  match step1 with
  | None => (c, false)
  | Some (c1, kb) =>
      (* 150-154 *)
      let step2 :=
        match kw_dtype k with
        | None => Some (c1, None, kw_dtype_resolved k)
        | Some v => match normalize_dtype_spec v with
                    | None => None
                    | Some d => Some (set_env_dtype c1 (Some d), Some d,
                                  match kw_dtype_resolved k with None => Some VNone | r => r end)
                    end
        end in
      match step2 with
      | None => (c1, false)
      | Some (c2, kd, kr) =>
          (* 156-157: setattr for each key *)
          let c3 := match kb with None => c2 | Some b => set_cfg_backend c2 b end in
          let c4 := match kd with None => c3 | Some d => set_cfg_dtype c3 d end in
          let c5 := match kr with None => c4 | Some r => set_cfg_resolved c4 r end in
          let c6 := match kw_device k with None => c5 | Some d => set_cfg_device c5 d end in
          (fold_left (fun c kv => set_cfg_other c (fst kv) (snd kv)) (kw_others k) c6, true)
      end
  end.

(** [_detect_backend] 174-187 ([torch_found] is find_spec("torch") is not None); None is the
    RuntimeError for jax *)
Definition detect_backend (torch_found : bool) (env : option string) : option string :=
  match env with
  | Some e => let e := lower e in
              if String.eqb e "jax" then None
              else if String.eqb e "numpy" || String.eqb e "torch" then Some e
              else Some (if torch_found then "torch" else "numpy")
  | None => Some (if torch_found then "torch" else "numpy")
  end.
(** [init_backend] 190-196 *)
Definition init_backend (tf : bool) (c : config) : config * option (option string) :=
  match c_backend c with
  | Some b => (c, Some (Some b))
  | None => match detect_backend tf (env_backend c) with
            | None => (c, None)
            | Some b => (set_env_backend (set_cfg_backend c (Some b)) (Some b), Some (Some b))
            end
  end.
(** [get_backend] 206-208 (a stored backend is never the empty string) *)
Definition get_backend (tf : bool) (c : config) : config * option (option string) := init_backend tf c.
(** [set_backend] 199-203; assigning None to os.environ is a TypeError *)
Definition set_backend (c : config) (v : pyval) : config * bool :=
  match normalize_backend_spec v with
  | None => (c, false)
  | Some None => (set_cfg_backend c None, false)
  | Some (Some b) => (set_env_backend (set_cfg_backend c (Some b)) (Some b), true)
  end.
(** [set_dtype] 211-220 *)
Definition set_dtype (c : config) (v : pyval) : config * bool :=
  match normalize_dtype_spec v with
  | None => (c, false)
  | Some d => (set_env_dtype (set_cfg_resolved (set_cfg_dtype c d) VNone) (Some d), true)
  end.
(** [set_device] 223-224 *)
Definition set_device (c : config) (v : pyval) : config * bool := (set_cfg_device c v, true).

Inductive config_call :=
  | CUpdate (k : kwargs) | CSetBackend (v : pyval) | CSetDtype (v : pyval) | CSetDevice (v : pyval)
  | CGetBackend.
Definition config_step (tf : bool) (c : config) (call : config_call) : config * bool :=
  match call with
  | CUpdate k => update c k
  | CSetBackend v => set_backend c v
  | CSetDtype v => set_dtype c v
  | CSetDevice v => set_device c v
  | CGetBackend => let (c', r) := get_backend tf c in (c', match r with None => false | _ => true end)
  end.

(** ** kernel/prior_defaults.py *)
(** floats with the special values that matter for comparisons *)
Inductive fl := Fin (x : R) | PInf | NInf | NaN.
Definition fl_le (a b : fl) : bool :=
  match a, b with
  | NaN, _ | _, NaN => false
  | NInf, _ | _, PInf => true
  | Fin x, Fin y => if Rle_dec x y then true else false
  | _, _ => false
  end.
Definition fl_lt (a b : fl) : bool :=
  match a, b with
  | NaN, _ | _, NaN => false
  | NInf, NInf | PInf, PInf => false
  | NInf, _ | _, PInf => true
  | Fin x, Fin y => if Rlt_dec x y then true else false
  | _, _ => false
  end.
(** [_PriorDefaults] 23-28 *)
Record prior_defaults := mkPD { d_gamma : fl; d_coverage : fl; d_alpha : fl; d_factor : fl }.
(** [set_default_prior_hyperparameters] 67-113; the bool is false when the call raised *)
Definition set_gamma (d : prior_defaults) (g : fl) : prior_defaults * bool :=
  if fl_le g (Fin 1) then (d, false) else (mkPD g (d_coverage d) (d_alpha d) (d_factor d), true).
Definition set_coverage (d : prior_defaults) (v : fl) : prior_defaults * bool :=
  if fl_lt (Fin 0) v && fl_lt v (Fin 1)
  then (mkPD (d_gamma d) v (d_alpha d) (d_factor d), true) else (d, false).
Definition set_alpha (d : prior_defaults) (v : fl) : prior_defaults * bool :=
  if fl_le v (Fin 0) then (d, false) else (mkPD (d_gamma d) (d_coverage d) v (d_factor d), true).
Definition set_factor (d : prior_defaults) (v : fl) : prior_defaults * bool :=
  if fl_le v (Fin 0) then (d, false) else (mkPD (d_gamma d) (d_coverage d) (d_alpha d) v, true).
Definition opt_step (A S : Type) (f : S -> A -> S * bool) (arg : option A) (s : S) (k : S -> S * bool) : S * bool :=
  match arg with
  | None => k s
  | Some a => let (s', ok) := f s a in if ok then k s' else (s', false)
  end.
Arguments opt_step {A S}.
Definition set_defaults (d : prior_defaults) (gamma coverage alpha factor : option fl) : prior_defaults * bool :=
  opt_step set_gamma gamma d (fun d =>
  opt_step set_coverage coverage d (fun d =>
  opt_step set_alpha alpha d (fun d =>
  opt_step set_factor factor d (fun d => (d, true))))).
(** [set_default_prior_hyperparameters_from_kwargs] 115-135: the four recognised keys of the
    dictionary; popped keys leave it, also when the call raises *)
Record prior_kw := mkPKw { k_gamma : option (option fl); k_coverage : option (option fl);
  k_alpha : option (option fl); k_factor : option (option fl) }.
Definition set_from_kwargs (d : prior_defaults) (k : prior_kw) : prior_defaults * prior_kw * bool :=
  let run (arg : option (option fl)) (f : prior_defaults -> option fl -> prior_defaults * bool)
          (d : prior_defaults) := match arg with None => (d, true) | Some v => f d v end in
  let (d1, ok1) := run (k_gamma k) (fun d v => set_defaults d v None None None) d in
  if negb ok1 then (d1, mkPKw None (k_coverage k) (k_alpha k) (k_factor k), false) else
  let (d2, ok2) := run (k_coverage k) (fun d v => set_defaults d None v None None) d1 in
  if negb ok2 then (d2, mkPKw None None (k_alpha k) (k_factor k), false) else
  let (d3, ok3) := run (k_alpha k) (fun d v => set_defaults d None None v None) d2 in
  if negb ok3 then (d3, mkPKw None None None (k_factor k), false) else
  let (d4, ok4) := run (k_factor k) (fun d v => set_defaults d None None None v) d3 in
  (d4, mkPKw None None None None, ok4).
(** the initial values, [_PriorDefaults] 23-28 *)
Definition initial_defaults : prior_defaults :=
  mkPD (Fin (3 / 2)) (Fin (95 / 100)) (Fin 1) (Fin (1 / 20)).
Inductive prior_call := PSet (gamma coverage alpha factor : option fl) | PKwargs (k : prior_kw).
Definition prior_step (d : prior_defaults) (c : prior_call) : prior_defaults * bool :=
  match c with
  | PSet g cv a f => set_defaults d g cv a f
  | PKwargs k => let '(d', _, ok) := set_from_kwargs d k in (d', ok)
  end.
