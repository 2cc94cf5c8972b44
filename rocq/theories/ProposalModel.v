(** Model of the proposal parameters of gpmp/mcmc/mh.py (MetropolisHastings): how an initial value is read, which
    covariance matrix it stands for, and how adaptation changes it in memory.  Definitions only.
    Arrays live in numbered cells, so that sharing and in-place updates are visible.  Simplified: an array is a shape
    and a function of the indices (values outside the shape mean nothing); numbers are reals; the acceptance rates and
    the empirical covariances of the blocks, which come from the chains, are arguments. *)
From Coq Require Import List Arith Reals Bool String.
From Verif Require Import ConfigModel FlModel PriorModel SmcModel.
Import ListNotations.
Local Open Scope R_scope.

Record arr := Arr { shp : list nat; val : list nat -> R }.

(** elementwise multiplication by a number; a[i]; numpy.diag of a vector; gnp.eye times a number (204-205 of
    numpy_backend.py) *)
Definition scale (f : R) (a : arr) : arr := Arr (shp a) (fun ix => val a ix * f).
Definition slice0 (i : nat) (a : arr) : arr := Arr (tl (shp a)) (fun ix => val a (i :: ix)).
Definition diag (a : arr) : arr :=
  let n := hd 0%nat (shp a) in Arr [n; n] (fun ix => match ix with [i; j] => if i =? j then val a [i] else 0 | _ => 0 end).
Definition eye (s : R) (n : nat) : arr :=
  Arr [n; n] (fun ix => match ix with [i; j] => if i =? j then s else 0 | _ => 0 end).
Definition n_elem (a : arr) : nat := fold_right Nat.mul 1%nat (shp a).

(** the two numerical backends differ in gnp.isscalar: numpy_backend.py 69 (numpy.isscalar, false on arrays) and
    torch_backend.py 273-279 (true on every tensor with one element) *)
Inductive nb := Np | Th.
Definition isscalar (b : nb) (a : arr) : bool := match b with Np => false | Th => n_elem a =? 1 end.

(** mh.py 188-200 _get_cov_parameter; None: ValueError *)
Definition get_cov (b : nb) (dim : nat) (p : arr) : option arr :=
  if isscalar b p then Some (eye (val p (repeat 0%nat (List.length (shp p)))) dim) else
  match shp p with
  | [_] => Some (diag p)
  | [_; _] => Some p
  | _ => None
  end.

(** memory: cells and the first unused one; gnp.copy (numpy_backend.py 64, torch_backend.py 174) allocates *)
Record mem := Mem { cells : nat -> arr; next : nat }.
Definition upd {A} (h : nat -> A) (l : nat) (a : A) : nat -> A := fun l' => if l' =? l then a else h l'.
Definition new (a : arr) (m : mem) : nat * mem := (next m, Mem (upd (cells m) (next m) a) (S (next m))).
Fixpoint new_list (vs : list arr) (m : mem) : list nat * mem :=
  match vs with
  | [] => ([], m)
  | v :: vs => let (l, m1) := new v m in let (ls, m2) := new_list vs m1 in (l :: ls, m2)
  end.

(** mh.py 202-212 _initialize_proposal_distribution_params, p0: the cell of proposal_distribution_param_init *)
Definition init_params (dim n_chains p0 : nat) (m : mem) : option (list nat * mem) :=
  let p := cells m p0 in
  match shp p with
  | [n] => if n =? dim then Some (new_list (repeat p n_chains) m) else None
  | [a; b] => if (a =? dim) && (b =? dim) then Some (new_list (repeat p n_chains) m) else None
  | [k; _; _] => if k =? n_chains then Some (new_list (map (fun i => slice0 i p) (seq 0 n_chains)) m) else None
  | _ => None
  end.

(** mh.py 107-110: the default of proposal_distribution_param_init, gnp.ones(dim) *)
Definition post_init (dim : nat) (given : option arr) : arr :=
  match given with Some p => p | None => Arr [dim] (fun _ => 1) end.

(** the attributes that matter: proposal_distribution_params, haario_scaling_factors, haario_adapt_factor *)
Record sampler := Sampler { memory : mem; params : list nat; factors : list R; haf : option R }.
Record options := Options { o_dim : nat; o_chains : nat; o_param : nat; o_target : R;
  o_initial : option R; o_burn : R; o_samp : R }.

(** mh.py 150-166 __init__ *)
Definition create (o : options) (m : mem) : sampler :=
  Sampler m [] (repeat (match o_initial o with Some s => s | None => (238 / 100) ^ 2 / INR (o_dim o) end) (o_chains o)) None.

(** what happens to a sampler: a call of scheduler (mh.py 647-651), set_mode (291-296), one Robbins-Monro block (466-469) with
    the step size gamma and the rates of the chains, one Haario block (493-504) with the covariance [covs c] of the group
    of chain c *)
Inductive event :=
| Start
| SetMode (mode : string)
| BlockRM (gamma : R) (rates : nat -> R)
| BlockHaario (covs : nat -> arr) (eps : R) (rates : nat -> R).

(** mh.py 466-469, in place *)
Fixpoint rm_loop (o : options) (gamma : R) (rates : nat -> R) (c : nat) (ps : list nat) (m : mem) : mem :=
  match ps with
  | [] => m
  | l :: ps => rm_loop o gamma rates (S c) ps
      (Mem (upd (cells m) l (scale (exp (gamma * (rates c - o_target o))) (cells m l))) (next m))
  end.

(** mh.py 330-341 update_proposal_covariance_from_samples with raw_cov *)
Definition haario_cov (dim : nat) (scaling eps : R) (cov : arr) : arr :=
  Arr (shp cov) (fun ix => scaling * val cov ix + val (eye eps dim) ix).

(** mh.py 493-504 *)
Fixpoint ha_loop (o : options) (f : R) (covs : nat -> arr) (eps : R) (rates : nat -> R) (c : nat) (fs : list R) (m : mem)
    : list R * list nat * mem :=
  match fs with
  | [] => ([], [], m)
  | s :: fs =>
      let s1 := s * exp (f * (rates c - o_target o)) in
      let (l, m1) := new (haario_cov (o_dim o) s1 eps (covs c)) m in
      let '(ss, ls, m2) := ha_loop o f covs eps rates (S c) fs m1 in (s1 :: ss, l :: ls, m2)
  end.

Definition step (o : options) (s : sampler) (e : event) : option sampler :=
  match e with
  | Start =>
      match init_params (o_dim o) (o_chains o) (o_param o) (memory s) with
      | Some (ps, m) => Some (Sampler m ps (factors s) (haf s))
      | None => None
      end
  | SetMode mode =>
      Some (Sampler (memory s) (params s) (factors s)
        (if String.eqb mode "burnin" then Some (o_burn o) else
         if String.eqb mode "sampling_adaptation" then Some (o_samp o) else haf s))
  | BlockRM gamma rates => Some (Sampler (rm_loop o gamma rates 0 (params s) (memory s)) (params s) (factors s) (haf s))
  | BlockHaario covs eps rates =>
      match haf s with
      | None => None
      | Some f =>
          let '(fs, ps, m) := ha_loop o f covs eps rates 0 (factors s) (memory s) in Some (Sampler m ps fs (haf s))
      end
  end.

Fixpoint run (o : options) (s : sampler) (es : list event) : option sampler :=
  match es with
  | [] => Some s
  | e :: es => match step o s e with Some s1 => run o s1 es | None => None end
  end.

(** the covariance matrix of the proposals of chain c; None: ValueError, or no such chain *)
Definition chain_cov (b : nb) (o : options) (s : sampler) (c : nat) : option arr :=
  match nth_error (params s) c with Some l => get_cov b (o_dim o) (cells (memory s) l) | None => None end.
