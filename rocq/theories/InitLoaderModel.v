(* InitLoaderModel.v: the dataloader branches of gpmp/kernel/init.py, for a model whose covariance is
   maternp_covariance.  Definitions only.  shards: dataset.x_list, a row mapping a column index to a number
   (ReduceModel); batches: what one finite pass over the loader yields (DataModel describes which batches these are;
   the pass over an infinite loader does not end).  glog is gammaln(d/2 + 1).
   TypeError (None / 0 after no batch) and the exceptions of empty shards are None. *)
From Coq Require Import Reals.
From mathcomp Require Import all_ssreflect all_algebra.
From Verif Require Import LinAlg KrigModel Rinst LikModel MaternModel MaternCov.
From Verif Require ReduceModel.
Set Implicit Arguments.
Unset Strict Implicit.
Unset Printing Implicit Defensive.
Import Order.TTheory GRing.Theory Num.Theory.
Local Open Scope ring_scope.
Local Arguments exp : clear scopes.
Local Arguments ln : clear scopes.
Local Arguments sqrt : clear scopes.
Bind Scope ring_scope with R.

Section InitLoader.
Variables (b : backend) (p d : nat) (glog : R).
Record batch := mkBatch { bsize : nat; bx : 'M[R]_(bsize, d); bz : 'cV[R]_bsize }.

(* init.py 15-17 _dataloader_x_delta *)
Definition dataloader_x_delta (shards : seq (seq ReduceModel.row)) : option ('I_d -> R) :=
  match ReduceModel.reduce_max shards, ReduceModel.reduce_min shards with
  | ReduceModel.Arr hi, ReduceModel.Arr lo => Some (fun k : 'I_d => (hi k : R) - lo k)
  | _, _ => None
  end.
(* 29, 40, 59 *)
Definition rho_of (delta : 'I_d -> R) (k : 'I_d) : R := exp (glog / d%:R) / sqrt PI * delta k.
(* 20-21 and 30, 41, 60 *)
Definition covparam_rho (s2 : R) (delta : 'I_d -> R) : 'rV[R]_(1 + d) :=
  row_mx (ln s2)%:M (\row_k - ln (rho_of delta k)).

(* dataloader.py 484-513 reduce_mean; an exception of func is Err.  V: scalars or pairs of scalars *)
Section Mean.
Variables (T : Type) (bsz : T -> nat) (V : lmodType R).
Fixpoint reduce_loop (func : T -> res V) (total : option V) (w : nat) (bs : seq T) : option (res V) :=
  match bs with
  | [::] => match total with None => None | Some t => Some (Ok (w%:R^-1 *: t)) end
  | a :: bs' =>
      match func a with
      | Err e => Some (Err e)
      | Ok v => reduce_loop func (Some ((if total is Some t then t else 0) + (bsz a)%:R *: v)) (w + bsz a) bs'
      end
  end.
Definition reduce_mean func bs := reduce_loop func None 0 bs.
End Mean.

(* 24-33 *)
Definition init_zero_mean_loader (shards : seq (seq ReduceModel.row)) (bs : seq batch) : option (res 'rV[R]_(1 + d)) :=
  match dataloader_x_delta shards with
  | None => None
  | Some delta =>
      let covparam := covparam_rho 1 delta in
      omap (fun t => rbind t (fun s2 => Ok (covparam_rho s2 delta)))
        (reduce_mean bsize (V := [lmodType R of R^o]) (fun a =>
           rbind (norm_k_sqrd_with_zero_mean (maternp_covariance_ii b p covparam (bx a)) (bz a))
             (fun nrm => Ok ((bsize a)%:R^-1 * nrm))) bs)
  end.
(* 35-52; the two reductions of line 50 act on the two columns of the stacked values.  column: the observations of the
   loader have shape (n, 1); zTKinvz then has shape (1,) and cannot be stacked (line 49) with the scalar mean *)
Definition init_constant_mean_loader (column : bool) (shards : seq (seq ReduceModel.row)) (bs : seq batch) : option (res (R * 'rV[R]_(1 + d))) :=
  match dataloader_x_delta shards with
  | None => None
  | Some delta =>
      let covparam := covparam_rho 1 delta in
      omap (fun t => rbind t (fun ms => Ok (ms.1, covparam_rho ms.2 delta)))
        (reduce_mean bsize (V := [lmodType R of (R^o * R^o)%type]) (fun a =>
           rbind (k_inverses (maternp_covariance_ii b p covparam (bx a)) (bz a)) (fun t =>
             let '(zTKinvz, Kinv1, Kinvz) := t in
             if column then Err (if b is Torch then RuntimeErr else ValueErr) else
             Ok ((\sum_i Kinvz i 0) / (\sum_i Kinv1 i 0), zTKinvz / (bsize a)%:R))) bs)
  end.
(* 54-66; a batch has at least as many rows as the mean has columns.  P: model.mean(x, meanparam); qr: the QR
   factorisation used by compute_contrast_matrix *)
Section Linear.
Variable q : nat.
Record lbatch := mkLBatch { lrest : nat; lx : 'M[R]_(q + lrest, d); lz : 'cV[R]_(q + lrest) }.
Definition lsize (a : lbatch) : nat := q + lrest a.
Variables (mean : forall n, 'M[R]_(n, d) -> 'M[R]_(n, q)) (qr : forall r, qr_fun R_rcfType q r).
Definition init_linear_mean_loader (shards : seq (seq ReduceModel.row)) (bs : seq lbatch) : option (res 'rV[R]_(1 + d)) :=
  match dataloader_x_delta shards with
  | None => None
  | Some delta =>
      let covparam := covparam_rho 1 delta in
      omap (fun t => rbind t (fun s2 => Ok (covparam_rho s2 delta)))
        (reduce_mean lsize (V := [lmodType R of R^o]) (fun a =>
           rbind (norm_k_sqrd (@qr (lrest a)) (maternp_covariance_ii b p covparam (lx a)) (mean (lx a)) (lz a))
             (fun nrm => Ok (nrm / (lsize a)%:R))) bs)
  end.
End Linear.
End InitLoader.
