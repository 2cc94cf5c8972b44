(** Model of selection_criterion_statistics of gpmp/modeldiagnosis/param_stats.py.  Definitions only.  The calls to
    scipy.integrate.quad, scipy.optimize.brentq and minimize_scalar are arguments.  Simplified: the list of indices is not empty, indices are not negative;
    the criterion is real valued (an exception in it is not modelled); printing and the Fisher matrix are left out. *)
From Coq Require Import List Arith Reals Bool.
From Verif Require Import ConfigModel FlModel ParamModel DiagModel.
Import ListNotations.
Local Open Scope R_scope.

(** param_stats.py 366: one row of the table; its quantiles are at 0.1, 0.25, 0.5, 0.75, 0.9 *)
Record irow := IRow { i_mean : fl; i_var : fl; i_quantiles : list (option R); i_mode : R }.

Section Stat.
Variable quad : (R -> fl) -> R -> R -> fl.
Variable brentq : (R -> fl) -> R -> R -> R.
(** minimize_scalar on bounds: res.x if res.success *)
Variable minimize : (R -> R) -> R -> R -> option R.

(** param_stats.py 114-144: the criterion with parameter j set to x *)
Definition slice_at (crit : list R -> R) (covparam : list R) (j : nat) (x : R) : R := crit (upd covparam j x).

(** param_stats.py 337-343: the interval *)
Definition interval_of (covparam : list R) (box : option (list R * list R)) (delta : R) (j : nat) : option (R * R) :=
  match nth_error covparam j with
  | None => None
  | Some opt =>
      match box with
      | Some (l, u) => match nth_error l j, nth_error u j with Some lo, Some hi => Some (lo, hi) | _, _ => None end
      | None => Some (opt - delta, opt + delta)
      end
  end.

(** param_stats.py 336-366: one row; None: an exception *)
Definition integration_row (crit : list R -> R) (covparam : list R) (box : option (list R * list R)) (delta : R) (j : nat) : option irow :=
  match nth_error covparam j, interval_of covparam box delta j with
  | Some opt, Some (lo, hi) =>
      let sp := slice_at crit covparam j in
      let log_pdf x := - sp x in
      match dist_Z quad log_pdf lo hi with
      | None => None
      | Some Z =>
          Some (IRow (dist_mean quad log_pdf lo hi Z) (dist_var quad log_pdf lo hi Z)
            (map (dist_quantile quad brentq log_pdf lo hi Z) levels)
            (match minimize sp lo hi with Some x => x | None => opt end))
      end
  | _, _ => None
  end.
Fixpoint integration_rows crit covparam box delta (ind : list nat) : option (list irow) :=
  match ind with
  | [] => Some []
  | j :: ind' =>
      match integration_row crit covparam box delta j with
      | None => None
      | Some r => match integration_rows crit covparam box delta ind' with None => None | Some rs => Some (r :: rs) end
      end
  end.
(** param_stats.py 314-369: the table *)
Definition integration_statistics crit covparam (ind : option (list nat)) box delta : option (list irow) :=
  integration_rows crit covparam box delta (match ind with Some l => l | None => seq 0 (length covparam) end).
End Stat.
