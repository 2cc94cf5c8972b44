(** Model of gpmp/modeldiagnosis (performance.py, param_stats.py, un1ddist.py, utils.py and the data section of
    report.py).  Definitions only.  Raised exceptions are [None]. *)
From Coq Require Import Reals List Bool Arith ZArith String.
From Verif Require Import ConfigModel FlModel PriorModel ParamModel GaussProofs DesignModel.
Import ListNotations.
Notation length := List.length.
Local Open Scope R_scope.

(** * performance.py *)
(** numpy mean of a non-empty vector *)
Definition mean (z : list R) : R := sum_list z / INR (length z).
(** gnp.norm(v, ord=2) ** 2 *)
Definition norm2 (v : list R) : R := sqrt (sum_list (map (fun x => x * x) v)).
Definition sq (x : R) : R := x * x.
(** gnp.std, population convention *)
Definition std (z : list R) : R := sqrt (mean (map (fun x => sq (x - mean z)) z)).
(** gnp.log10 *)
Definition fl_log10 (a : fl) : fl := fl_div (fl_ln a) (Fin (ln 10)).
Record indices := mkIndices {
  ix_n : nat; ix_std : R; ix_tss : R; ix_sse : R; ix_ratio : fl; ix_log10 : fl; ix_rmse : R; ix_rmse_over_std : fl; ix_q2 : fl }.
(** performance.py 112-129 (targets zi, leave-one-out errors) and 150-167 (targets zt, errors zt - zpm) *)
Definition performance (z e : list R) : indices :=
  let n := length z in
  let tss := sq (norm2 (map (fun x => x - mean z) z)) in
  let sse := sq (norm2 e) in
  let ratio := fl_div (Fin sse) (Fin tss) in
  let rmse := sqrt (sse / INR (Nat.max n 1)) in
  let s := std z in
  mkIndices n s tss sse ratio (fl_log10 ratio) rmse (fl_div (Fin rmse) (Fin s)) (fl_sub (Fin 1) (fl_div (Fin sse) (Fin tss))).
(** 149-153: residuals of the test set, entry by entry *)
Definition residuals (zt zpm : list R) : list R := zip_with Rminus zt zpm.

(** probability integral transforms, 131-134 and 169-171.  scipy.stats.norm.cdf is NaN unless the scale is positive. *)
Definition norm_cdf (x loc scale : R) : fl := if rltb 0 scale then Fin (ncdf ((x - loc) / scale)) else NaN.
Definition pit_one (z m v : R) : fl := norm_cdf z m (sqrt (Rmax v 0)).
(** targets given as a vector: entry by entry; as a column: NumPy broadcasts (n,1) against (n,) to a square array *)
Definition pit (column : bool) (z m v : list R) : list (list fl) :=
  if column then map (fun x => zip_with (pit_one x) m v) z
  else [map (fun p => pit_one (fst (fst p)) (snd (fst p)) (snd p)) (combine (combine z m) v)].

(** * param_stats.py *)
(** np.trapz *)
Fixpoint fl_trapz (w : list fl) (xs : list R) : fl :=
  match w, xs with
  | a :: ((b :: _) as w'), x :: ((y :: _) as xs') =>
      fl_add (fl_div (fl_mul (Fin (y - x)) (fl_add b a)) (Fin 2)) (fl_trapz w' xs')
  | _, _ => Fin 0
  end.
Fixpoint trapz (w xs : list R) : R :=
  match w, xs with
  | a :: ((b :: _) as w'), x :: ((y :: _) as xs') => (y - x) * (b + a) / 2 + trapz w' xs'
  | _, _ => 0
  end.
(** cumulative_trapezoid(w, xs, initial=0) started at [acc] *)
Fixpoint cumtrapz (acc : R) (w xs : list R) : list R :=
  match w, xs with
  | a :: ((b :: _) as w'), x :: ((y :: _) as xs') => acc :: cumtrapz (acc + (y - x) * (b + a) / 2) w' xs'
  | _ :: _, _ :: _ => [acc]
  | _, _ => []
  end.
(** np.interp(q, xp, fp) for a non-decreasing xp: below the first abscissa the first value, otherwise the last
    segment that starts at or before q *)
Fixpoint interp_from (q x0 f0 : R) (xp fp : list R) : R :=
  match xp, fp with
  | x1 :: xp', f1 :: fp' =>
      if rleb x1 q then interp_from q x1 f1 xp' fp'
      else if reqb x0 q then f0 else (f1 - f0) / (x1 - x0) * (q - x0) + f0
  | _, _ => f0
  end.
Definition interp (q : R) (xp fp : list R) : R :=
  match xp, fp with x0 :: xp', f0 :: fp' => if rltb q x0 then f0 else interp_from q x0 f0 xp' fp' | _, _ => 0 end.
(** np.argmax: first index of the largest entry *)
Fixpoint argmax_from (i best : nat) (m : R) (l : list R) : nat :=
  match l with [] => best | a :: l' => if rltb m a then argmax_from (S i) i a l' else argmax_from (S i) best m l' end.
Definition argmax (l : list R) : nat := match l with [] => 0%nat | a :: l' => argmax_from 1 0 a l' end.
(** np.max, NaN propagating *)
Definition fl_npmax (l : list fl) : fl := match l with [] => NaN | a :: l' => fold_left fl_max l' a end.
(** the weights as reals; a weight that is not finite has made the normalisation fail before *)
Fixpoint reals (l : list fl) : option (list R) :=
  match l with
  | [] => Some []
  | Fin a :: l' => match reals l' with Some r => Some (a :: r) | None => None end
  | _ => None
  end.
Definition levels : list R := [1 / 10; 1 / 4; 1 / 2; 3 / 4; 9 / 10].
Record stats := mkStats { st_mean : R; st_var : R; st_quantiles : list R; st_mode : R }.
(** fast_univariate_stats, param_stats.py 61-111 *)
Definition fast_univariate_stats (f : R -> fl) (lo hi : R) (n : nat) : option stats :=
  let xs := linspace lo hi n in
  let vals := map f xs in
  match vals with
  | [] => None
  | _ =>
    let logw := map fl_opp vals in
    let logw := map (fun a => fl_sub a (fl_npmax logw)) logw in
    let w := map fl_exp logw in
    match fl_trapz w xs with
    | Fin Z =>
        if rleb Z 0 then None
        else match reals w with
             | None => None
             | Some w =>
                 let mean_val := trapz (zip_with Rmult xs w) xs / Z in
                 let second := trapz (zip_with Rmult (map sq xs) w) xs / Z in
                 let cdf := map (fun a => a / Z) (cumtrapz 0 w xs) in
                 Some (mkStats mean_val (second - sq mean_val) (map (fun q => interp q cdf xs) levels) (nth (argmax w) xs 0))
             end
    | _ => None
    end
  end.
(** make_single_param_criterion_function 114-144 *)
Definition freeze (crit : list R -> fl) (covparam : list R) (j : nat) (x : R) : fl := crit (upd covparam j x).
(** selection_criterion_statistics_fast 210-261: one row per requested index; [None] for a row that raises *)
Definition stats_row (crit : list R -> fl) (covparam : list R) (box : option (list R * list R)) (delta : R) (n : nat) (j : nat) : option stats :=
  match nth_error covparam j with
  | None => None
  | Some opt =>
      match box with
      | Some (l, u) => match nth_error l j, nth_error u j with
                       | Some lo, Some hi => fast_univariate_stats (freeze crit covparam j) lo hi n
                       | _, _ => None
                       end
      | None => fast_univariate_stats (freeze crit covparam j) (opt - delta) (opt + delta) n
      end
  end.
Fixpoint stats_rows crit covparam box delta n (ind : list nat) : option (list stats) :=
  match ind with
  | [] => Some []
  | j :: ind' => match stats_row crit covparam box delta n j with
                 | None => None
                 | Some r => match stats_rows crit covparam box delta n ind' with None => None | Some rs => Some (r :: rs) end
                 end
  end.
Definition statistics_fast crit covparam (ind : option (list nat)) box delta n : option (list stats) :=
  stats_rows crit covparam box delta n (match ind with Some l => l | None => seq 0 (length covparam) end).

(** * un1ddist.py *)
Section Un1d.
(** scipy.integrate.quad, first output *)
Variable quad : (R -> fl) -> R -> R -> fl.
(** scipy.optimize.brentq *)
Variable brentq : (R -> fl) -> R -> R -> R.
Variable log_pdf : R -> R.
Variables a b : R.
(** un1ddist.py 90-96 *)
Definition safe_exp (u : R) : fl := if rltb 709 u then PInf else if rltb u (-745) then Fin 0 else Fin (exp u).
(** un1ddist.py 98-100 *)
Definition f_scalar (x : R) : fl := safe_exp (log_pdf x).
(** un1ddist.py 67-88: the normalisation constant, [None] when the constructor raises *)
Definition dist_Z : option R :=
  if rltb a b then
    match quad f_scalar a b with
    | Fin Z => if rleb Z 0 then None else Some Z
    | _ => None
    end
  else None.
(** un1ddist.py 134-155, 157-169, 171-184 (for a constructed distribution) *)
Definition dist_cdf (Z x : R) : fl :=
  if rleb x a then Fin 0 else if rleb b x then Fin 1 else fl_div (quad f_scalar a x) (Fin Z).
Definition dist_mean (Z : R) : fl := fl_div (quad (fun t => fl_mul (Fin t) (f_scalar t)) a b) (Fin Z).
Definition dist_var (Z : R) : fl :=
  fl_sub (fl_div (quad (fun t => fl_mul (Fin (sq t)) (f_scalar t)) a b) (Fin Z)) (fl_mul (dist_mean Z) (dist_mean Z)).
(** un1ddist.py 186-215, finite bounds *)
Definition dist_quantile (Z p : R) : option R :=
  if rltb 0 p && rltb p 1 then Some (brentq (fun t => fl_sub (dist_cdf Z t) (Fin p)) a b) else None.
End Un1d.

(** * utils.py *)
Record description := mkDesc { ds_min : R; ds_max : R; ds_delta : R; ds_mean : R; ds_std : R; ds_scaled : option R }.
(** describe_array 66-119, one column with its factor *)
Definition describe (x : list R) (factor : option R) : option description :=
  match np_min x, np_max x with
  | Some mn, Some mx =>
      let delta := mx - mn in
      Some (mkDesc mn mx delta (mean x) (std x) (match factor with Some s => Some (delta * s) | None => None end))
  | _, _ => None
  end.
(** report.py 209-219: the column named "delta_over_sigma" of the observations and of input j, for the parameters
    built from covparam (the first reported value is the denormalised sigma2, the last d the denormalised ranges) *)
Definition report_z (covparam : list R) (z : list R) : option description :=
  match make_anisotropic_param covparam None None ""%string with
  | Some p => match denormalized_values p with
              | v :: _ => describe z (Some (1 / v))
              | [] => None
              end
  | None => None
  end.
Definition report_x (covparam : list R) (d j : nat) (xj : list R) : option description :=
  match make_anisotropic_param covparam None None ""%string with
  | Some p => let v := denormalized_values p in describe xj (Some (1 / nth j (skipn (length v - d) v) 0))
  | None => None
  end.
