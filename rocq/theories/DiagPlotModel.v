(** Model of gpmp/modeldiagnosis/plotting.py.  Definitions only.  What is handed to Matplotlib is modelled, not Matplotlib;
    Python lists and arrays are lists, reals are exact, the criteria return a float (a criterion that raises is not modelled). *)
From Coq Require Import Reals List Bool Arith ZArith String.
From Verif Require Import ConfigModel FlModel DesignModel QuantModel PlotModel.
Import ListNotations.
Local Open Scope R_scope.

(** ** plot_pit_ecdf 41-69: the arguments of plt.step *)
Definition pit_curve (pit : list R) : list R * list R :=
  let n := List.length pit in (0 :: sort pit, 0 :: linspace 0 1 n).
(** the value drawn by plt.step (where="pre") at u: that of the first vertex at or after u; [None] beyond the last one *)
Fixpoint step_pre (xs ys : list R) (u : R) : option R :=
  match xs, ys with
  | x :: xs', y :: ys' => if rleb u x then Some y else step_pre xs' ys' u
  | _, _ => None
  end.

(** ** plot_selection_criterion_crosssections 72-244 *)
(** Python indexing: a negative index counts from the end *)
Definition py_pos (n : nat) (z : Z) : option nat :=
  let z' := if Z.ltb z 0 then (z + Z.of_nat n)%Z else z in
  if Z.leb 0 z' && Z.ltb z' (Z.of_nat n) then Some (Z.to_nat z') else None.
Definition py_get (A : Type) (l : list A) (z : Z) : option A := match py_pos (List.length l) z with Some k => nth_error l k | None => None end.
Arguments py_get {A} l z.
(** one panel: abscissae, one curve per criterion, the dashed line, the title, the labels of the curves *)
Record cpanel := mkPanel { p_x : list R; p_curves : list (list fl); p_ref : R; p_title : string }.

Section Criteria.
Variable crits : list (list R -> fl).
(** the reference parameters; an integer array truncates what is stored in its copies (190-191, 222-223) *)
Variable ref : list R.
Variable is_int : bool.
Variable n_points : nat.
Variable delta : R.
Variable names : option (list string).
Variable show : Z -> string.
(** [_grid_for_param] 169-176; an index beyond the box raises *)
Definition grid_for (box : option (list R * list R)) (pos : nat) (opt : R) : option (list R) :=
  match box with
  | Some (lo, hi) => match nth_error lo pos, nth_error hi pos with
                     | Some a, Some b => Some (linspace a b n_points)
                     | _, _ => None
                     end
  | None => Some (linspace (opt - delta) (opt + delta) n_points)
  end.
(** 198-202, 226-230 *)
Definition panel_name (z : Z) : option string :=
  match names with
  | None => Some (String.append "param " (show z))
  | Some l => if Z.ltb z (Z.of_nat (List.length l)) then py_get l z else Some (String.append "param " (show z))
  end.
(** the body of the loops, 185-203 and 217-237: [pos] is the position of the index z in the list; the grid is asked for [pos]
    (line 187 passes ax_i, line 219 passes i) *)
Definition criterion_panel (box : option (list R * list R)) (pos : nat) (z : Z) : option cpanel :=
  match py_pos (List.length ref) z with
  | None => None
  | Some j =>
      let opt := nth j ref 0 in
      match grid_for box pos opt, panel_name z with
      | Some xs, Some nm =>
          Some (mkPanel xs (map (fun f => map (fun a => f (set_nth j (if is_int then trunc a else a) ref)) xs) crits) opt nm)
      | _, _ => None
      end
  end.
Fixpoint panels_from (box : option (list R * list R)) (pos : nat) (ind : list Z) : option (list cpanel) :=
  match ind with
  | [] => Some []
  | z :: ind' => match criterion_panel box pos z with
                 | None => None
                 | Some p => match panels_from box (S pos) ind' with None => None | Some ps => Some (p :: ps) end
                 end
  end.
(** 166-167, 178-244: the individual panels and the panels pooled on one axis; plt.subplots(0, 1) raises; [None]: an exception *)
Definition criterion_sections (ind ind_pooled : option (list Z)) (box box_pooled : option (list R * list R)) : option (list cpanel * list cpanel) :=
  let ind := match ind, ind_pooled with None, None => Some (map Z.of_nat (seq 0 (List.length ref))) | _, _ => ind end in
  match match ind with None => Some [] | Some [] => None | Some l => panels_from box 0 l end with
  | None => None
  | Some ps => match match ind_pooled with None => Some [] | Some l => panels_from box_pooled 0 l end with
               | None => None
               | Some qs => Some (ps, qs)
               end
  end.
End Criteria.
(** the names of the criteria, 149-155 *)
Definition criterion_labels (show : nat -> string) (n_crit : nat) (base : string) (given : option (list string)) : option (list string) :=
  let l := match given with
           | Some l => l
           | None => if Nat.eqb n_crit 1 then [base] else map (fun k => String.append base (String.append " #" (show k))) (seq 0 n_crit)
           end in
  if Nat.eqb (List.length l) n_crit then Some l else None.
(** ** plot_selection_criterion_2d 247-360, for nonnegative indices and n >= 1 *)
Definition log10 (a : R) : R := ln a / ln 10.
(** numpy.nan_to_num; [fmax] is the largest float *)
Definition nan_to_num (fmax : R) (a : fl) : R := match a with Fin x => x | NaN => 0 | PInf => fmax | NInf => - fmax end.
Section Profile.
Variable fmax : R.
(** info.selection_criterion_nograd, model.covparam, info.covparam, param_indices *)
Variable crit : list R -> fl.
Variables model_cov info_cov : list R.
Variables i1 i2 : nat.
Variable n : nat.
Variable factor : R.
(** 307-308: sigma for index 0, else rho *)
Definition natural (i : nat) (c : R) : R := if Nat.eqb i 0 then exp (c / 2) else exp (- c).
(** 310-311 *)
Definition axis (i : nat) : list R :=
  let c := log10 (natural i (nth i model_cov 0)) in
  map (fun t => Rpower 10 t) (linspace (c - log10 factor) (c + log10 factor) n).
(** 314-315 *)
Definition to_param (i : nat) (p : R) : R := if Nat.eqb i 0 then ln (p * p) else ln (1 / p).
(** 317-328: row a, column b of the mesh is (p1[b], p2[a]) *)
Definition values : list (list R) :=
  map (fun p2 => map (fun p1 => nan_to_num fmax (crit (set_nth i2 (to_param i2 p2) (set_nth i1 (to_param i1 p1) info_cov)))) (axis i1)) (axis i2).
(** 331-332 *)
Definition shift_of (shift_criterion : bool) : R :=
  if shift_criterion then match np_min (List.concat values) with Some m => - m | None => 0 end else 0.
Definition level (s v : R) : R := log10 (Rmax (1 / 100) (v + s)).
(** what is drawn: abscissae, ordinates, levels (335) *)
Definition profile (shift_criterion : bool) : list R * list R * list (list R) :=
  (map log10 (axis i1), map log10 (axis i2), map (map (level (shift_of shift_criterion))) values).
(** 338-340, 345-346: the place of a parameter vector on the figure *)
Definition place (i : nat) (c : R) : R := if Nat.eqb i 0 then 1 / 2 * log10 (exp c) else - log10 (exp c).
Definition point (cov : list R) : R * R := (place i1 (nth i1 cov 0), place i2 (nth i2 cov 0)).
End Profile.
