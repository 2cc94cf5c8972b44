(** Model of gpmp/plot/plotutils.py: Figure.plotgp 131-235 and crosssections 238-395.  Definitions only.
    A figure is the list of the artists drawn, in order; Matplotlib itself is not modelled.  Reals are exact; the arrays of
    one curve are lists of equal lengths and variances given to plotgp directly are nonnegative (a negative one is NaN in the
    code). *)
From Coq Require Import Reals List Bool Arith ZArith String Ascii.
From Verif Require Import ConfigModel FlModel DesignModel QuantModel.
Import ListNotations.
Local Open Scope R_scope.

Inductive err := ValueErr | IndexErr | TypeErr | UnboundErr | FigErr.
(** a line, a filled polygon, isolated points, a vertical line; an empty label stands for no label *)
Inductive draw :=
| Line (xs ys : list R) (color label : string)
| Dashed (xs ys : list R) (color : string)
| Fill (xs ys : list R) (color label : string)
| Dots (xs : list R) (ys : list fl) (label : string)
| VLine (x : R).

(** [format(i, "02x")]: at least two digits *)
Definition hex_digit (k : nat) : string :=
  nth k ["0"; "1"; "2"; "3"; "4"; "5"; "6"; "7"; "8"; "9"; "a"; "b"; "c"; "d"; "e"; "f"]%string ""%string.
Fixpoint hex_digits (fuel n : nat) : string :=
  match fuel with
  | O => ""%string
  | S f => if Nat.ltb n 16 then hex_digit n else String.append (hex_digits f (n / 16)) (hex_digit (n mod 16))
  end.
Definition hex2 (n : nat) : string := if Nat.ltb n 16 then String.append "0" (hex_digit n) else hex_digits n n.
(** 165 *)
Definition hex_code (rgb : list nat) : string := String.append "#" (String.concat "" (map hex2 rgb)).

(** the local variables set by the colour scheme, 164-200: mcol, delta0, ci_labels, fillcol, drawulb with edgecol *)
Record style := mkStyle { s_line : string; s_deltas : list R; s_labels : list string; s_fill : list string; s_edges : option string }.
(** [delta0 = [delta0[0]]; ci_labels = [ci_labels[0]]] *)
Definition first_only (deltas : list R) (labels : list string) (line fill : string) (edges : option string) : style + err :=
  match deltas, labels with
  | d :: _, l :: _ => inl (mkStyle line [d] [l] [fill] edges)
  | _, _ => inr IndexErr
  end.
(** 164-200; an unknown scheme leaves mcol unbound, an error at 203 *)
Definition style_of (scheme : string) (rgb : option (list nat)) (deltas : list R) (labels : list string) : style + err :=
  if String.eqb scheme "hue" then
    match rgb with
    | None => inr TypeErr
    | Some c => first_only deltas labels (hex_code c) (hex_code c) None
    end
  else if String.eqb scheme "bw" then first_only deltas labels "#000000" "#F2F2F2" (Some "#000000"%string)
  else if String.eqb scheme "simple" then first_only deltas labels "#F2404C" "#BFBFBF" None
  else if String.eqb scheme "default" then
    inl (mkStyle "#F2404C" (rev deltas) (rev labels) ["#F2F2F2"; "#D8D8D8"; "#BFBFBF"]%string None)
  else inr UnboundErr.

Definition zip_with (A B C : Type) (f : A -> B -> C) (l : list A) (m : list B) : list C := map (fun ab => f (fst ab) (snd ab)) (combine l m).
Arguments zip_with {A B C} f l m.
(** 208-209 *)
Definition lower (mean variance : list R) (delta : R) : list R := zip_with (fun m v => m - delta * sqrt v) mean variance.
Definition upper (mean variance : list R) (delta : R) : list R := zip_with (fun m v => m + delta * sqrt v) mean variance.
(** 205-235 *)
Fixpoint bands (x mean variance : list R) (edges : option string) (fill labels : list string) (deltas : list R) : list draw * option err :=
  match deltas with
  | [] => ([], None)
  | d :: deltas' =>
      match fill, labels with
      | c :: fill', l :: labels' =>
          let up := upper mean variance d in let lo := lower mean variance d in
          let r := bands x mean variance edges fill' labels' deltas' in
          (Fill (x ++ rev x) (up ++ rev lo) c l ::
             match edges with Some e => [Dashed x up e; Dashed x lo e] | None => [] end ++ fst r, snd r)
      | _, _ => ([], Some IndexErr)
      end
  end.
(** plotgp 131-235; [ppf] is scipy.stats.norm.ppf *)
Definition plotgp (ppf : R -> R) (x mean variance : list R) (scheme : string) (rgb : option (list nat))
  (mean_label : string) (show_mean : bool) (ci : list R) (ci_labels : list string) (show_ci : bool) : list draw * option err :=
  let mean_label := if show_mean then mean_label else ""%string in
  let ci_labels := if show_ci then ci_labels else repeat ""%string 3 in
  let delta0 := map (fun level => ppf ((1 + level) / 2)) ci in
  match style_of scheme rgb delta0 ci_labels with
  | inr e => ([], Some e)
  | inl s =>
      let r := bands x mean variance (s_edges s) (s_fill s) (s_labels s) (s_deltas s) in
      (Line x mean (s_line s) mean_label :: fst r, snd r)
  end.
(** default arguments, 142-143 *)
Definition default_ci : list R := [95 / 100; 99 / 100; 999 / 1000].
Definition default_labels : list string := ["CI 95%"; "CI 99%"; "CI 99.9%"]%string.

(** the argument ind_i of crosssections: None, "min", "max", another string, or integers (a scalar is a list of one) *)
Inductive anchors := ANone | AMin | AMax | AStr | AInts (l : list Z).
(** order of floats that are not NaN *)
Definition fl_ltb (a b : fl) : bool :=
  match a, b with
  | Fin x, Fin y => rltb x y
  | NInf, Fin _ | NInf, PInf | Fin _, PInf => true
  | _, _ => false
  end.
(** position of the first smallest entry *)
Fixpoint argmin_from (pos best : nat) (vbest : fl) (l : list fl) : nat :=
  match l with
  | [] => best
  | a :: l' => if fl_ltb a vbest then argmin_from (S pos) pos a l' else argmin_from (S pos) best vbest l'
  end.
Definition argmin (l : list fl) : nat := match l with [] => 0%nat | a :: l' => argmin_from 1 0 a l' end.
Definition is_nan (a : fl) : bool := match a with NaN => true | _ => false end.
(** np.nanargmin: NaN is replaced by +inf; ValueError when there is nothing else (and for an empty array) *)
Definition nanargmin (z : list fl) : option nat :=
  if forallb is_nan z then None else Some (argmin (map (fun a => match a with NaN => PInf | a => a end) z)).
(** np.nanargmax: NaN is replaced by -inf *)
Definition nanargmax (z : list fl) : option nat :=
  if forallb is_nan z then None else Some (argmin (map (fun a => match a with NaN => PInf | a => fl_opp a end) z)).
(** 302-314 *)
Definition anchor_indices (z : list fl) (a : anchors) : list Z + err :=
  match a with
  | ANone | AMin => match nanargmin z with Some k => inl [Z.of_nat k] | None => inr ValueErr end
  | AMax => match nanargmax z with Some k => inl [Z.of_nat k] | None => inr ValueErr end
  | AStr => inr ValueErr
  | AInts l => inl l
  end.

(** conversion of a float to an integer when it is stored in an integer array *)
Definition trunc (a : R) : R := if rltb a 0 then - IZR (Int_part (- a)) else IZR (Int_part a).
Fixpoint set_nth (j : nat) (a : R) (l : list R) : list R :=
  match l, j with [] , _ => [] | _ :: l', O => a :: l' | b :: l', S j' => b :: set_nth j' a l' end.
(** 340-347 *)
Definition sweep (lo hi anchor : R) (nt : nat) : list R := sort (linspace lo hi (nt - 1) ++ [anchor]).
(** 348-349: [np.tile] keeps the type of xi, so the swept values are truncated if xi holds integers *)
Definition section_points (is_int : bool) (row : list R) (j : nat) (t : list R) : list (list R) :=
  map (fun a => set_nth j (if is_int then trunc a else a) row) t.

Section Sections.
Variable ppf : R -> R.
(** [model.predict(xi, zi, xt)] as a function of xt *)
Variable predict : list (list R) -> list R * list R.
Variable is_int : bool.
Variable xi : list (list R).
Variable zi : list fl.
Variables box_lo box_hi : list R.
Variable nt : nat.
Variable show_data : bool.

(** the body of the loops, 340-392, for anchor observation k, dimension j (both in bounds) *)
Definition panel (first : bool) (k j : nat) : list draw * option err :=
  let row := nth k xi [] in
  let t := sweep (nth j box_lo 0) (nth j box_hi 0) (nth j row 0) nt in
  let zp := predict (section_points is_int row j t) in
  let zpv := map (fun v => Rmax v 0) (snd zp) in
  let g := plotgp ppf t (fst zp) zpv "default" None "posterior mean" first default_ci default_labels first in
  match snd g with
  | Some e => g
  | None =>
      (fst g ++
       (if show_data then
          [Dots (map (fun r => nth j r 0) xi) zi (if first then "projected observations" else "");
           Dots [nth j row 0] [nth k zi NaN] (if first then "anchor" else "")]
        else []) ++ [VLine (nth j row 0)], None)
  end.

(** [a < 0 or a >= n] *)
Definition in_bounds (a : Z) (n : nat) : bool := Z.leb 0 a && Z.ltb a (Z.of_nat n).
(** the loop over dimensions, 335-392: panels drawn, with their numbers (354) *)
Fixpoint dim_loop (d_total n_anchors i : nat) (k : nat) (d : nat) (dims : list Z) : list (nat * list draw) * option err :=
  match dims with
  | [] => ([], None)
  | j :: dims' =>
      if in_bounds j d_total then
        let p := panel (Nat.eqb i 0 && Nat.eqb d 0) k (Z.to_nat j) in
        match snd p with
        | Some e => ([((n_anchors * d + i + 1)%nat, fst p)], Some e)
        | None => let r := dim_loop d_total n_anchors i k (S d) dims' in
                  (((n_anchors * d + i + 1)%nat, fst p) :: fst r, snd r)
        end
      else ([], Some IndexErr)
  end.
(** the loop over anchors, 331-392 *)
Fixpoint anchor_loop (d_total n_anchors i : nat) (dims : list Z) (ks : list Z) : list (nat * list draw) * option err :=
  match ks with
  | [] => ([], None)
  | k :: ks' =>
      if in_bounds k (List.length xi) then
        let r := dim_loop d_total n_anchors i (Z.to_nat k) 0 dims in
        match snd r with
        | Some e => r
        | None => let r' := anchor_loop d_total n_anchors (S i) dims ks' in (fst r ++ fst r', snd r')
        end
      else ([], Some IndexErr)
  end.
(** crosssections 238-395.  [d_total] is xi.shape[1]; ind_dim None is all dimensions; zi is already flat (a zi with several
    columns is not modelled).  A figure without panels raises (Figure.__init__ 52-54), which exception is not modelled. *)
Definition crosssections (d_total : nat) (ind_i : anchors) (ind_dim : option (list Z)) : list (nat * list draw) * option err :=
  if negb (Nat.eqb (List.length box_lo) d_total && Nat.eqb (List.length box_hi) d_total) then ([], Some ValueErr)
  else if negb (Nat.eqb (List.length zi) (List.length xi)) then ([], Some ValueErr)
  else if Nat.ltb nt 2 then ([], Some ValueErr)
  else match anchor_indices zi ind_i with
       | inr e => ([], Some e)
       | inl ks =>
           let dims := match ind_dim with None => map Z.of_nat (seq 0 d_total) | Some l => l end in
           match ks, dims with
           | [], _ | _, [] => ([], Some FigErr)
           | _, _ => anchor_loop d_total (List.length ks) 0 dims ks
           end
       end.
End Sections.
