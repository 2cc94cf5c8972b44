(** Model of gpmp/misc/designs.py.  Definitions only.
    A sample is its list of rows, a row the list of its coordinates.  Raised exceptions are [None]. *)
From Coq Require Import Reals List Bool Arith.
From Verif Require Import FlModel.
Import ListNotations.
Local Open Scope R_scope.

(** scipy.spatial.distance, Euclidean metric *)
Fixpoint sqdist (x y : list R) : R :=
  match x, y with a :: x', b :: y' => (a - b) * (a - b) + sqdist x' y' | _, _ => 0 end.
Definition dist (x y : list R) : R := sqrt (sqdist x y).
(** pdist: all pairs i < j *)
Fixpoint pdist (s : list (list R)) : list R :=
  match s with [] => [] | x :: s' => map (dist x) s' ++ pdist s' end.
(** cdist, flattened *)
Definition cdist (s x : list (list R)) : list R := flat_map (fun p => map (dist p) x) s.
(** np.min and np.max raise on an empty array *)
Definition np_min (l : list R) : option R := match l with [] => None | a :: l' => Some (fold_left Rmin l' a) end.
Definition np_max (l : list R) : option R := match l with [] => None | a :: l' => Some (fold_left Rmax l' a) end.
(** designs.py 16-32, 35-51 *)
Definition maxdist (s : list (list R)) : option R := np_max (pdist s).
Definition mindist (s : list (list R)) : option R := np_min (pdist s).

(** 71-102 with an explicit discretisation x (line 93: n = x.shape[0] iterations of the same computation) *)
Fixpoint filldist_loop (s x : list (list R)) (n : nat) (fd : R) : option R :=
  match n with
  | O => Some fd
  | S n' => match np_min (cdist s x) with
            | None => None
            | Some d => filldist_loop s x n' (if rltb fd d then d else fd)
            end
  end.
Definition filldist_approx (s x : list (list R)) : option R := filldist_loop s x (length x) 0.

(** 105-123: qmc.scale broadcasts the bounds to the number of columns, rejects a bound pair with l >= u, an empty
    sample and a sample outside the unit cube *)
Definition broadcast (d : nat) (l : list R) : option (list R) :=
  if Nat.eqb (length l) d then Some l else match l with [a] => Some (repeat a d) | _ => None end.
Definition unit_entry (a : R) : bool := rleb 0 a && rleb a 1.
Fixpoint scale_row (l u r : list R) : list R :=
  match l, u, r with a :: l', b :: u', x :: r' => (x * (b - a) + a) :: scale_row l' u' r' | _, _, _ => [] end.
Fixpoint all_lt (l u : list R) : bool :=
  match l, u with a :: l', b :: u' => rltb a b && all_lt l' u' | _, _ => true end.
Definition scale (d : nat) (s : list (list R)) (l u : list R) : option (list (list R)) :=
  match broadcast d l, broadcast d u with
  | Some l, Some u =>
      if all_lt l u then
        match s with
        | [] => None
        | _ => if forallb (forallb unit_entry) s then Some (map (scale_row l u) s) else None
        end
      else None
  | _, _ => None
  end.

(** np.linspace *)
Definition linspace (a b : R) (n : nat) : list R :=
  match n with
  | O => []
  | S O => [a]
  | _ => map (fun i => a + INR i * ((b - a) / INR (n - 1))) (seq 0 n)
  end.
(** np.prod *)
Fixpoint prod (n : list nat) : nat := match n with [] => 1%nat | k :: n' => (k * prod n')%nat end.
(** 155-156: the argument n is an integer or a list *)
Definition counts (dim : nat) (n : nat + list nat) : list nat := match n with inl k => repeat k dim | inr l => l end.
(** 162-173: meshgrid with "ij" indexing gives, for coordinate i, the array of shape n whose entry at a multi-index k
    is levels[i][k_i]; reshape flattens it row-major, so flat position r has k_i = (r / (n_{i+1} ... n_{dim-1})) mod n_i *)
Definition flat_index (n : list nat) (i r : nat) : nat := ((r / prod (skipn (S i) n)) mod nth i n 0)%nat.
(** regulargrid 126-175; IndexError when n or the box is too short, and the reshape fails when prod(n) is not the grid size.
    (np.prod of an empty list is the float 1.0, which np.zeros rejects.) *)
Definition regulargrid (dim : nat) (n : nat + list nat) (xmin xmax : list R) : option (list (list R)) :=
  let n := counts dim n in
  if Nat.ltb (length n) dim || Nat.ltb (length xmin) dim || Nat.ltb (length xmax) dim || Nat.eqb (length n) 0 then None
  else
    let m := firstn dim n in
    if (Nat.eqb (prod n) (prod m) || Nat.eqb dim 0)%bool then
      let level i := linspace (nth i xmin 0) (nth i xmax 0) (nth i m 0%nat) in
      Some (map (fun r => map (fun i => nth (flat_index m i r) (level i) 0) (seq 0 dim)) (seq 0 (prod n)))
    else None.

(** randunif 178-199: np.random.rand is an argument *)
Definition randunif (dim : nat) (rand : list (list R)) (l u : list R) : option (list (list R)) := scale dim rand l u.

(** ldrandunif 225-236 (qmc.discrepancy is an argument; the samples drawn are the argument [draws], one per iteration);
    [Some None] is a variable never assigned *)
Fixpoint ld_loop (disc : list (list R) -> R) (draws : list (list (list R))) (m : R) (best : option (list (list R))) : option (list (list R)) :=
  match draws with
  | [] => best
  | s :: draws' => let d := disc s in if rltb d m then ld_loop disc draws' d (Some s) else ld_loop disc draws' m best
  end.
Definition ldrandunif (dim : nat) (disc : list (list R) -> R) (draws : list (list (list R))) (l u : list R) : option (list (list R)) :=
  match ld_loop disc draws 1000000 None with Some s => scale dim s l u | None => None end.
(** the loops of maximinlhs 261-267 and maximinldlhs 294-301 *)
Fixpoint mm_loop (draws : list (list (list R))) (m : R) (best : option (list (list R))) : option (option (list (list R))) :=
  match draws with
  | [] => Some best
  | s :: draws' => match mindist s with
                   | None => None
                   | Some d => if rltb m d then mm_loop draws' d (Some s) else mm_loop draws' m best
                   end
  end.
Definition maximinlhs (dim : nat) (draws : list (list (list R))) (l u : list R) : option (list (list R)) :=
  match mm_loop draws 0 None with Some (Some s) => scale dim s l u | _ => None end.
