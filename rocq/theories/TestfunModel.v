(** Model of gpmp/misc/testfunctions.py over the real numbers.  Definitions only.  Each function is given for one row
    of the input array (the code works row by row on columns x[:, j]); [rows f] is the vectorised function.
    A row is a list; x[:, j] beyond the width is an IndexError in the code, so rows are assumed wide enough. *)
From Coq Require Import List Reals.
Import ListNotations.
Local Open Scope R_scope.

Definition coord (x : list R) (j : nat) : R := nth j x 0.
Definition rows (f : list R -> R) (xs : list (list R)) : list R := map f xs.

(** testfunctions.py 15-34 twobumps (one-dimensional input) *)
Definition twobumps (x : R) : R := - (7 / 10 * x + sin (5 * x + 1) + 1 / 10 * sin (10 * x)).

(** 37-64 wave *)
Definition wave (x : list R) : R :=
  exp (18 / 10 * (coord x 0 + coord x 1)) + 3 * coord x 1 + 6 * (coord x 1)^2 + 3 * sin (4 * PI * coord x 0).

(** 67-98 braninhoo *)
Definition braninhoo (x : list R) : R :=
  let a := 51 / 10 / (4 * PI^2) in
  let b := 5 / PI in
  let c := 10 * (1 - 1 / (8 * PI)) in
  (coord x 1 - a * (coord x 0)^2 + b * coord x 0 - 6)^2 + c * cos (coord x 0) + 10.

(** 138-154, 210-226: the constants alpha, A, P of both Hartmann functions *)
Definition h_alpha : list R := [1; 12 / 10; 3; 32 / 10].
Definition h_A : list (list R) :=
  [[10; 3; 17; 35 / 10; 17 / 10; 8]; [5 / 100; 10; 17; 1 / 10; 8; 14];
   [3; 35 / 10; 17 / 10; 10; 17; 8]; [17; 8; 5 / 100; 10; 1 / 10; 14]].
Definition h_P : list (list R) := map (map (fun v => 1 / 10000 * v))
  [[1312; 1696; 5569; 124; 8283; 5886]; [2329; 4135; 8307; 3736; 1004; 9991];
   [2348; 1451; 3522; 2883; 3047; 6650]; [4047; 8828; 8732; 5743; 1091; 381]].
(** 156-165, 228-237: the two nested loops, with [d] the bound of the inner one *)
Definition h_outer (d : nat) (x : list R) : R :=
  fold_left (fun outer ii =>
    let inner := fold_left (fun inner jj =>
        inner + nth jj (nth ii h_A []) 0 * (coord x jj - nth jj (nth ii h_P []) 0)^2) (seq 0 d) 0 in
    outer + nth ii h_alpha 0 * exp (- inner)) (seq 0 4) 0.
(** 101-169 hartmann4 *)
Definition hartmann4 (x : list R) : R := (11 / 10 - h_outer 4 x) / (839 / 1000).
(** 172-241 hartmann6 *)
Definition hartmann6 (x : list R) : R := - h_outer 6 x.

(** 244-315 borehole *)
Definition borehole (x : list R) : R :=
  let rw := coord x 0 in let r := coord x 1 in let Tu := coord x 2 in let Hu := coord x 3 in
  let Tl := coord x 4 in let Hl := coord x 5 in let L := coord x 6 in let Kw := coord x 7 in
  let frac1 := 2 * PI * Tu * (Hu - Hl) in
  let frac2a := 2 * L * Tu / (ln (r / rw) * rw^2 * Kw) in
  let frac2b := Tu / Tl in
  let frac2 := ln (r / rw) * (1 + frac2a + frac2b) in
  frac1 / frac2.

(** 318-369 detpep8d.  The two statements after the inner loop are dedented (364-365): they are executed once, after
    the loop over ii, with the last values ii = 8 and inner. *)
Definition detpep8d (x : list R) : R :=
  let x1 := coord x 0 in let x2 := coord x 1 in let x3 := coord x 2 in
  let term1 := 4 * (x1 - 2 + 8 * x2 - 8 * x2^2)^2 in
  let term2 := (3 - 4 * x2)^2 in
  let term3 := 16 * sqrt (x3 + 1) * (2 * x3 - 1)^2 in
  let last := fold_left (fun (_ : nat * R) ii =>
      (ii, fold_left (fun inner jj => inner + coord x (jj - 1)) (seq 3 (ii + 1 - 3)) 0)) (seq 4 5) (0%nat, 0) in
  let new := INR (fst last) * ln (1 + snd last) in
  let outer := 0 + new in
  term1 + term2 + term3 + outer.

(** 372-410 ishigami *)
Definition ishigami (x : list R) : R :=
  let a := 5 in let b := 1 / 10 in
  sin (coord x 0) + a * (sin (coord x 1))^2 + b * (coord x 2)^4 * sin (coord x 0).
