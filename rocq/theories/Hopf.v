(** Model of the sampling of random polygons from pairs of complex vectors (src/plcRandomPolygon.c lines 59-511).
    Doubles are real numbers; NaN and infinity are UB, as in Sampler.v. *)
From Coq Require Import Reals List Bool.
From Verif Require Import Base Sampler.
Import ListNotations.
Open Scope R_scope.
Open Scope res_scope.

(** complex double *)
Record cx := mkC { re : R; im : R }.
Definition cadd (a b : cx) : cx := mkC (re a + re b) (im a + im b).
Definition csub (a b : cx) : cx := mkC (re a - re b) (im a - im b).
Definition cmul (a b : cx) : cx := mkC (re a * re b - im a * im b) (re a * im b + im a * re b).
Definition conj (a : cx) : cx := mkC (re a) (- im a).
Definition cz : cx := mkC 0 0.

Definition vadd (a b : V3) : V3 := mkV (c0 a + c0 b) (c1 a + c1 b) (c2 a + c2 b).
Definition vz : V3 := mkV 0 0 0.

(** hopfImap, lines 76-83, for the real and imaginary parts of an entry of each vector *)
Definition hopfImap (a b : cx) : V3 :=
  let q0 := re a in let q1 := im a in let q2 := re b in let q3 := im b in
  mkV (q0 * q0 + q1 * q1 - q2 * q2 - q3 * q3) (2 * q1 * q2 - 2 * q0 * q3) (2 * q0 * q2 + 2 * q1 * q3).
(** HermitianDot, lines 85-90; the order of the sum does not matter for real numbers *)
Fixpoint hdot (A B : list cx) : cx :=
  match A, B with a :: A', b :: B' => cadd (cmul a (conj b)) (hdot A' B') | _, _ => cz end.
(** ComplexScalarMultiply, lines 92-96 *)
Definition cscale (s : cx) (A : list cx) : list cx := map (cmul s) A.
(** lines 122-124 and 134-135: the square root is that of the real part *)
Definition normalize (A : list cx) : res (list cx) :=
  do norm <- rsqrt (re (hdot A A)); do k <- rdiv 1 norm; Ok (cscale (mkC k 0) A).
(** line 130 *)
Fixpoint reduce (s : cx) (A B : list cx) : list cx :=
  match A, B with a :: A', b :: B' => csub b (cmul s a) :: reduce s A' B' | _, _ => [] end.
Fixpoint hopf_edges (A B : list cx) : list V3 :=
  match A, B with a :: A', b :: B' => hopfImap a b :: hopf_edges A' B' | _, _ => [] end.
(** lines 139-186: the tests of the version with self check *)
Definition off (x y : R) : bool := if Rlt_dec (/ 10000000000) (Rabs (x - y)) then true else false.
Definition closed_check (A B : list cx) : bool :=
  let aa := hdot A A in let bb := hdot B B in let ab := hdot A B in
  let s := fold_left vadd (hopf_edges A B) vz in
  negb (off (re aa) 1 || off (im aa) 0 || off (re bb) 1 || off (im bb) 0 || off (re ab) 0 || off (im ab) 0
        || (if Rlt_dec (/ 10000000000) (sqrt (c0 s * c0 s + c1 s * c1 s + c2 s * c2 s)) then true else false)).
(** lines 194-199 and 400-404: sums of the edges *)
Fixpoint sums (v : V3) (es : list V3) : list V3 := match es with [] => [] | e :: es' => vadd v e :: sums (vadd v e) es' end.
(** lines 120-207 and 239-329: from the two vectors to the vertices of a closed polygon *)
Definition closed_from (selfcheck : bool) (A B : list cx) : res (list V3) :=
  do A <- normalize A;
  let s := conj (hdot A B) in
  do B <- normalize (reduce s A B);
  if selfcheck && negb (closed_check A B) then Fail
  else match hopf_edges A B with [] => UB | e :: es => Ok (e :: sums e es) end.
(** lines 367-385 and 452-475 *)
Definition open_check (A B : list cx) : bool :=
  let aa := hdot A A in let bb := hdot B B in negb (off (re aa + re bb) 2 || off (im aa) 0 || off (im bb) 0).
(** lines 367-413 and 452-499: and of an open one *)
Definition open_from (selfcheck : bool) (A B : list cx) : res (list V3) :=
  do norm <- rsqrt (re (hdot A A) + re (hdot B B));
  do k <- rdiv (sqrt 2) norm;
  let A := cscale (mkC k 0) A in
  let B := cscale (mkC k 0) B in
  if selfcheck && negb (open_check A B) then Fail else Ok (vz :: sums vz (hopf_edges A B)).

(** gaussian_array and lines 101-118: [g k] is the k-th number drawn *)
Definition space_A (n : nat) (g : nat -> R) : list cx := map (fun i => mkC (g (2 * i)%nat) (g (2 * i + 1)%nat)) (seq 0 n).
Definition space_B (n : nat) (g : nat -> R) : list cx := map (fun i => mkC (g (2 * n + 2 * i)%nat) (g (2 * n + (2 * i + 1))%nat)) (seq 0 n).
(** lines 225-241 *)
Definition plane_A (n : nat) (g : nat -> R) : list cx := map (fun i => mkC (g (2 * i)%nat) 0) (seq 0 n).
Definition plane_B (n : nat) (g : nat -> R) : list cx := map (fun i => mkC (g (2 * i + 1)%nat) 0) (seq 0 n).

(** plc_random_closed_polygon and ..._selfcheck, lines 98-218 *)
Definition random_closed_polygon (selfcheck : bool) (n : nat) (g : nat -> R) : res (list V3) := closed_from selfcheck (space_A n g) (space_B n g).
(** plc_random_closed_plane_polygon, lines 222-341 *)
Definition random_closed_plane_polygon (selfcheck : bool) (n : nat) (g : nat -> R) : res (list V3) := closed_from selfcheck (plane_A n g) (plane_B n g).
(** plc_random_open_polygon, lines 347-427 *)
Definition random_open_polygon (selfcheck : bool) (n : nat) (g : nat -> R) : res (list V3) := open_from selfcheck (space_A n g) (space_B n g).
(** plc_random_open_plane_polygon, lines 431-511 *)
Definition random_open_plane_polygon (selfcheck : bool) (n : nat) (g : nat -> R) : res (list V3) := open_from selfcheck (plane_A n g) (plane_B n g).
