(** Model of plc_check_cst (src/plCurve.c lines 298-340) and of the closest points on lines and planes (lines 124-228).  Doubles are real
    numbers; NaN and infinity are UB, as in Sampler.v.  The constraints are those of Stats.v. *)
From Coq Require Import Reals List Bool ZArith.
From Verif Require Import Base Sampler Hopf Fan Rotate Closure Stats.
Import ListNotations.
Open Scope R_scope.
Open Scope res_scope.

(** Closest_line_point, lines 138-162; a zero tangent is UB here, where the program divides by zero and then fails the assertion *)
Definition closest_line_point (point tangent on_line : V3) : res V3 :=
  let a := c0 tangent in let b := c0 on_line in let c := c1 tangent in let d := c1 on_line in let e := c2 tangent in let f := c2 on_line in
  let x := c0 point in let y := c1 point in let z := c2 point in
  do t <- rdiv (a * (x - b) + c * (y - d) + e * (z - f)) (a * a + c * c + e * e);
  if Rlt_dec DBL_EPSILON (a * a + c * c + e * e) then Ok (mkV (a * t + b) (c * t + d) (e * t + f)) else Fail.

(** Closest_plane_point, lines 186-228; the three cases are the three choices of i0, i1, i2 *)
Definition tiny (x : R) : bool := if Rle_dec x (/ 1000000000000) then (if Rle_dec (- / 1000000000000) x then true else false) else false.
Definition plane_xyz (a b c x1 y1 z1 d : R) : res (R * R * R) :=
  do frac <- rdiv (a * x1 + b * y1 + c * z1 - d) (a * a + b * b + c * c);
  let x := x1 - a * frac in let y := y1 - b * frac in
  do z <- rdiv (d - a * x - b * y) c; Ok (x, y, z).
Definition closest_plane_point (point normal : V3) (d : R) : res V3 :=
  let a := c0 normal in let b := c1 normal in let c := c2 normal in
  if Rlt_dec DBL_EPSILON (a * a + b * b + c * c) then
    if tiny c then
      if tiny b then do r <- plane_xyz c b a (c2 point) (c1 point) (c0 point) d; let '(x, y, z) := r in Ok (mkV z y x)
      else do r <- plane_xyz a c b (c0 point) (c2 point) (c1 point) d; let '(x, y, z) := r in Ok (mkV x z y)
    else do r <- plane_xyz a b c (c0 point) (c1 point) (c2 point) d; let '(x, y, z) := r in Ok (mkV x y z)
  else Fail.

(** plc_check_cst, lines 302-340 *)
Definition sq_distance (a b : V3) : R := (c0 a - c0 b) * (c0 a - c0 b) + (c1 a - c1 b) * (c1 a - c1 b) + (c2 a - c2 b) * (c2 a - c2 b).
Definition read (L : list arc) (cmp vert : nat) : res V3 :=
  match nth_error L cmp with None => UB | Some s => match nth_error (verts s) vert with None => UB | Some v => Ok v end end.
Fixpoint check_loop (L : list arc) (cmp : nat) (closest : V3 -> res V3) (n vert : nat) (max_err : R) : res R :=
  match n with
  | O => Ok max_err
  | S n' => do v <- read L cmp vert; do p <- closest v; check_loop L cmp closest n' (S vert) (Rmax max_err (sq_distance v p))
  end.
Definition check_one (L : list arc) (c : constraint) (max_err : R) : res R :=
  match ckind c with
  | Unconstrained => Fail
  | Fixed => check_loop L (ccmp c) (fun _ => Ok (vect0 c)) 1 (cvert c) max_err
  | Line => check_loop L (ccmp c) (fun v => closest_line_point v (vect0 c) (vect1 c)) (cnum c) (cvert c) max_err
  | Plane => check_loop L (ccmp c) (fun v => closest_plane_point v (vect0 c) (c0 (vect1 c))) (cnum c) (cvert c) max_err
  end.
Fixpoint check_all (L : list arc) (csts : list constraint) (max_err : R) : res R :=
  match csts with [] => Ok max_err | c :: csts' => do e <- check_one L c max_err; check_all L csts' e end.
Definition check_cst (L : list arc) (csts : list constraint) : res R := do e <- check_all L csts 0; Ok (sqrt e).
