(** Model of the assembly of equilateral polygons from their diagonals and dihedral angles, and of the sampling of these
    (src/plcRandomPolygon.c lines 797-962).  Doubles are real numbers; NaN and infinity are UB, as in Sampler.v. *)
From Coq Require Import Reals List Bool NArith.
From Verif Require Import Base Sampler.
Import ListNotations.
Open Scope R_scope.
Open Scope res_scope.

Definition DBL_EPSILON : R := / 4503599627370496.
(** plc_cross_prod and plc_vlincomb, src/vector.c *)
Definition cross_prod (a b : V3) : V3 := mkV (c1 a * c2 b - c2 a * c1 b) (c2 a * c0 b - c0 a * c2 b) (c0 a * c1 b - c1 a * c0 b).
Definition vlincomb (s : R) (a : V3) (t : R) (b : V3) : V3 := mkV (s * c0 a + t * c0 b) (s * c1 a + t * c1 b) (s * c2 a + t * c2 b).
(** plc_normalize_vect, src/vector.c lines 175-193, followed by assert(ok) *)
Definition normalize_ok (v : V3) : res V3 :=
  do nm <- rsqrt (c0 v * c0 v + c1 v * c1 v + c2 v * c2 v);
  if Rlt_dec nm DBL_EPSILON then Fail else do k <- rdiv 1 nm; Ok (mkV (k * c0 v) (k * c1 v) (k * c2 v)).
(** the same without a look at ok *)
Definition normalize_any (v : V3) : res V3 :=
  do nm <- rsqrt (c0 v * c0 v + c1 v * c1 v + c2 v * c2 v);
  do k <- rdiv 1 nm; Ok (mkV (k * c0 v) (k * c1 v) (k * c2 v)).

(** the loop on lines 820-873: [x] is vt[i], [dl] is d[i-1], [ds] are d[i], ..., d[n-2] and [thetas] theta[i-1], ... *)
Fixpoint fan (x normal : V3) (dl : R) (ds thetas : list R) : res (list V3) :=
  match ds with
  | [] => Ok []
  | d :: ds' =>
      do cos_alpha <- rdiv (dl * dl + d * d - 1) (2 * dl * d);
      do sin_alpha <- rsqrt (1 - cos_alpha * cos_alpha);
      do f1 <- normalize_ok x;
      do f2 <- normalize_ok (cross_prod normal f1);
      let x' := vlincomb (d * cos_alpha) f1 (d * sin_alpha) f2 in
      match ds' with
      | [] => Ok [x']
      | _ =>
          match thetas with
          | [] => UB
          | theta :: thetas' =>
              do f <- normalize_ok x';
              do f3 <- normalize_any (cross_prod normal f);
              do normal' <- normalize_any (vlincomb (cos theta) normal (sin theta) f3);
              do vs <- fan x' normal' d ds' thetas';
              Ok (x' :: vs)
          end
      end
  end.
(** fantriangulation_action_angle, lines 797-880; the number of vertices is one more than the number of diagonals *)
Definition fantriangulation_action_angle (thetas ds : list R) : res (list V3) :=
  match ds with
  | [] => UB
  | d0 :: ds' =>
      do vs <- fan (mkV 1 0 0) (mkV 0 0 1) d0 ds' thetas;
      let z := last vs (mkV 1 0 0) in
      if Rlt_dec (Rabs (sqrt (c0 z * c0 z + c1 z * c1 z + c2 z * c2 z) - 1)) (/ 100000000) then Ok (mkV 0 0 0 :: mkV 1 0 0 :: vs) else Fail
  end.

Section Generator.
(** gsl_rng_uniform *)
Context {gen : Type}.
Variable uniform : gen -> R * gen.
(** lines 906-930: [m] diagonals after [last]; None if one is refused *)
Fixpoint diagonals (m : nat) (last : R) (g : gen) : option (list R) * gen :=
  match m with
  | O => (Some [], g)
  | S m' =>
      let (u, g) := uniform g in
      let d := last + (2 * u - 1) in
      if Rlt_dec (d + last) 1 then (None, g)
      else if Rlt_dec d (/ 1000000000000) then (None, g)
      else let (r, g) := diagonals m' d g in (match r with Some ds => Some (d :: ds) | None => None end, g)
  end.
(** lines 902-943: both loops.  [k] is the number of rounds before the assertion fails.  (In the round that makes it fail, d[n-3]
    may be read without having been written; the value does not matter.) *)
Fixpoint rounds (k n : nat) (g : gen) : res (list R * gen) :=
  match k with
  | O => Fail
  | S k' =>
      match diagonals (n - 3) 1 g with
      | (None, g) => rounds k' n g
      | (Some ds, g) => if Rlt_dec (last ds 1) 0 then rounds k' n g else if Rlt_dec 2 (last ds 1) then rounds k' n g else Ok (ds, g)
      end
  end.
(** lines 952-956 *)
Fixpoint angles (m : nat) (g : gen) : list R * gen :=
  match m with
  | O => ([], g)
  | S m' => let (u, g) := uniform g in let (ts, g) := angles m' g in (TWOPI * u :: ts, g)
  end.
(** the bounds on lines 893 and 935 *)
Definition most_edges : nat := N.to_nat 3000.
Definition most_rounds : nat := N.to_nat 9999.
(** plc_random_equilateral_closed_polygon, lines 883-962; for n < 3 the array d is read before its beginning *)
Definition random_equilateral_closed_polygon (n : nat) (g : gen) : res (list V3 * gen) :=
  if Nat.ltb most_edges n then Fail else if Nat.ltb n 3 then UB else
  do r <- rounds most_rounds n g;
  let (ds, g) := (r : list R * gen) in
  let (ts, g) := angles (n - 3) g in
  do vs <- fantriangulation_action_angle ts (1 :: ds ++ [1]);
  Ok (vs, g).
End Generator.
