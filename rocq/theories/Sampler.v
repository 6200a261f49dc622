(** Model of the sampling of closed self-avoiding polygons (src/plcRandomSap.c lines 216-430).
    Doubles are real numbers: rounding is left out.  The square root of a negative number and a division by zero (a NaN or an
    infinity in the code) are UB. *)
From Coq Require Import Reals List.
From Verif Require Import Base.
Import ListNotations.
Open Scope R_scope.
Open Scope res_scope.

Record V3 := mkV { c0 : R; c1 : R; c2 : R }.

Definition rsqrt (x : R) : res R := if Rlt_dec x 0 then UB else Ok (sqrt x).
Definition rdiv (a b : R) : res R := if Req_EM_T b 0 then UB else Ok (a / b).
Definition vdiv (v : V3) (b : R) : res V3 := if Req_EM_T b 0 then UB else Ok (mkV (c0 v / b) (c1 v / b) (c2 v / b)).

Section Generator.
(** the generator: its states and plc_xoshiro_uniform (for the code: Xoshiro.xoshiro_uniform) *)
Context {gen : Type}.
Variable uniform : gen -> R * gen.

(** lines 296-310 and 371-386: the first two vectors of the frame *)
Definition frame (x normal : V3) : res (V3 * V3) :=
  do nm <- rsqrt (c0 x * c0 x + c1 x * c1 x + c2 x * c2 x);
  do f0 <- vdiv x nm;
  let f1 := mkV (c1 normal * c2 f0 - c2 normal * c1 f0) (c2 normal * c0 f0 - c0 normal * c2 f0) (c0 normal * c1 f0 - c1 normal * c0 f0) in
  do nm <- rsqrt (c0 f1 * c0 f1 + c1 f1 * c1 f1 + c2 f1 * c2 f1);
  do f1 <- vdiv f1 nm;
  Ok (f0, f1).

(** lines 342-349 and 404-410: is the new vertex near one of the earlier ones? ([xs] begins with the latest) *)
Fixpoint near (x : V3) (xs : list V3) : bool :=
  match xs with
  | [] => false
  | y :: xs' => if Rlt_dec ((c0 x - c0 y) * (c0 x - c0 y) + (c1 x - c1 y) * (c1 x - c1 y) + (c2 x - c2 y) * (c2 x - c2 y)) (1 - / 1000000000) then true else near x xs'
  end.

(** line 278 *)
Definition TWOPI : R := 62831853071795864769 / 10000000000000000000.

(** lines 290-351: the loop that places the vertices 2, ..., n-2.  [m] is the number of vertices left to place, [x] the last
    vertex and [xs] all those before it.  None stands for goto restart_trial. *)
Fixpoint place (m : nat) (x : V3) (xs : list V3) (normal : V3) (last : R) (g : gen) : res (option (V3 * list V3 * V3 * R) * gen) :=
  match m with
  | O => Ok (Some (x, xs, normal, last), g)
  | S m' =>
      let (u, g) := uniform g in
      let this := last + 2 * (u - / 2) in
      if Rlt_dec (this + last) 1 then Ok (None, g) else if Rle_dec this 0 then Ok (None, g) else
      do f <- frame x normal;
      let (f0, f1) := (f : V3 * V3) in
      do cos_phi <- rdiv (this * this + last * last - 1) (2 * this * last);
      do sin_phi <- rsqrt (1 - cos_phi * cos_phi);
      let x' := mkV (this * (cos_phi * c0 f0 + sin_phi * c0 f1)) (this * (cos_phi * c1 f0 + sin_phi * c1 f1)) (this * (cos_phi * c2 f0 + sin_phi * c2 f1)) in
      let f2 := mkV (- sin_phi * c0 f0 + cos_phi * c0 f1) (- sin_phi * c1 f0 + cos_phi * c1 f1) (- sin_phi * c2 f0 + cos_phi * c2 f1) in
      let (v, g) := uniform g in
      let theta := TWOPI * v in
      let normal' := mkV (cos theta * c0 normal + sin theta * c0 f2) (cos theta * c1 normal + sin theta * c1 f2) (cos theta * c2 normal + sin theta * c2 f2) in
      if near x' (x :: xs) then Ok (None, g) else place m' x' (x :: xs) normal' this g
  end.

(** lines 353-411: the last vertex.  The assignment of this_diag to last_diag changes nothing, since n >= 5. *)
Definition close_up (x : V3) (xs : list V3) (normal : V3) (last : R) : res (option (list V3)) :=
  if Rle_dec last 0 then Ok None else if Rle_dec 2 last then Ok None else
  do f <- frame x normal;
  let (f0, f1) := (f : V3 * V3) in
  let cos_phi := last / 2 in
  do sin_phi <- rsqrt (1 - cos_phi * cos_phi);
  let x' := mkV (cos_phi * c0 f0 + sin_phi * c0 f1) (cos_phi * c1 f0 + sin_phi * c1 f1) (cos_phi * c2 f0 + sin_phi * c2 f1) in
  if near x' (x :: xs) then Ok None else Ok (Some (rev (x' :: x :: xs))).

(** lines 283-411: one trial *)
Definition trial (n : nat) (g : gen) : res (option (list V3) * gen) :=
  do r <- place (n - 3) (mkV 1 0 0) [mkV 0 0 0] (mkV 0 0 1) 1 g;
  match r with
  | (None, g) => Ok (None, g)
  | (Some (x, xs, normal, last), g) => do p <- close_up x xs normal last; Ok (p, g)
  end.
(** restart_trial, lines 283-286: [k] is the number of trials left before the assertion fails *)
Fixpoint trials (k : nat) (n : nat) (g : gen) : res (list V3 * gen) :=
  match k with
  | O => Fail
  | S k' => do r <- trial n g; match r with (Some p, g) => Ok (p, g) | (None, g) => trials k' n g end
  end.
(** plc_random_equilateral_closed_self_avoiding_polygon, lines 216-430: the vertices of the one closed component, and the
    generator afterwards *)
Definition random_sap (n : nat) (g : gen) : res (list V3 * gen) :=
  if Nat.ltb n 5 then Fail else if Nat.ltb 25 n then Fail else trials (N.to_nat 49999999) n g.
End Generator.
