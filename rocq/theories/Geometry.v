(** Model of the geometry of vectors and of angles along curves (src/vector.c lines 124-167 and 249-514, src/plCurve.c lines 1587-1717).
    Doubles are real numbers; NaN and infinity are UB, as in Sampler.v.  The constant PI of the code is the number pi.
    Where a flag ok is false, the vector or number returned with it is kept if the callers use it. *)
From Coq Require Import Reals List Bool ZArith.
From Verif Require Import Base Sampler Hopf Fan Rotate Closure.
Import ListNotations.
Open Scope R_scope.
Open Scope res_scope.

(** atan2 of the C library *)
Definition atan2 (y x : R) : R :=
  if Rlt_dec 0 x then atan (y / x)
  else if Rlt_dec x 0 then (if Rle_dec 0 y then atan (y / x) + PI else atan (y / x) - PI)
  else if Rlt_dec 0 y then PI / 2 else if Rlt_dec y 0 then - (PI / 2) else 0.
Definition less (a b : R) : bool := if Rlt_dec a b then true else false.

(** plc_angle, src/vector.c lines 124-167: the angle and ok *)
Definition plc_angle (A B : V3) : R * bool :=
  let sqr x := x * x in
  let L := sqr (c0 A * c1 B - c1 A * c0 B) + sqr (c0 A * c2 B - c2 A * c0 B) + sqr (c1 A * c2 B - c2 A * c1 B) in
  let L := sqrt L in
  let D := dot_prod A B in
  (atan2 L D, less (/ 1000000000000) (Rabs L) || less (/ 1000000000000) (Rabs D)).

(** plc_circumcenter, lines 249-369: None if ok is false; the center and the radius *)
Definition circumcenter (A B C : V3) : res (option (V3 * R)) :=
  let tiny := / 100000000000000 in
  if less tiny (Rabs (c2 A)) || less tiny (Rabs (c2 B)) || less tiny (Rabs (c2 C)) then Ok None else
  let xba := c0 B - c0 A in let yba := c1 B - c1 A in
  let xca := c0 C - c0 A in let yca := c1 C - c1 A in
  let balength := xba * xba + yba * yba in
  let calength := xca * xca + yca * yca in
  if less (Rabs (xba * yca - yba * xca)) tiny then Ok None else
  do denominator <- rdiv (/ 2) (xba * yca - yba * xca);
  let xcirca := (yca * balength - yba * calength) * denominator in
  let ycirca := (xba * calength - xca * balength) * denominator in
  Ok (Some (mkV (xcirca + c0 A) (ycirca + c1 A) 0, sqrt (xcirca * xcirca + ycirca * ycirca))).

(** plc_normal, lines 379-393 *)
Definition plc_normal (A B C : V3) : res (option V3) := normalize_vect (cross_prod (vect_diff B A) (vect_diff C A)).

(** plc_dihedral_angle, lines 395-438: None if ok is false *)
Definition dihedral_angle (A B C D : V3) : res (option R) :=
  do n1 <- plc_normal A B C;
  match n1 with None => Ok None | Some normABC =>
  do n2 <- plc_normal A C D;
  match n2 with None => Ok None | Some normACD =>
  let AC := vect_diff C A in
  do nac <- norm AC;
  if less nac (/ 100000000) then Ok None else
  let (theta, ok) := plc_angle normABC normACD in
  if negb ok then Ok None else
  if less 0 (dot_prod (cross_prod normABC AC) normACD) then Ok (Some (theta + PI)) else Ok (Some (PI - theta))
  end end.

(** plc_3plane_intersection, lines 450-483: None if ok is false *)
Definition three_planes (N1 P1 N2 P2 N3 P3 : V3) : res (option V3) :=
  do V1 <- normalize_vect N1; match V1 with None => Ok None | Some V1 =>
  do V2 <- normalize_vect N2; match V2 with None => Ok None | Some V2 =>
  do V3 <- normalize_vect N3; match V3 with None => Ok None | Some V3 =>
  let det := dot_prod V1 (cross_prod V2 V3) in
  if less (Rabs det) (/ 100000000) then Ok None else
  let P := vlincomb (dot_prod P1 V1) (cross_prod V2 V3) (dot_prod P2 V2) (cross_prod V3 V1) in
  let P := vlincomb 1 P (dot_prod P3 V3) (cross_prod V1 V2) in
  do k <- rdiv 1 det;
  Ok (Some (scale_vect k P))
  end end end.

(** plc_tetrahedron_inradius, lines 485-514 *)
Definition tetrahedron_inradius (A B C D : V3) : res R :=
  let a := vect_diff A D in let b := vect_diff B D in let c := vect_diff C D in
  let V := Rabs (dot_prod a (cross_prod b c)) in
  rdiv V (vnorm (cross_prod b c) + vnorm (cross_prod c a) + vnorm (cross_prod a b) + vnorm (vadd (cross_prod b c) (vadd (cross_prod c a) (cross_prod a b)))).

(** plc_turning_angle, src/plCurve.c lines 1587-1626, for a strand; the flag is None if ok is not written *)
Definition turning_angle (s : arc) (invt : Z) : res (R * option bool) :=
  let nv := Z.of_nat (length (verts s)) in
  if opened s && ((invt <=? 0)%Z || (nv - 1 <=? invt)%Z) then Ok (0, None) else
  if negb (opened s) && (nv =? 0)%Z then UB else
  let vt := if opened s then invt else (invt mod nv)%Z in     (* for a negative index nv is added until it is not, then % *)
  do v <- cell s vt; do l <- cell s (vt - 1); do r <- cell s (vt + 1);
  let (ang, isok) := plc_angle (vect_diff v l) (vect_diff r v) in
  Ok (if isok then ang else 0, Some isok).

(** plc_totalcurvature, lines 1663-1717, for a strand: [n] vertices from [vt] on *)
Fixpoint curvature_loop (s : arc) (n : nat) (vt : Z) (tk : R) : res R :=
  match n with
  | O => Ok tk
  | S n' =>
      do r <- cell s (vt + 1); do v <- cell s vt; do l <- cell s (vt - 1);
      let (angle, ok) := plc_angle (vect_diff r v) (vect_diff v l) in
      curvature_loop s n' (vt + 1) (tk + (if opened s then angle else if ok then angle else 0))
  end.
Definition strand_curvature (s : arc) (tk : R) : res R :=
  if opened s then curvature_loop s (length (verts s) - 2) 1 tk else curvature_loop s (length (verts s)) 0 tk.
Fixpoint total_curvature (L : list arc) (tk : R) : res R := match L with [] => Ok tk | s :: L' => do tk <- strand_curvature s tk; total_curvature L' tk end.
