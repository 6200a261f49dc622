(** Model of the statistics of edges, of the curvature of Minrad, and of the scaling of curves (src/plCurve.c lines 257-296, 1478-1510, 1630-1659, 1882-1912
    and 2431-2466).  Doubles are real numbers; NaN and infinity are UB, as in Sampler.v.  A strand is its vertices and whether it is open;
    [cell] gives the wrap-around vertices (Rotate.v). *)
From Coq Require Import Reals List Bool ZArith.
From Verif Require Import Base Sampler Hopf Fan Rotate Closure Measure.
Import ListNotations.
Open Scope R_scope.
Open Scope res_scope.

(** strand_edges and plc_edges, lines 1478-1510 *)
Definition strand_edges (s : arc) : Z := let nv := Z.of_nat (length (verts s)) in if opened s then (nv - 1)%Z else nv.
Definition plc_edges (L : list arc) : Z := fold_left (fun e s => (e + strand_edges s)%Z) L 0%Z.

(** plc_edgelength_stats, lines 257-296: longest, shortest, mean and second moment *)
Record stats := mkStats { longest : R; shortest : R; mean_ : R; moment2 : R }.
Fixpoint stats_loop (s : arc) (n : nat) (vt : Z) (a : stats) : res stats :=
  match n with
  | O => Ok a
  | S n' =>
      do v <- cell s vt; do w <- cell s (vt - 1);
      let dist := vdistance v w in
      stats_loop s n' (vt + 1) (mkStats (Rmax dist (longest a)) (Rmin dist (shortest a)) (mean_ a + dist) (moment2 a + dist * dist))
  end.
Fixpoint stats_strands (L : list arc) (a : stats) : res stats :=
  match L with
  | [] => Ok a
  | s :: L' =>
      let maxV := if opened s then length (verts s) else S (length (verts s)) in
      do a <- stats_loop s (maxV - 1) 1 a; stats_strands L' a
  end.
Definition edgelength_stats (L : list arc) : res stats :=
  do a <- stats_strands L (mkStats 0 100000000000000000000 0 0);
  do m <- rdiv (mean_ a) (IZR (plc_edges L));
  do m2 <- rdiv (moment2 a) (IZR (plc_edges L));
  Ok (mkStats (longest a) (shortest a) m m2).

(** plc_MR_curvature, lines 1630-1659, for a strand *)
Definition MR_curvature (s : arc) (vert : Z) : res R :=
  if opened s && ((vert =? 0)%Z || (vert =? Z.of_nat (length (verts s)) - 1)%Z) then Ok 0 else
  do v <- cell s vert; do l <- cell s (vert - 1); do r <- cell s (vert + 1);
  let in_ := vect_diff v l in let normin := vnorm in_ in
  let out := vect_diff r v in let normout := vnorm out in
  let dot := dot_prod in_ out in
  let cross := vnorm (cross_prod in_ out) in
  if Rlt_dec DBL_EPSILON (normin * normout + dot) then
    do kappa <- rdiv (2 * cross) (normin * normout + dot);
    rdiv kappa (if Rlt_dec (normin - normout) DBL_EPSILON then normin else normout)
  else Fail.

(** plc_scale, lines 2431-2466.  The two vectors of a constraint are a point for fixed, a tangent and a point for line, and a normal and
    (distance, 0, 0) for plane. *)
Inductive kind := Unconstrained | Fixed | Line | Plane.
Record constraint := mkConstraint { ckind : kind; vect0 : V3; vect1 : V3; ccmp : nat; cvert : nat; cnum : nat }.
Definition scale_constraint (alpha : R) (c : constraint) : constraint :=
  match ckind c with
  | Unconstrained => c
  | Fixed => mkConstraint Fixed (scale_vect alpha (vect0 c)) (vect1 c) (ccmp c) (cvert c) (cnum c)
  | Line => mkConstraint Line (vect0 c) (scale_vect alpha (vect1 c)) (ccmp c) (cvert c) (cnum c)
  | Plane => mkConstraint Plane (vect0 c) (scale_vect alpha (vect1 c)) (ccmp c) (cvert c) (cnum c)
  end.
Definition plc_scale (L : list arc) (csts : list constraint) (alpha : R) : list arc * list constraint :=
  (on_vertices (scale_vect alpha) L, map (scale_constraint alpha) csts).

(** plc_mean_tangent, lines 1882-1912, for a strand; None is a vector shorter than DBL_EPSILON (see normalize_vect in Rotate.v) *)
Definition mean_tangent (s : arc) (vert : Z) : res (option V3) :=
  if opened s && (vert =? 0)%Z then
    do r <- cell s (vert + 1); do v <- cell s vert; normalize_vect (vect_diff r v)
  else if opened s && (vert =? Z.of_nat (length (verts s)) - 1)%Z then
    do v <- cell s vert; do l <- cell s (vert - 1); normalize_vect (vect_diff v l)
  else
    do r <- cell s (vert + 1); do l <- cell s (vert - 1); normalize_vect (vect_diff r l).
