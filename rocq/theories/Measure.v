(** Model of the measures of curves (src/plCurve.c lines 230-256, 1959-2003, 2407-2429, 2773-2894) and of the projection and the rotation to
    an axis (lines 2707-2770).  Doubles are real numbers; NaN and infinity are UB, as in Sampler.v.  A strand is its vertices and
    whether it is open; [cell] gives the wrap-around vertices (Rotate.v). *)
From Coq Require Import Reals List Bool ZArith.
From Verif Require Import Base Sampler Hopf Fan Rotate Closure.
Import ListNotations.
Open Scope R_scope.
Open Scope res_scope.

(** plc_M_sq_dist, src/plCurve.h *)
Definition sq_dist (a b : V3) : R := (c0 a - c0 b) * (c0 a - c0 b) + (c1 a - c1 b) * (c1 a - c1 b) + (c2 a - c2 b) * (c2 a - c2 b).
(** plc_M_distance *)
Definition mdist (a b : V3) : R := sqrt (sq_dist a b).

(** one edge: from vt[v] to vt[v+1] *)
Definition edge (s : arc) (v : Z) : res R := do a <- cell s v; do b <- cell s (v + 1); Ok (mdist a b).

(** plc_s, lines 230-256: the first [n] edges, after [acc] *)
Fixpoint s_loop (s : arc) (n : nat) (v : Z) (acc : R) : res R :=
  match n with O => Ok acc | S n' => do e <- edge s v; s_loop s n' (v + 1) (acc + e) end.
Fixpoint plc_s (L : list arc) (cmp vert : nat) (acc : R) : res R :=
  match L, cmp with
  | [], _ => UB
  | s :: _, O => s_loop s vert 0 acc
  | s :: L', S cmp' => do acc <- s_loop s (length (verts s)) 0 acc; plc_s L' cmp' vert acc
  end.

(** plc_subarc_length, lines 1959-2003 *)
Fixpoint subarc_loop (s : arc) (v1 v2 : Z) (n : nat) (v : Z) (len1 len2 : R) : res (R * R) :=
  match n with
  | O => Ok (len1, len2)
  | S n' =>
      do e <- edge s v;
      if (v1 <=? v)%Z && (v <? v2)%Z then subarc_loop s v1 v2 n' (v + 1) (len1 + e) len2
      else subarc_loop s v1 v2 n' (v + 1) len1 (len2 + e)
  end.
Definition subarc_length (L : list arc) (cmp vert1 vert2 : Z) : res R :=
  assert ((0 <=? cmp)%Z && (cmp <? Z.of_nat (length L))%Z);
  match nth_error L (Z.to_nat cmp) with
  | None => UB
  | Some s =>
      let nv := Z.of_nat (length (verts s)) in
      assert ((0 <=? vert1)%Z && (vert1 <? nv)%Z);
      assert ((0 <=? vert2)%Z && (vert2 <? nv)%Z);
      let v1 := if (vert1 <=? vert2)%Z then vert1 else vert2 in
      let v2 := if (vert1 <=? vert2)%Z then vert2 else vert1 in
      let start := if opened s then v1 else 0%Z in
      let end_ := if opened s then v2 else nv in
      do l <- subarc_loop s v1 v2 (Z.to_nat (end_ - start)) start 0 0;
      Ok (if opened s then fst l else if Rle_dec (fst l) (snd l) then fst l else snd l)
  end.

(** plc_pointset_diameter, lines 2407-2429: the two inner loops for one vertex, then for one strand, then for all *)
Definition farthest (v : V3) (ws : list V3) (d : R) : R := fold_left (fun d w => if Rlt_dec d (mdist v w) then mdist v w else d) ws d.
Fixpoint diameter_strand (vs : list V3) (rest : list arc) (d : R) : R :=
  match vs with [] => d | v :: vs' => diameter_strand vs' rest (fold_left (fun d s => farthest v (verts s) d) rest (farthest v (v :: vs') d)) end.
Fixpoint diameter_loop (L : list arc) (d : R) : R := match L with [] => d | s :: L' => diameter_loop L' (diameter_strand (verts s) L' d) end.
Definition pointset_diameter (L : list arc) : R := diameter_loop L 0.

(** plc_num_verts, lines 1514-1524 *)
Definition num_verts (L : list arc) : nat := fold_right (fun s k => (length (verts s) + k)%nat) 0%nat L.
(** plc_center_of_mass, lines 2773-2794; plc_vmadd is A + sB *)
Definition center_of_mass (L : list arc) : res V3 :=
  do scale <- rdiv 1 (INR (num_verts L));
  Ok (fold_left (fun com s => fold_left (fun com v => vadd com (scale_vect scale v)) (verts s) com) L vz).
(** plc_gyradius, lines 2801-2824 *)
Definition gyradius (L : list arc) : res R :=
  do com <- center_of_mass L;
  rdiv (fold_left (fun g s => fold_left (fun g v => g + sq_dist com v) (verts s) g) L 0) (INR (num_verts L)).

(** plc_mean_squared_chordlengths, lines 2829-2894, for one skip *)
Definition chords (a b : list V3) : R := fold_left (fun m ab => m + sq_dist (fst ab) (snd ab)) (combine a b) 0.
Definition mean_squared_chordlength (s : arc) (skip : Z) : res R :=
  let nv := length (verts s) in
  if (skip <? 0)%Z then UB else
  if opened s then
    let b := skipn (Z.to_nat skip) (verts s) in          (* b runs from bufferB + skip to bufferB + numverts *)
    rdiv (chords (verts s) b) (INR (length b))
  else if (Z.of_nat nv <? skip)%Z then UB                 (* beyond the 2*numverts vectors of bufferB *)
  else rdiv (chords (verts s) (skipn (Z.to_nat skip) (verts s ++ verts s))) (INR nv).
Definition mean_squared_chordlengths (L : list arc) (cp : nat) (skips : list Z) : res (list R) :=
  match nth_error L cp with None => UB | Some s => each (mean_squared_chordlength s) skips end.

(** all vertices are changed, then plc_fix_wrap *)
Definition on_vertices (f : V3 -> V3) (L : list arc) : list arc := map (fun s => fix_wrap (mkArc (opened s) (map f (verts s)))) L.
(** plc_project, lines 2707-2733 *)
Definition project (L : list arc) (N : V3) : res (list arc) :=
  do n <- normalize_vect N;
  match n with
  | None => Fail
  | Some nHat => Ok (on_vertices (fun v => vect_diff v (scale_vect (dot_prod v nHat) nHat)) L)
  end.
(** plc_random_rotate, lines 2735-2770 *)
Definition rotate_to_axis (L : list arc) (axis : V3) : res (list arc) :=
  let xr := c0 axis in let yr := c1 axis in let zr := c2 axis in
  do tmp <- rsqrt (1 - zr * zr);
  if Rlt_dec DBL_EPSILON tmp then
    do tmp2 <- rdiv 1 tmp;
    Ok (on_vertices (fun v => let x := c0 v in let y := c1 v in let z := c2 v in
          mkV (- x * (yr * tmp2) + y * (xr * tmp2)) (- x * (xr * zr * tmp2) - y * (yr * zr * tmp2) + z * tmp) (x * xr + y * yr + z * zr)) L)
  else Ok L.
