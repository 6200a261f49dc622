(** Model of rotations and of the fold move (src/vector.c lines 517-562, src/plCurve.c lines 2463-2605).  Doubles are real numbers;
    NaN and infinity are UB, as in Sampler.v.  The symmetry group is left out. *)
From Coq Require Import Reals List Bool ZArith.
From Verif Require Import Base Sampler Hopf Fan.
Import ListNotations.
Open Scope R_scope.
Open Scope res_scope.

(** plc_scale_vect, plc_vect_diff, plc_dot_prod and plc_norm, src/vector.c; plc_vect_sum is [vadd] *)
Definition scale_vect (k : R) (v : V3) : V3 := mkV (k * c0 v) (k * c1 v) (k * c2 v).
Definition vect_diff (a b : V3) : V3 := mkV (c0 a - c0 b) (c1 a - c1 b) (c2 a - c2 b).
Definition dot_prod (a b : V3) : R := c0 a * c0 b + c1 a * c1 b + c2 a * c2 b.
Definition norm (v : V3) : res R := rsqrt (dot_prod v v).
(** plc_normalize_vect, src/vector.c lines 175-193, with a flag: None if it is false (the vector returned is then not used) *)
Definition normalize_vect (v : V3) : res (option V3) :=
  do nm <- norm v;
  if Rlt_dec nm DBL_EPSILON then Ok None else do k <- rdiv 1 nm; Ok (Some (scale_vect k v)).

(** The common part of plc_rotate_vect (vector.c lines 533-560), of the loop of plc_rotate (plCurve.c lines 2567-2597) and of that of
    plc_pfm (lines 2497-2524): split into a parallel, a normal and a binormal part; None if the point is left where it is *)
Definition spin (axis temp : V3) (angle : R) : res (option V3) :=
  let par := scale_vect (dot_prod temp axis) axis in
  let nor := vect_diff temp par in
  do b <- normalize_vect (cross_prod axis nor);
  match b with
  | None => Ok None
  | Some binor =>
      do m <- norm nor;
      let binor := scale_vect m binor in
      let newnor := vlincomb (cos angle) nor (sin angle) binor in
      Ok (Some (vadd newnor par))
  end.

(** plc_rotate_vect, src/vector.c lines 519-562 *)
Definition rotate_vect (v axis : V3) (angle : R) : res V3 :=
  do a <- normalize_vect axis;
  match a with
  | None => Ok v
  | Some axis => do w <- spin axis v angle; Ok (match w with Some w => w | None => v end)
  end.

Fixpoint each {T U} (f : T -> res U) (l : list T) : res (list U) :=
  match l with [] => Ok [] | x :: l' => do y <- f x; do r <- each f l'; Ok (y :: r) end.

(** plc_strand: the vertices vt[0], ..., vt[nv-1] and whether it is open *)
Record arc := mkArc { opened : bool; verts : list V3 }.
(** plc_fix_wrap, src/plCurve.c lines 1137-1155 (see PlcStrands.v): strands of less than three vertices become open *)
Definition fix_wrap (s : arc) : arc := if Nat.ltb (length (verts s)) 3 then mkArc true (verts s) else s.
(** vt[i], where vt[-1] and vt[nv] hold what plc_fix_wrap puts there *)
Definition cell (s : arc) (i : Z) : res V3 :=
  let nv := Z.of_nat (length (verts s)) in
  let at_ (i : Z) := if (i <? 0)%Z then UB else match nth_error (verts s) (Z.to_nat i) with Some v => Ok v | None => UB end in
  if (i =? -1)%Z then (if opened s then at_ 1%Z else at_ (nv - 1)%Z)
  else if (i =? nv)%Z then (if opened s then at_ (nv - 2)%Z else at_ 0%Z)
  else at_ i.

(** plc_rotate, src/plCurve.c lines 2533-2605 *)
Definition plc_rotate (L : list arc) (axis : V3) (angle : R) : res (list arc) :=
  each (fun s => do vs <- each (fun v => do w <- spin axis v angle; Ok (match w with Some w => w | None => v end)) (verts s); Ok (fix_wrap (mkArc (opened s) vs))) L.

(** plc_M_vecteq, src/plCurve.h lines 310-316 *)
Definition vecteq (a b : V3) : bool :=
  let small (x : R) := if Rle_dec x (2 * DBL_EPSILON) then if Rle_dec (- x) (2 * DBL_EPSILON) then true else false else false in
  small (c0 a - c0 b) && small (c1 a - c1 b) && small (c2 a - c2 b).
(** the loop on lines 2491-2526: [i] is the index of the first vertex of [vs] *)
Fixpoint fold_loop (vt0 vt1 : Z) (base axis : V3) (angle : R) (i : Z) (vs : list V3) : res (list V3) :=
  match vs with
  | [] => Ok []
  | v :: vs' =>
      do w <- (if (vt0 <? i)%Z && (i <? vt1)%Z then
                 do w <- spin axis (vect_diff v base) angle;
                 Ok (match w with Some w => vadd w base | None => v end)
               else Ok v);
      do r <- fold_loop vt0 vt1 base axis angle (i + 1) vs';
      Ok (w :: r)
  end.
(** plc_pfm, src/plCurve.c lines 2466-2531.  (The test vt0 == vt1 comes after the assertion that the vertices differ.) *)
Definition plc_pfm (L : list arc) (cp vt0 vt1 : Z) (angle : R) : res (list arc) :=
  assert ((0 <=? cp)%Z && (cp <? Z.of_nat (length L))%Z);
  match nth_error L (Z.to_nat cp) with
  | None => UB
  | Some s =>
      let nv := Z.of_nat (length (verts s)) in
      assert ((-1 <=? vt0)%Z && (vt0 <=? nv)%Z);
      assert ((-1 <=? vt1)%Z && (vt1 <=? nv)%Z);
      do a <- cell s vt0;
      do b <- cell s vt1;
      assert (negb (vecteq a b));
      if (vt0 =? vt1)%Z then Ok L else
      let lo := Z.min vt0 vt1 in
      let hi := Z.max vt0 vt1 in
      do base <- cell s lo;
      do tip <- cell s hi;
      do ax <- normalize_vect (vect_diff tip base);
      match ax with
      | None => Fail
      | Some axis =>
          do vs <- fold_loop lo hi base axis angle 0 (verts s);
          Ok (map fix_wrap (upd (Z.to_nat cp) (mkArc (opened s) vs) L))
      end
  end.
