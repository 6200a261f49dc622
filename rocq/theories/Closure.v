(** Model of random arcs of given length and failure to close, and of the closing of an open curve by such an arc
    (src/plcRandomPolygon.c lines 995-1276, src/plCurve.c lines 1921-1952 and 2607-2629).  Doubles are real numbers; NaN and infinity
    are UB, as in Sampler.v.  The constant pi of the code is the number pi.  Colors and constraints are left out. *)
From Coq Require Import Reals List Bool ZArith.
From Verif Require Import Base Sampler Hopf Fan Rotate.
Import ListNotations.
Open Scope R_scope.
Open Scope res_scope.

Definition vnorm (v : V3) : R := sqrt (dot_prod v v).
(** plc_distance *)
Definition vdistance (a b : V3) : R := vnorm (vect_diff a b).

(** plc_random_ftc_internal without the self check, lines 995-1166; None is NULL; [g k] is the k-th number drawn *)
Definition random_ftc (n : nat) (length ftc : R) (g : nat -> R) : res (option (list V3)) :=
  if Rlt_dec length ftc then Ok None else
  let length := if Rlt_dec length (ftc + / 100000000) then ftc else length in
  if Nat.eqb n 1 && (if Rlt_dec (Rabs (length - ftc)) (/ 10000000000) then true else false) then Ok (Some [mkV 0 0 0; mkV length 0 0]) else
  if Nat.eqb n 1 && (if Rlt_dec (/ 10000000000) (Rabs (length - ftc)) then true else false) then Ok None else
  do A <- normalize (space_A n g);
  let s := conj (hdot A (space_B n g)) in
  do B <- normalize (reduce s A (space_B n g));
  do q <- rdiv ftc length;
  let ell := 2 * q in
  do aScale <- rsqrt (1 + ell / 2);
  do bScale <- rsqrt (1 - ell / 2);
  let A := cscale (mkC aScale 0) A in
  let B := cscale (mkC bScale 0) B in
  Ok (Some (mkV 0 0 0 :: sums (mkV 0 0 0) (map (scale_vect (length / 2)) (hopf_edges A B)))).

(** plc_arclength, src/plCurve.c lines 1921-1952 *)
Fixpoint open_length (vs : list V3) : R := match vs with v :: (w :: _) as vs' => vdistance w v + open_length vs' | _ => 0 end.
Definition arc_length (s : arc) : R := match verts s with [] => 0 | v :: vs => if opened s then open_length (v :: vs) else open_length (v :: vs ++ [v]) end.
Definition arclength (L : list arc) : R := fold_right (fun s a => arc_length s + a) 0 L.

(** plc_translate, lines 2607-2629, for the vertices of one component *)
Definition translate (vs : list V3) (t : V3) : list V3 := if Rlt_dec (vnorm t) (/ 10000000000) then vs else map (fun v => vadd v t) vs.

(** plc_loop_closure, lines 1168-1276; None is NULL.  plc_copy, plc_drop_component and plc_add_component together replace the
    component (see PlcStrands.v). *)
Definition loop_closure (cp : nat) (openL : list arc) (nEdges : nat) (g : nat -> R) : res (option (list arc)) :=
  match nth_error openL cp with
  | None => UB
  | Some s =>
      if negb (opened s) then Ok None else
      match verts s with
      | [] => UB
      | first :: _ =>
          let nv := length (verts s) in
          let end_ := last (verts s) first in
          let closureLength := 2 - arclength openL in
          let ftc := vdistance first end_ in
          if Rlt_dec closureLength 0 then Ok None else
          if Rlt_dec closureLength ftc then Ok None else
          if Nat.ltb nEdges nv then Ok None else
          do arm <- random_ftc (nEdges - (nv - 1)) closureLength ftc g;
          match arm with
          | None => UB                                      (* the null pointer is given to plc_rotate or plc_translate *)
          | Some arm =>
              do dir <- normalize_vect (vect_diff first end_);
              do arm <- match dir with
                        | None => Ok arm
                        | Some dir =>
                            do r <- normalize_vect (vadd dir (mkV 1 0 0));
                            let r_axis := match r with Some r => r | None => mkV 0 1 0 end in
                            each (fun v => do w <- spin r_axis v PI; Ok (match w with Some w => w | None => v end)) arm
                        end;
              let arm := translate arm end_ in
              let inner := removelast (tl arm) in
              if negb (match inner with [] => true | _ => false end) && negb (Nat.eqb cp 0) then UB   (* closureArc->cp[cp] *)
              else
                let newVerts := verts s ++ inner in
                assert (Nat.eqb (length newVerts) nEdges);
                Ok (Some (map fix_wrap (upd cp (mkArc false newVerts) openL)))
          end
      end
  end.
