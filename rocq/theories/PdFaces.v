(** Model of pd_regenerate_faces and the functions it calls (src/pdcode.c lines 265-325,
    1716-2067). *)
From Coq Require Import List ZArith Lia Bool Arith.
From Verif Require Import Base Iterators Sorting Pd.
Import ListNotations.
Open Scope nat_scope.
Open Scope res_scope.

Definition dart_eqb (a b : nat * orient) : bool := (fst a =? fst b) && orient_eqb (snd a) (snd b).

(** pdint_next_edge_on_face, src/pdcode.c lines 1716-1777 *)
Definition next_edge_on_face (d : pd) (a : nat * orient) : res (nat * orient) :=
  let '(ed, o) := a in
  assert (ed <? nedges d);
  assert (match o with Unset => false | _ => true end);
  do E <- get (p_edge d) ed;
  let cross := match o with Pos => e_head E | _ => e_tail E end in
  let this_pos := match o with Pos => e_headpos E | _ => e_tailpos E end in
  let next_pos := (this_pos + 3) mod 4 in
  do c <- get (p_cross d) cross;
  let ne := cedge c next_pos in
  do nxt <- get (p_edge d) ne;
  assert ((e_head nxt =? cross) || (e_tail nxt =? cross));
  assert (if (e_head nxt =? cross) && negb (e_tail nxt =? cross) then e_headpos nxt =? next_pos
          else if (e_tail nxt =? cross) && negb (e_head nxt =? cross) then e_tailpos nxt =? next_pos
          else (e_headpos nxt =? next_pos) || (e_tailpos nxt =? next_pos));
  Ok (ne, if (e_head nxt =? cross) && (e_headpos nxt =? next_pos) then Neg else Pos).

(** the do ... while loop around one face, src/pdcode.c lines 1966-1996: [left] is the number
    of edges pd->nedges - nedges that the assertion on line 1989 still allows.
    Simplification: the edge/orientation pairs are collected in the order in which they are
    met instead of being noted in face_assigned and copied to the face afterwards (lines
    2024-2038); no pair is met twice because the pairs met on the way back to the start form
    a cycle of a function. *)
Fixpoint walk_face (d : pd) (start : nat * orient) (left : nat) (cur : nat * orient) : res face :=
  match left with
  | 0 => Fail
  | S n =>
      do nx <- next_edge_on_face d cur;
      if dart_eqb nx start then Ok [cur]
      else do r <- walk_face d start n nx; Ok (cur :: r)
  end.

(** pdint_next_face_unassigned_edge_or, src/pdcode.c lines 1797-1889: the pairs looked at, in
    order, and the first that is not assigned to a face *)
Definition later_pairs (d : pd) (a : nat * orient) : list (nat * orient) :=
  match snd a with
  | Pos => map (fun e => (e, Pos)) (seq (fst a + 1) (nedges d - (fst a + 1))) ++
           map (fun e => (e, Neg)) (seq 0 (nedges d))
  | _ => map (fun e => (e, Neg)) (seq (fst a + 1) (nedges d - (fst a + 1)))
  end.
Definition next_unassigned (d : pd) (assigned : list (nat * orient)) (a : nat * orient) : option (nat * orient) :=
  find (fun b => negb (existsb (dart_eqb b) assigned)) (later_pairs d a).

(** the loop over faces, src/pdcode.c lines 1953-2018 *)
Fixpoint faces_loop (d : pd) (fuel : nat) (start : nat * orient) (done : list face) : res (list face) :=
  match fuel with
  | 0 => Fuel
  | S n =>
      do f <- walk_face d start (nedges d) start;
      if MAXFACES d <=? length done then Fail
      else
        let done := done ++ [f] in
        match next_unassigned d (concat done) start with
        | Some a => faces_loop d n a done
        | None => Ok done
        end
  end.

(** pd_canonorder_face with PD_POS_ORIENTATION, src/pdcode.c lines 265-325: the last position of
    a lowest edge, then the rotation by it *)
Fixpoint low_pos (l : list (nat * orient)) (i lowE lowPos : nat) : nat :=
  match l with
  | [] => lowPos
  | a :: l' => if fst a <=? lowE then low_pos l' (i + 1) (fst a) i else low_pos l' (i + 1) lowE lowPos
  end.
Definition rotate {A} (k : nat) (l : list A) : list A := skipn k l ++ firstn k l.
Definition canonorder_face (f : face) : face :=
  match f with
  | [] => [] (* never: a face has an edge *)
  | a :: _ => rotate (low_pos f 0 (fst a) 0) f
  end.

(** pd_regenerate_faces, src/pdcode.c lines 1891-2067 *)
Definition pd_regenerate_faces (d : pd) : res pd :=
  assert (0 <? ncross d);
  assert (1 <? nedges d);
  do fs <- faces_loop d (MAXFACES d + 2) (0, Pos) [];
  let fs := isort (fun a b => not_gt (pd_face_cmp a b)) (map canonorder_face fs) in
  if length fs =? ncross d + 2 then Ok (with_faces d fs) else Fail.
