(** Model of the planar diagram data structure (src/plcTopology.h lines 121-300) and of its
    consistency checks (src/pdcode.c lines 2133-2625). *)
From Coq Require Import List ZArith Lia Bool Arith.
From Verif Require Import Base Iterators Sorting.
From Verif Require PdStore.
Import ListNotations.
Open Scope nat_scope.
Open Scope res_scope.

(** * Data *)

(** pd_edge_t, src/plcTopology.h lines 121-133.  PD_UNSET_IDX with PD_UNSET_POS (= 4) at an
    end of an edge is represented by crossing number 0 and position 4. *)
Record edge := mkEdge { e_head : nat; e_headpos : nat; e_tail : nat; e_tailpos : nat }.

(** pd_crossing_t, src/plcTopology.h lines 176-216. *)
Record crossing := mkCross { ce0 : nat; ce1 : nat; ce2 : nat; ce3 : nat; csign : orient }.

(** pd_component_t, lines 143-161 (the tag is a char, -128 to 127); pd_face_t, lines 163-174 (nedges = length). *)
Record component := mkComp { cp_edge : list nat; cp_tag : Z }.
Notation face := (list (nat * orient)) (only parsing).

(** pd_code_t, lines 220-268.  ncross, nedges, ncomps, nfaces are the lengths of the lists;
    [p_maxv] is MAXVERTS, which determines the other capacities. *)
Record pd := mkPd {
  p_maxv : nat; p_uid : nat; p_hash : list nat;
  p_edge : list edge; p_cross : list crossing; p_comp : list component; p_face : list face }.

Definition ncross (d : pd) := length (p_cross d).
Definition nedges (d : pd) := length (p_edge d).
Definition ncomps (d : pd) := length (p_comp d).
Definition nfaces (d : pd) := length (p_face d).

(** assignments to the parts *)
Definition with_faces (d : pd) (x : list face) : pd :=
  mkPd (p_maxv d) (p_uid d) (p_hash d) (p_edge d) (p_cross d) (p_comp d) x.
Definition with_comps (d : pd) (x : list component) : pd :=
  mkPd (p_maxv d) (p_uid d) (p_hash d) (p_edge d) (p_cross d) x (p_face d).
Definition with_cross (d : pd) (x : list crossing) : pd :=
  mkPd (p_maxv d) (p_uid d) (p_hash d) (p_edge d) x (p_comp d) (p_face d).
Definition with_edges (d : pd) (x : list edge) : pd :=
  mkPd (p_maxv d) (p_uid d) (p_hash d) x (p_cross d) (p_comp d) (p_face d).
Definition with_hash (d : pd) (x : list nat) : pd :=
  mkPd (p_maxv d) (p_uid d) x (p_edge d) (p_cross d) (p_comp d) (p_face d).

(** pd_code_new, src/pdcode.c lines 46-79: the capacities. *)
Definition maxverts_of (mv : nat) : nat := if mv =? 1 then 2 else mv.
Definition MAXEDGES (d : pd) : nat := 2 * p_maxv d + 1.
Definition MAXCOMPONENTS (d : pd) : nat := p_maxv d / 2 + 2.
Definition MAXFACES (d : pd) : nat := p_maxv d + 2.

(** array reads *)
Definition get {A} (l : list A) (i : nat) : res A :=
  match nth_error l i with Some x => Ok x | None => UB end.

(** cross->edge[pos] *)
Definition cedge (c : crossing) (pos : nat) : nat :=
  match pos with 0 => ce0 c | 1 => ce1 c | 2 => ce2 c | _ => ce3 c end.
Definition cross_edges (c : crossing) : list nat := [ce0 c; ce1 c; ce2 c; ce3 c].

(** pd->cross[c].edge[p]; the theorems only use it on existing crossings *)
Definition edge_in (cs : list crossing) (s : nat * nat) : nat :=
  match nth_error cs (fst s) with Some x => cedge x (snd s) | None => 0 end.

(** a loop of checks that stops at the first failure *)
Fixpoint all_ok {A} (f : A -> res bool) (l : list A) : res bool :=
  match l with
  | [] => Ok true
  | x :: l' => do b <- f x; if b then all_ok f l' else Ok false
  end.
Definition and_ok (a b : res bool) : res bool := do x <- a; if x then b else Ok false.

(** * Comparison functions.  Simplification: the C functions return differences of unsigned
    numbers converted to int; for indices below 2^31 the sign of the result is that of the
    comparison made here. *)

(** pd_cross_cmp, src/pdcode.c lines 327-348 *)
Definition pd_cross_cmp (a b : crossing) : comparison := PdStore.kcmp (cross_edges a) (cross_edges b).
(** pd_face_cmp, src/pdcode.c lines 350-378 *)
Definition pd_face_cmp (a b : face) : comparison :=
  match Nat.compare (length b) (length a) with
  | Eq => PdStore.kcmp (map fst a) (map fst b)
  | c => c
  end.
(** pd_component_cmp, src/pdcode.c lines 771-799 *)
Definition pd_component_cmp (a b : component) : comparison :=
  match Nat.compare (length (cp_edge b)) (length (cp_edge a)) with
  | Eq => PdStore.kcmp (cp_edge a) (cp_edge b)
  | c => c
  end.
Definition not_gt (c : comparison) : bool := match c with Gt => false | _ => true end.

(** * Checks (PD_VERBOSE off: pd_error returns false, src/pdcode.c lines 4838-4852) *)

(** the edge numbers in all crossing slots, in order *)
Definition all_slots (cs : list crossing) : list nat := flat_map cross_edges cs.
Definition unset_edge (e : edge) : bool := (e_headpos e =? 4) && (e_tailpos e =? 4).

(** adjacent elements in order *)
Fixpoint adjacent {A} (f : A -> A -> bool) (l : list A) : bool :=
  match l with
  | x :: ((y :: _) as l') => f x y && adjacent f l'
  | _ => true
  end.

(** pd_cross_ok, src/pdcode.c lines 2133-2220.  The sign test always succeeds on the three
    values represented.  The edge_seen array is a count. *)
Definition pd_cross_ok (d : pd) : res bool :=
  if ncross d =? 0 then Ok true
  else if negb (forallb (fun e => e <? nedges d) (all_slots (p_cross d))) then Ok false
  else if negb (forallb (fun ee =>
              let n := count_occ Nat.eq_dec (all_slots (p_cross d)) (fst ee) in
              (n =? 2) || (unset_edge (snd ee) && (n =? 0)))
            (combine (seq 0 (nedges d)) (p_edge d))) then Ok false
  else Ok (adjacent (fun a b => not_gt (pd_cross_cmp a b)) (p_cross d)).

(** one turn of the loop of pd_edges_ok, src/pdcode.c lines 2236-2309 *)
Definition edge_ok (d : pd) (i : nat) : res bool :=
  do e <- get (p_edge d) i;
  if (ncross d =? 0) then Ok (unset_edge e)
  else if (ncross d <=? e_head e) || (ncross d <=? e_tail e) then Ok false
  else if (4 <=? e_headpos e) || (4 <=? e_tailpos e) then Ok false
  else
    do hc <- get (p_cross d) (e_head e);
    do tc <- get (p_cross d) (e_tail e);
    if negb (cedge hc (e_headpos e) =? i) then Ok false
    else if negb (cedge tc (e_tailpos e) =? i) then Ok false
    else
      let nextpos := (e_headpos e + 2) mod 4 in
      let prevpos := (e_tailpos e + 2) mod 4 in
      do nx <- get (p_edge d) (cedge hc nextpos);
      if negb (e_tail nx =? e_head e) || negb (e_tailpos nx =? nextpos) then Ok false
      else
        do pv <- get (p_edge d) (cedge tc prevpos);
        if negb (e_head pv =? e_tail e) || negb (e_headpos pv =? prevpos) then Ok false
        else Ok true.

(** pd_edges_ok, src/pdcode.c lines 2222-2314 *)
Definition pd_edges_ok (d : pd) : res bool :=
  if negb (ncross d =? 0) && negb (nedges d =? ncross d * 2) then Ok false
  else all_ok (edge_ok d) (seq 0 (nedges d)).

(** one edge of a component, src/pdcode.c lines 2372-2404: [pos] is the place of the edge in
    its component, [num] the number it should have *)
Definition comp_edge_ok (d : pd) (c : component) (num pos : nat) : res bool :=
  let n := length (cp_edge c) in
  do ei <- get (cp_edge c) pos;
  if negb (num =? ei) then Ok false
  else
    do ni <- get (cp_edge c) ((pos + 1) mod n);
    do e <- get (p_edge d) ei;
    do nx <- get (p_edge d) ni;
    Ok ((e_head e =? e_tail nx) && ((4 + e_headpos e - e_tailpos nx) mod 4 =? 2)).

(** lines 2370-2406: the components from [num] on *)
Fixpoint comps_walk (d : pd) (num : nat) (cs : list component) : res (bool * nat) :=
  match cs with
  | [] => Ok (true, num)
  | c :: cs' =>
      let n := length (cp_edge c) in
      do b <- all_ok (fun pos => comp_edge_ok d c (num + pos) pos) (seq 0 n);
      if b then comps_walk d (num + n) cs' else Ok (false, 0)
  end.

(** the tags sorted, src/pdcode.c lines 2415-2470: every tag after the first one differs
    from the one before and is at least 'A' *)
Fixpoint tags_ok (l : list Z) : bool :=
  match l with
  | x :: ((y :: _) as l') => negb (y =? x)%Z && (65 <=? y)%Z && tags_ok l'
  | _ => true
  end.

(** pd_comps_ok, src/pdcode.c lines 2325-2477 *)
Definition pd_comps_ok (d : pd) : res bool :=
  if MAXCOMPONENTS d <? ncomps d then Ok false
  else if ncross d =? 0 then
    match p_comp d with
    | [c] => match cp_edge c with [0] => Ok true | _ => Ok false end
    | _ => Ok false
    end
  else
    do r <- comps_walk d 0 (p_comp d);
    if negb (fst r) then Ok false
    else if negb (snd r =? nedges d) then Ok false
    else Ok (tags_ok (isort Z.leb (map cp_tag (p_comp d)))).

(** pd_oriented_edge, src/pdcode.c lines 512-543 *)
Definition pd_oriented_edge (e : edge) (o : orient) : res edge :=
  match o with
  | Pos => Ok e
  | Neg => Ok (mkEdge (e_tail e) (e_tailpos e) (e_head e) (e_headpos e))
  | Unset => Fail
  end.

(** one step around a face, src/pdcode.c lines 2536-2577 *)
Definition face_step_ok (d : pd) (f : face) (i : nat) : res bool :=
  let n := length f in
  do a <- get f i;
  do b <- get f ((i + 1) mod n);
  if nedges d <=? fst a then Ok false
  else if nedges d <=? fst b then Ok false
  else
    do ea <- get (p_edge d) (fst a);
    do eb <- get (p_edge d) (fst b);
    do this <- pd_oriented_edge ea (snd a);
    do next <- pd_oriented_edge eb (snd b);
    Ok ((e_head this =? e_tail next) && ((e_tailpos next + 1) mod 4 =? e_headpos this)).

Definition face_ok (d : pd) (f : face) : res bool :=
  if length f =? 0 then UB (* 1 % 0 *) else all_ok (face_step_ok d f) (seq 0 (length f)).

(** face->edge[0] is a lowest edge, lines 2583-2603 *)
Definition face_canonical (f : face) : bool :=
  match f with [] => true | a :: f' => forallb (fun b => fst a <=? fst b) f' end.

(** pd_faces_ok, src/pdcode.c lines 2480-2618 *)
Definition pd_faces_ok (d : pd) : res bool :=
  if MAXFACES d <? nfaces d then Ok false
  else if ncross d =? 0 then
    match p_face d with
    | [[(0, _)]; [(0, _)]] => Ok true
    | _ => Ok false
    end
  else
    do b <- all_ok (face_ok d) (p_face d);
    if negb b then Ok false
    else if negb (forallb face_canonical (p_face d)) then Ok false
    else Ok (adjacent (fun a b => not_gt (pd_face_cmp a b)) (p_face d)).

(** pd_ok, src/pdcode.c lines 2620-2624 *)
Definition pd_ok (d : pd) : res bool :=
  and_ok (pd_cross_ok d) (and_ok (pd_edges_ok d) (and_ok (pd_faces_ok d) (pd_comps_ok d))).
