(** Model of the splitting of a diagram into connected pieces (src/pd_splitdiagram.c). *)
From Coq Require Import List ZArith Lia Bool Arith.
From Verif Require Import Base Iterators Sorting Pd PdCross PdEdges PdComps PdFaces PdHash PdIso OverUnder.
From Verif Require Perm.
Import ListNotations.
Open Scope nat_scope.
Open Scope res_scope.

(** pdint_split_worker, src/pd_splitdiagram.c lines 45-93.  edge_code is a list in which PD_UNSET_IDX is
    [None].  [fuel] bounds the depth of the recursion. *)
Fixpoint split_worker (fuel : nat) (d : pd) (edge_code : list (option nat)) (edge : nat) : res (list (option nat)) :=
  match fuel with
  | 0 => Fuel
  | S fuel' =>
      do E <- get (p_edge d) edge;
      if unset_edge E then Ok edge_code
      else
        do H <- get (p_cross d) (e_head E);
        do T <- get (p_cross d) (e_tail E);
        fold_ok (fun code f =>
          do k <- get code f;
          match k with
          | Some _ => Ok code
          | None => do k <- get code edge; split_worker fuel' d (upd f k code) f
          end)
          [cedge H ((e_headpos E + 1) mod 4); cedge H ((e_headpos E + 3) mod 4);
           cedge T ((e_tailpos E + 1) mod 4); cedge T ((e_tailpos E + 3) mod 4)] edge_code
  end.

(** the loop over the edges, lines 131-141, with ncodes *)
Definition split_codes (fuel : nat) (d : pd) : res (list (option nat) * nat) :=
  fold_ok (fun s i =>
    do k <- get (fst s) i;
    match k with
    | Some _ => Ok s
    | None => do code <- split_worker fuel d (upd i (Some (snd s)) (fst s)) i; Ok (code, S (snd s))
    end) (seq 0 (nedges d)) (repeat None (nedges d), 0).

(** the test edge_code[pd->comp[j].edge[0]] == i, lines 185 and 202.  Components without edges have edge = NULL. *)
Definition has_code (code : list (option nat)) (i : nat) (c : component) : res bool :=
  do e <- get (cp_edge c) 0;
  do k <- get code e;
  Ok (match k with Some k => k =? i | None => false end).
Definition comps_with (d : pd) (code : list (option nat)) (i : nat) : res (list component) :=
  do bs <- map_ok (has_code code i) (p_comp d);
  Ok (map fst (filter snd (combine (p_comp d) bs))).

(** lines 291-293: every fourth entry *)
Fixpoint every_fourth (l : list nat) : list nat :=
  match l with
  | [] => []
  | x :: l' => x :: match l' with _ :: _ :: _ :: r => every_fourth r | _ => [] end
  end.

(** lines 296-305: the copy of crossing [c] *)
Definition child_cross (d : pd) (new_edge_num : list nat) (c : nat) : res crossing :=
  do x <- get (p_cross d) c;
  rename_cross new_edge_num x.
(** lines 317-324 *)
Definition child_edge (new_crossing_num : list nat) (E : edge) : res edge :=
  do h <- get new_crossing_num (e_head E);
  do t <- get new_crossing_num (e_tail E);
  Ok (mkEdge h (e_headpos E) t (e_tailpos E)).

(** components with their edges renumbered from [num] on, and their tags, lines 248-268 *)
Fixpoint consecutive (num : nat) (cs : list component) : list component :=
  match cs with
  | [] => []
  | c :: cs' => mkComp (seq num (length (cp_edge c))) (cp_tag c) :: consecutive (num + length (cp_edge c)) cs'
  end.

(** one turn of the loop over the pieces, lines 163-346.  The arrays new_edge_num and new_crossing_num are zero
    at first.  The assertion on line 240 and those on lines 255 and 256 are checked before the loop. *)
Definition split_child (d : pd) (code : list (option nat)) (i : nat) : res pd :=
  let nedges_i := length (filter (fun k => match k with Some k => k =? i | None => false end) code) in
  do cs <- comps_with d code i;
  do child <-
    (if nedges_i =? 1 then
       do u <- pd_build_unknot0;
       Ok (match rev cs with
           | [] => u
           | c :: _ => with_comps u (map (fun k => mkComp (cp_edge k) (cp_tag c)) (p_comp u))
           end)
     else
       assert (negb (nedges_i / 2 =? 0));
       let child := mkPd (maxverts_of (nedges_i / 2)) 0 [32] [] [] [] [] in
       if MAXCOMPONENTS child <? length cs then UB
       else
         let cs := isort (fun a b => not_gt (pd_component_cmp a b)) cs in
         let old_num := concat (map cp_edge cs) in
         assert (nedges d <=? MAXEDGES d);
         assert (forallb (fun e => e <? MAXEDGES d) old_num);
         assert (length old_num <=? MAXEDGES child);
         do new_edge_num <- Perm.scatter old_num 0 (repeat 0 (MAXEDGES d));
         do es <- map_ok (get (p_edge d)) old_num;
         let crossings_to_copy := every_fourth (isort Nat.leb (flat_map (fun E => [e_head E; e_tail E]) es)) in
         assert (length crossings_to_copy <=? p_maxv child);
         do new_crossing_num <- Perm.scatter crossings_to_copy 0 (repeat 0 (ncross d));
         do xs <- map_ok (child_cross d new_edge_num) crossings_to_copy;
         do es <- map_ok (child_edge new_crossing_num) es;
         do child <- pd_regenerate_crossings (mkPd (p_maxv child) 0 [32] es xs (consecutive 0 cs) []);
         do child <- pd_regenerate_faces child;
         pd_regenerate_hash child);
  do b <- pd_ok child;
  assert b;
  Ok child.

(** pd_split_diagram, lines 96-425: the children *)
Definition pd_split_diagram (fuel : nat) (d : pd) : res (list pd) :=
  do s <- split_codes fuel d;
  do children <- map_ok (split_child d (fst s)) (seq 0 (snd s));
  assert (list_sum (map ncross children) =? ncross d);
  assert (list_sum (map nedges children) =? nedges d);
  assert (list_sum (map ncomps children) =? ncomps d);
  Ok children.
