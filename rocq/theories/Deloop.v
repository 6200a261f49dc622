(** Model of the first Reidemeister move: removing a loop (src/pd_crossingmoves.c lines 274-645). *)
From Coq Require Import List ZArith Lia Bool Arith.
From Verif Require Import Base Iterators Sorting Pd PdCross PdEdges PdComps PdFaces PdHash OverUnder Compact Moves.
From Verif Require Perm.
Import ListNotations.
Open Scope nat_scope.
Open Scope res_scope.

(** An index read from an index table and then used as an index: PD_UNSET_IDX is outside every array. *)
Definition index (o : option nat) : res nat := match o with Some i => Ok i | None => UB end.
Definition table_get (t : list (option nat)) (i : nat) : res nat := do o <- get t i; index o.

(** lines 318-325: the components with the deleted edges left out and the others renamed.  The
    transformed entries are never PD_UNSET_IDX, because those are left out. *)
Definition compacted_comp (new_edge_idx : list (option nat)) (c : component) : res component :=
  do l <- pd_transform_and_compact_indices (cp_edge c) new_edge_idx;
  do l' <- map_ok index l;
  Ok (mkComp l' (cp_tag c)).

(** line 335: the components before the first empty one *)
Fixpoint until_empty (l : list component) : list component :=
  match l with
  | [] => []
  | c :: l' => match cp_edge c with [] => [] | _ => c :: until_empty l' end
  end.

(** lines 372-380 *)
Definition rename_comp (new_num : list nat) (c : component) : res component :=
  do l <- map_ok (get new_num) (cp_edge c);
  Ok (mkComp l (cp_tag c)).

(** pd_compact_components, lines 274-398: [comps] are the components of pd, [d] is outpd.  new_edge_buf and
    resort_edge_idx have outpd->nedges entries, zero at first. *)
Definition pd_compact_components (comps : list component) (d : pd) (new_edge_idx : list (option nat)) : res pd :=
  do cs <- map_ok (compacted_comp new_edge_idx) comps;
  let cs := until_empty (isort (fun a b => not_gt (pd_component_cmp a b)) cs) in
  let old_num := concat (map cp_edge cs) in
  if nedges d <? length old_num then UB
  else
    do new_num <- Perm.scatter old_num 0 (repeat 0 (nedges d));
    do es <- map_ok (get (p_edge d)) old_num;
    do xs <- map_ok (rename_cross new_num) (p_cross d);
    do cs <- map_ok (rename_comp new_num) cs;
    do d1 <- pd_regenerate_crossings
      (with_comps (with_cross (with_edges d (es ++ repeat (mkEdge 0 0 0 0) (nedges d - length es))) xs) cs);
    pd_regenerate_faces d1.

(** lines 433-451: the first place of crossing [x] whose edge is also at the next place *)
Definition repeated_place (x : crossing) : option nat :=
  find (fun i => cedge x i =? cedge x ((i + 1) mod 4)) (seq 0 4).

(** lines 543-548, the ends of an edge in the new numbering of crossings.  The entry of the deleted crossing is
    PD_UNSET_IDX; [p_unset] stands for that number.  It is used as an index nowhere below. *)
Definition p_unset (t : list (option nat)) (i : nat) : res nat :=
  do o <- get t i; Ok (match o with Some j => j | None => length t end).
Definition moved_ends (new_crossing_idx : list (option nat)) (E : edge) : res edge :=
  do h <- p_unset new_crossing_idx (e_head E);
  do t <- p_unset new_crossing_idx (e_tail E);
  Ok (mkEdge h (e_headpos E) t (e_tailpos E)).

(** lines 563-571 *)
Definition table_cross (new_edge_idx : list (option nat)) (x : crossing) : res crossing :=
  do a <- table_get new_edge_idx (ce0 x);
  do b <- table_get new_edge_idx (ce1 x);
  do c <- table_get new_edge_idx (ce2 x);
  do g <- table_get new_edge_idx (ce3 x);
  Ok (mkCross a b c g (csign x)).

(** pd_component_and_pos, src/pdcode.c lines 380-412: fails when the edge is on no component.  The position found
    is not used by the caller. *)
Definition on_some_component (d : pd) (e : nat) : bool := existsb (fun c => existsb (Nat.eqb e) (cp_edge c)) (p_comp d).

(** lines 470-571: the new crossings and edges, in a diagram whose other fields are as pd_code_new leaves them.
    Simplification: outpd has the capacity of pd (MAXVERTS is outpd->ncross in the code, MAXEDGES is
    outpd->nedges, MAXCOMPONENTS is pd->ncomps, and MAXFACES is that of pd_code_new(pd->MAXVERTS-1)). *)
Definition loop_cut (d : pd) (cr e0 e1 e2 : nat) : res (pd * list (option nat)) :=
  do r <- pd_compacting_copy (p_cross d) [cr];
  let '(xs, new_crossing_idx) := r in
  do E2 <- get (p_edge d) e2;
  do h2 <- table_get new_crossing_idx (e_head E2);
  do xs <- put_cross xs h2 (e_headpos E2) e0;
  do r <- pd_compacting_copy (p_edge d) [e1; e2];
  let '(es, new_edge_idx) := r in
  do es <- map_ok (moved_ends new_crossing_idx) es;
  do n0 <- table_get new_edge_idx e0;
  do E0 <- get es n0;
  let es := upd n0 (mkEdge h2 (e_headpos E2) (e_tail E0) (e_tailpos E0)) es in
  do xs <- map_ok (table_cross new_edge_idx) xs;
  Ok (mkPd (p_maxv d) 0 [32] es xs [] [], new_edge_idx).

(** pd_R1_loopdeletion, lines 403-645 *)
Definition pd_R1_loopdeletion (d : pd) (cr : nat) : res pd :=
  do x <- get (p_cross d) cr;
  match repeated_place x with
  | None => Fail (* exit(1) *)
  | Some i =>
      let e1 := cedge x i in
      do E1 <- get (p_edge d) e1;
      if (4 <=? e_headpos E1) then UB
      else
        let e0 := cedge x ((e_tailpos E1 + 2) mod 4) in
        let e2 := cedge x ((e_headpos E1 + 2) mod 4) in
        if e0 =? e2 then
          if (ncomps d =? 1) && (ncross d =? 1) && (nedges d =? 2) && (nfaces d =? 3) then pd_build_unknot0
          else Fail
        else if negb (on_some_component d e0) then Fail
        else
          do r <- loop_cut d cr e0 (cedge x (e_headpos E1)) e2;
          let '(out, new_edge_idx) := r in
          do out <- pd_regenerate_crossings out;
          do out <- pd_compact_components (p_comp d) out new_edge_idx;
          do out <- pd_regenerate_hash out;
          do b <- pd_ok out;
          assert b;
          assert (nfaces out =? nfaces d - 1);
          assert (ncross out =? ncross d - 1);
          assert (nedges out =? nedges d - 2);
          Ok out
  end.
