(** Model of pd_regenerate_comps (src/pdcode.c lines 748-799 and 1020-1257). *)
From Coq Require Import List ZArith Lia Bool Arith.
From Verif Require Import Base Iterators Sorting Pd PdCross PdEdges.
From Verif Require Perm.
Import ListNotations.
Open Scope nat_scope.
Open Scope res_scope.

(** the inner loop along one component, lines 1095-1124.  [nxt] is next_edge, next_or; [cnt] is the
    local variable nedges.  Simplification: the edges are collected in the order in which they are
    met, instead of being noted in edge_assigned and copied to the component afterwards (lines
    1150-1157).  The two agree because no edge is met twice: pd_edges_ok, asserted on line 1034,
    makes next_or always positive, so that the edges met on the way back to the start form a cycle
    of one fixed function. *)
Fixpoint comp_loop (fuel : nat) (d : pd) (start : nat) (nxt : nat * orient) (cnt : nat) : res (pd * list nat) :=
  match fuel with
  | 0 => Fuel
  | S f =>
      if (fst nxt =? start) || (MAXEDGES d + 1 <? cnt) then Ok (d, [])
      else
        do E <- get (p_edge d) (fst nxt);
        do E' <- pd_oriented_edge E (snd nxt);
        let d' := with_edges d (upd (fst nxt) E' (p_edge d)) in
        if nedges d <=? cnt then Fail
        else
          do nx <- next_comp_edge d' (fst nxt);
          do r <- comp_loop f d' start nx (S cnt);
          Ok (fst r, fst nxt :: snd r)
  end.

(** pdint_find_unassigned_edge, src/pdcode.c lines 748-769: the lowest edge on no component *)
Definition find_unassigned_edge (d : pd) (assigned : list nat) : option nat :=
  find (fun e => negb (existsb (Nat.eqb e) assigned)) (seq 0 (nedges d)).

(** the loop over components, lines 1075-1141.  The write to pd->comp[comp] on line 1136 is out
    of bounds when comp = MAXCOMPONENTS, which the test on line 1126 lets pass. *)
Fixpoint comps_loop (fuel : nat) (d : pd) (edge : nat) (comps : list (list nat)) : res (pd * list (list nat)) :=
  match fuel with
  | 0 => Fuel
  | S f =>
      if nedges d <=? edge then UB (* edge_assigned[edge], line 1090 *)
      else
        do nx <- next_comp_edge d edge;
        do r <- comp_loop (nedges d + 2) d edge nx 1;
        if MAXCOMPONENTS d <? length comps then Fail
        else if length comps =? MAXCOMPONENTS d then UB
        else
          let comps' := comps ++ [edge :: snd r] in
          match find_unassigned_edge (fst r) (concat comps') with
          | Some e => comps_loop f (fst r) e comps'
          | None => Ok (fst r, comps')
          end
  end.

(** tag++ on a (signed) char, line 1175 *)
Definition schar (z : Z) : Z := ((z + 128) mod 256 - 128)%Z.
Definition comp_tag (i : nat) : Z := schar (65 + Z.of_nat i).

(** step 3, lines 1184-1195: the components with their edges renumbered along the components *)
Fixpoint renumbered (num i : nat) (cs : list component) : list component :=
  match cs with
  | [] => []
  | c :: cs' => mkComp (seq num (length (cp_edge c))) (comp_tag i) ::
                renumbered (num + length (cp_edge c)) (S i) cs'
  end.

(** step 5, lines 1220-1232 *)
Definition rename_cross (new_num : list nat) (c : crossing) : res crossing :=
  do a <- get new_num (ce0 c);
  do b <- get new_num (ce1 c);
  do e <- get new_num (ce2 c);
  do g <- get new_num (ce3 c);
  Ok (mkCross a b e g (csign c)).

(** pd_regenerate_comps, src/pdcode.c lines 1020-1257.  The arrays old_edge_num and new_edge_num
    have MAXEDGES entries, of which the first nedges are used. *)
Definition pd_regenerate_comps (d : pd) : res pd :=
  assert (ncross d <=? p_maxv d);
  do b <- pd_cross_ok d;
  assert b;
  do b <- pd_edges_ok d;
  assert b;
  do r <- comps_loop (nedges d + 1) d 0 [];
  let d := fst r in
  let comps := isort (fun a b => not_gt (pd_component_cmp a b)) (map (fun l => mkComp l 0%Z) (snd r)) in
  let old_num := concat (map cp_edge comps) in
  do new_num <- Perm.scatter old_num 0 (repeat 0 (nedges d));
  do es <- map_ok (get (p_edge d)) old_num;
  do cs <- map_ok (rename_cross new_num) (p_cross d);
  pd_regenerate_crossings (with_comps (with_cross (with_edges d es) cs) (renumbered 0 0 comps)).

