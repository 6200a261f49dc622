(** Model of the second Reidemeister move: removing a bigon (src/pd_crossingmoves.c lines 702-1724). *)
From Coq Require Import List ZArith Lia Bool Arith.
From Verif Require Import Base Iterators Sorting Pd PdCross PdEdges PdComps PdFaces PdHash OverUnder Compact Moves Deloop.
Import ListNotations.
Open Scope nat_scope.
Open Scope res_scope.

(** pd_previous_edge and pd_next_edge, src/pdcode.c lines 4988-5008.  pd_check_edge only reports. *)
Definition pd_previous_edge (d : pd) (e : nat) : res nat :=
  do E <- get (p_edge d) e;
  do x <- get (p_cross d) (e_tail E);
  let c := cedge x ((e_tailpos E + 2) mod 4) in
  do C <- get (p_edge d) c;
  assert (e_head C =? e_tail E);
  Ok c.
Definition pd_next_edge (d : pd) (e : nat) : res nat :=
  do E <- get (p_edge d) e;
  do x <- get (p_cross d) (e_head E);
  let c := cedge x ((e_headpos E + 2) mod 4) in
  do C <- get (p_edge d) c;
  assert (e_tail C =? e_head E);
  Ok c.

(** pd_face_and_pos, src/pdcode.c lines 414-486: the last face found for each orientation.  The positions are not
    used by the caller.  A face that is not found leaves the result uninitialized, and the caller uses it. *)
Definition has_dart (e : nat) (o : orient) (f : face) : bool := existsb (fun a => (fst a =? e) && orient_eqb (snd a) o) f.
Fixpoint last_face (e : nat) (o : orient) (i : nat) (fs : list face) (r : option nat) : option nat :=
  match fs with
  | [] => r
  | f :: fs' => last_face e o (S i) fs' (if has_dart e o f then Some i else r)
  end.
Definition pd_face_and_pos (d : pd) (e : nat) : res (nat * nat) :=
  do p <- index (last_face e Pos 0 (p_face d) None);
  do n <- index (last_face e Neg 0 (p_face d) None);
  Ok (p, n).

(** the two crossings in order, eA[0..2] and eB[0..2] *)
Record strands := mkStrands { s_c0 : nat; s_c1 : nat; a0 : nat; a1 : nat; a2 : nat; b0 : nat; b1 : nat; b2 : nat }.

(** lines 794-813 and 821-840 *)
Definition under_any (d : pd) (c0 c1 : nat) : res (nat * nat * nat) :=
  do r <- pd_understrand d c0;
  let '(i, o) := r in
  do Eo <- get (p_edge d) o;
  if e_head Eo =? c1 then do n <- pd_next_edge d o; Ok (i, o, n)
  else
    do Ei <- get (p_edge d) i;
    if e_tail Ei =? c1 then do p <- pd_previous_edge d i; Ok (p, i, o)
    else Fail (* exit(1) *).
(** lines 783-851 *)
Definition shadow_strands (d : pd) (c0 c1 : nat) : res strands :=
  do r <- pd_overstrand d c0;
  let '(i, o) := r in
  do Eo <- get (p_edge d) o;
  if e_head Eo =? c1 then
    do n <- pd_next_edge d o;
    do b <- under_any d c0 c1;
    let '(x, y, z) := b in Ok (mkStrands c0 c1 i o n x y z)
  else
    do Ei <- get (p_edge d) i;
    if e_tail Ei =? c1 then
      do p <- pd_previous_edge d i;
      do b <- under_any d c0 c1;
      let '(x, y, z) := b in Ok (mkStrands c1 c0 p i o x y z)
    else Fail.
(** lines 852-982 *)
Definition signed_strands (d : pd) (c0 c1 : nat) : res strands :=
  do r <- pd_overstrand d c0;
  do Eo <- get (p_edge d) (snd r);
  let '(c0, c1) := if e_head Eo =? c1 then (c0, c1) else (c1, c0) in
  do r <- pd_overstrand d c0;
  let '(i, o) := r in
  do Eo <- get (p_edge d) o;
  if negb (e_head Eo =? c1) then Fail
  else
    do n <- pd_next_edge d o;
    do r <- pd_overstrand d c1;
    if negb (o =? fst r) || negb (n =? snd r) then Fail
    else
      do u <- pd_understrand d c0;
      let '(x, y) := u in
      do Y <- get (p_edge d) y;
      if e_head Y =? c1 then
        do z <- pd_next_edge d y;
        do w <- pd_understrand d c1;
        if negb (y =? fst w) || negb (z =? snd w) then Fail
        else Ok (mkStrands c0 c1 i o n x y z)
      else
        do X <- get (p_edge d) x;
        if e_tail X =? c1 then
          do w0 <- pd_previous_edge d x;
          do w <- pd_understrand d c1;
          if negb (w0 =? fst w) || negb (x =? snd w) then Fail
          else Ok (mkStrands c0 c1 i o n w0 x y)
        else Fail.
(** lines 780-982 *)
Definition bigon_strands (d : pd) (c0 c1 : nat) : res strands :=
  do x <- get (p_cross d) c0;
  do y <- get (p_cross d) c1;
  if orient_eqb (csign x) Unset && orient_eqb (csign y) Unset then shadow_strands d c0 c1
  else signed_strands d c0 c1.

(** lines 1006-1050: the crossingless results *)
Definition set_tag0 (t : Z) (d : pd) : pd :=
  with_comps d (match p_comp d with [] => [] | c :: l => mkComp (cp_edge c) t :: l end).
Definition tagged_unknot (t : Z) : res pd := do u <- pd_build_unknot0; Ok (set_tag0 t u).
Definition tag_of_edge (d : pd) (e : nat) : res Z :=
  do r <- pd_component_and_pos d e;
  do c <- get (p_comp d) (fst r);
  Ok (cp_tag c).
Definition bigon_alone (d : pd) (s : strands) : res (list pd) :=
  if ncomps d =? 2 then
    do o <- pd_overstrand d (s_c0 s);
    do u <- pd_understrand d (s_c0 s);
    do t <- tag_of_edge d (fst o);
    do t' <- tag_of_edge d (fst u);
    do p <- tagged_unknot t;
    do q <- tagged_unknot t';
    Ok [p; q]
  else
    do c <- get (p_comp d) 0;
    do p <- tagged_unknot (cp_tag c);
    Ok [p].

(** lines 1085-1161: the faces F1 and F2 *)
Definition bigon_corners (d : pd) (s : strands) : res (nat * nat) :=
  do fA <- pd_face_and_pos d (a1 s);
  do fB <- pd_face_and_pos d (b1 s);
  do x <- get (p_cross d) (s_c0 s);
  do E <- get (p_edge d) (a0 s);
  let next := cedge x ((e_headpos E + 1) mod 4) in
  let '(pA, nA) := fA in
  let '(pB, nB) := fB in
  do neg <- (if (pA =? nB) || (pB =? nA) then Ok (next =? b0 s)
             else if (pA =? pB) || (nA =? nB) then Ok (next =? b2 s)
             else Fail);
  do f0 <- pd_face_and_pos d (a0 s);
  do f2 <- pd_face_and_pos d (a2 s);
  Ok (if neg then (snd f0, snd f2) else (fst f0, fst f2)).

(** lines 1238-1240 and the like: edge x ends where edge y ended *)
Definition sew (d : pd) (new_crossing_idx new_edge_idx : list (option nat)) (xs : list crossing) (es : list edge) (x y : nat)
  : res (list crossing * list edge) :=
  do Y <- get (p_edge d) y;
  do h <- table_get new_crossing_idx (e_head Y);
  do xs <- put_cross xs h (e_headpos Y) x;
  do n <- table_get new_edge_idx x;
  do X <- get es n;
  Ok (xs, upd n (mkEdge (e_head Y) (e_headpos Y) (e_tail X) (e_tailpos X)) es).
Fixpoint sew_all (d : pd) (new_crossing_idx new_edge_idx : list (option nat)) (xs : list crossing) (es : list edge) (l : list (nat * nat))
  : res (list crossing * list edge) :=
  match l with
  | [] => Ok (xs, es)
  | (x, y) :: l' =>
      do r <- sew d new_crossing_idx new_edge_idx xs es x y;
      sew_all d new_crossing_idx new_edge_idx (fst r) (snd r) l'
  end.
(** lines 1170-1298, 1511-1585: some crossings and edges are left out, some edges sewn together and everything is
    numbered anew.  Simplification: outpd has the capacity of pd, as in Deloop.v. *)
Definition cut_out (d : pd) (crossing_deletions edge_deletions : list nat) (seams : list (nat * nat)) : res (pd * list (option nat)) :=
  do r <- pd_compacting_copy (p_cross d) crossing_deletions;
  let '(xs, new_crossing_idx) := r in
  do r <- pd_compacting_copy (p_edge d) edge_deletions;
  let '(es, new_edge_idx) := r in
  do r <- sew_all d new_crossing_idx new_edge_idx xs es seams;
  do xs <- map_ok (table_cross new_edge_idx) (fst r);
  do es <- map_ok (moved_ends new_crossing_idx) (snd r);
  Ok (mkPd (p_maxv d) 0 [32] es xs [] [], new_edge_idx).

(** lines 1227-1280: which edges are sewn together *)
Definition bigon_seams (s : strands) : list (nat * nat) :=
  if b0 s =? a2 s then [(a0 s, b2 s)]
  else if b2 s =? a0 s then [(b0 s, a2 s)]
  else [(a0 s, a2 s); (b0 s, b2 s)].
(** lines 1163-1338: one diagram results *)
Definition bigon_joined (d : pd) (s : strands) : res (list pd) :=
  do r <- cut_out d [s_c0 s; s_c1 s] [a1 s; a2 s; b1 s; b2 s] (bigon_seams s);
  let '(out, new_edge_idx) := r in
  do out <- pd_regenerate_crossings out;
  do out <- pd_compact_components (p_comp d) out new_edge_idx;
  do out <- pd_regenerate_faces out;
  do out <- pd_regenerate_hash out;
  do b <- pd_ok out;
  assert b;
  assert (nfaces out =? nfaces d - 2);
  assert (ncross out =? ncross d - 2);
  assert (nedges out =? nedges d - 4);
  Ok [out].

(** ** two diagrams result, lines 1338-1722 *)
Inductive cstate := A_unwalked | A_walked | B_unwalked | B_walked | Unknown.
Definition cstate_eqb (s t : cstate) : bool :=
  match s, t with
  | A_unwalked, A_unwalked | A_walked, A_walked | B_unwalked, B_unwalked | B_walked, B_walked | Unknown, Unknown => true
  | _, _ => false
  end.
(** lines 1406-1421 and 1427-1442: walking along a component *)
Fixpoint walk_edges (d : pd) (c0 c1 : nat) (mark : cstate) (es : list nat) (st : list cstate) : res (list cstate) :=
  match es with
  | [] => Ok st
  | e :: es' =>
      do E <- get (p_edge d) e;
      if (e_head E =? c0) || (e_head E =? c1) then walk_edges d c0 c1 mark es' st
      else
        do x <- get (p_cross d) (e_head E);
        do r <- pd_component_and_pos d (cedge x ((e_headpos E + 1) mod 4));
        do s <- get st (fst r);
        walk_edges d c0 c1 mark es' (if cstate_eqb s Unknown then upd (fst r) mark st else st)
  end.
(** lines 1402-1447 *)
Fixpoint walk_pass (d : pd) (c0 c1 : nat) (is : list nat) (st : list cstate) : res (list cstate) :=
  match is with
  | [] => Ok st
  | i :: is' =>
      do s <- get st i;
      do c <- get (p_comp d) i;
      do st <- (match s with
                | A_unwalked => do st <- walk_edges d c0 c1 A_unwalked (cp_edge c) st; Ok (upd i A_walked st)
                | B_unwalked => do st <- walk_edges d c0 c1 B_unwalked (cp_edge c) st; Ok (upd i B_walked st)
                | _ => Ok st
                end);
      walk_pass d c0 c1 is' st
  end.
Definition walked (s : cstate) : bool := match s with A_walked | B_walked => true | _ => false end.
(** lines 1398-1455: a pass that changes nothing is repeated for ever, so that more passes than components mean
    that the loop does not end *)
Fixpoint walk_all (fuel : nat) (d : pd) (c0 c1 : nat) (st : list cstate) : res (list cstate) :=
  match fuel with
  | 0 => Fuel
  | S fuel' =>
      do st <- walk_pass d c0 c1 (seq 0 (ncomps d)) st;
      if forallb walked st then Ok st else walk_all fuel' d c0 c1 st
  end.
(** lines 1479-1511: the edges of the components with mark [m], and their heads *)
Definition marked_edges (d : pd) (st : list cstate) (m : cstate) : list nat :=
  concat (map (fun q => if cstate_eqb (snd q) m then cp_edge (fst q) else []) (combine (p_comp d) st)).
Definition heads (d : pd) (es : list nat) : res (list nat) := map_ok (fun e => do E <- get (p_edge d) e; Ok (e_head E)) es.

(** lines 1535-1722, for one of the two children: the crossings [cdel] and edges [edel] are deleted, and x is
    sewn onto y.  Simplification: the child is completed before the other one, so that of two failures the order
    may be different; qsort keeps the order of equal components, as in PdComps.v. *)
Definition bigon_child (d : pd) (cdel edel : list nat) (x y : nat) (tag : Z) : res pd :=
  do r <- pd_compacting_copy (p_cross d) cdel;
  match fst r with
  | [] => tagged_unknot tag
  | _ =>
      do r <- cut_out d cdel edel [(x, y)];
      let '(out, new_edge_idx) := r in
      do out <- pd_compact_components (p_comp d) out new_edge_idx;
      let out := with_comps out (isort (fun a b => not_gt (pd_component_cmp a b)) (p_comp out)) in
      do out <- pd_regenerate_crossings out;
      do out <- pd_regenerate_faces out;
      pd_regenerate_hash out
  end.
Definition euler_ok (d : pd) : bool := (ncross d =? 0) || (ncross d + nfaces d =? nedges d + 2).
Definition bigon_split (d : pd) (s : strands) : res (list pd) :=
  do rA <- pd_component_and_pos d (a0 s);
  do rB <- pd_component_and_pos d (b0 s);
  let '(cA, cB) := (fst rA, fst rB) in
  assert (negb (cA =? cB));
  let st := upd cB B_unwalked (upd cA A_unwalked (repeat Unknown (ncomps d))) in
  do st <- walk_all (S (ncomps d)) d (s_c0 s) (s_c1 s) st;
  let A_edges := marked_edges d st A_walked in
  let B_edges := marked_edges d st B_walked in
  do A_crossings <- heads d A_edges;
  do B_crossings <- heads d B_edges;
  do CA <- get (p_comp d) cA;
  do CB <- get (p_comp d) cB;
  do pA <- bigon_child d B_crossings (B_edges ++ [a1 s; a2 s]) (a0 s) (a2 s) (cp_tag CA);
  do pB <- bigon_child d A_crossings (A_edges ++ [b1 s; b2 s]) (b0 s) (b2 s) (cp_tag CB);
  assert (ncomps pA + ncomps pB =? ncomps d);
  assert (ncross pA + ncross pB =? ncross d - 2);
  assert ((ncross pA =? 0) || (ncross pB =? 0) || (nedges pA + nedges pB =? nedges d - 4));
  assert (euler_ok pA);
  assert (euler_ok pB);
  do b <- pd_ok pA;
  assert b;
  do b <- pd_ok pB;
  assert b;
  Ok [pA; pB].

(** pd_R2_bigon_elimination.  The result is the list outpd[0..noutpd-1].  A diagram of two crossings with another
    number of components than 1 or 2 runs on, as in the code. *)
Definition pd_R2_bigon_elimination (d : pd) (c0 c1 : nat) : res (list pd) :=
  do b <- pd_ok d;
  assert b;
  do s <- bigon_strands d c0 c1;
  if (ncross d =? 2) && ((ncomps d =? 2) || (ncomps d =? 1)) then bigon_alone d s
  else
    do F <- bigon_corners d s;
    if fst F =? snd F then bigon_split d s else bigon_joined d s.
