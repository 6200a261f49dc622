(** Model of pd_apply_edgemap (src/pd_isomorphisms.c) and of pd_reorient_component and
    pd_renumber_component (src/pd_operations.c). *)
From Coq Require Import List ZArith Lia Bool Arith.
From Verif Require Import Base Iterators Perm Pd PdCross PdFaces PdHash OverUnder PdIso.
Import ListNotations.
Open Scope nat_scope.
Open Scope res_scope.

(** pd_reorient_edge, src/pdcode.c lines 545-568 *)
Definition flip_edge (E : edge) : edge := mkEdge (e_tail E) (e_tailpos E) (e_head E) (e_headpos E).
Definition pd_reorient_edge (es : list edge) (e : nat) (o : orient) : res (list edge) :=
  assert (e <? length es);
  assert (pd_or_ok o);
  match o with
  | Neg => do E <- get es e; Ok (upd e (flip_edge E) es)
  | _ => Ok es
  end.

(** pd_edgemap_consistent(pd,pd,edgemap), src/pd_isomorphisms.c lines 674-743, for one diagram: the
    tests that compare the two diagrams cannot fail *)
Definition comp_target (d : pd) (m : edgemap) (e : nat) : res (nat * orient) :=
  do e' <- get (pmap (em_perm m)) e;
  do cp <- pd_component_and_pos d e';
  do o <- get (em_or m) e;
  Ok (fst cp, o).
Definition comp_consistent (d : pd) (m : edgemap) (c : component) : res bool :=
  do e0 <- get (cp_edge c) 0;
  do t0 <- comp_target d m e0;
  all_ok (fun e => do t <- comp_target d m e; Ok ((fst t =? fst t0) && orient_eqb (snd t) (snd t0))) (tl (cp_edge c)).
Definition pd_edgemap_consistent (d : pd) (m : edgemap) : res bool :=
  if negb (pn (em_perm m) =? nedges d) then Ok false
  else all_ok (comp_consistent d m) (p_comp d).

(** pd_apply_edgemap, src/pd_isomorphisms.c lines 789-875 *)
Definition copy_edge (m : edgemap) (st : list edge * list edge) (e : nat) : res (list edge * list edge) :=
  do e' <- get (pmap (em_perm m)) e;
  do o <- get (em_or m) e;
  do es <- pd_reorient_edge (fst st) e' o;
  do E <- get es e';
  Ok (es, snd st ++ [E]).
Definition rename_cross (ip : list nat) (x : crossing) : res crossing :=
  do a <- get ip (ce0 x);
  do b <- get ip (ce1 x);
  do c <- get ip (ce2 x);
  do e <- get ip (ce3 x);
  Ok (mkCross a b c e (csign x)).
Definition rename_dart (ip : list nat) (ors : list orient) (a : nat * orient) : res (nat * orient) :=
  do e <- get ip (fst a);
  do w <- get ors e;
  do o <- pd_compose_or w (snd a);
  Ok (e, o).
Definition pd_apply_edgemap (d : pd) (m : edgemap) : res pd :=
  do b <- pd_edgemap_consistent d m;
  assert b;
  do st <- fold_ok (copy_edge m) (seq 0 (nedges d)) (p_edge d, []);
  do ip <- pd_inverse_perm (em_perm m);
  do cs <- map_ok (rename_cross (pmap ip)) (p_cross d);
  do fs <- map_ok (map_ok (rename_dart (pmap ip) (em_or m))) (p_face d);
  do d1 <- pd_regenerate_crossings (with_faces (with_cross (with_edges d (snd st)) cs) fs);
  do d2 <- pd_regenerate_faces d1;
  pd_regenerate_hash d2.

(** the sign changes, src/pd_operations.c lines 68-82 *)
Definition flip_sign (o : orient) : orient := match o with Pos => Neg | Neg => Pos | Unset => Unset end.
Definition set_sign (x : crossing) (o : orient) : crossing := mkCross (ce0 x) (ce1 x) (ce2 x) (ce3 x) o.
Definition flip_head (d : pd) (cs : list crossing) (e : nat) : res (list crossing) :=
  do E <- get (p_edge d) e;
  do x <- get cs (e_head E);
  Ok (upd (e_head E) (set_sign x (flip_sign (csign x))) cs).

(** the edge map, lines 93-128.  Simplification: last_edge - first_edge + 1 and (last_edge+1) - e are
    computed on 32-bit numbers, here on natural numbers; the assertion between them fails in both
    readings unless the component has at least as many edges as its first edge number differs from
    2^32. *)
Definition set_edge (first last : nat) (st : list nat * list orient) (e : nat) : res (list nat * list orient) :=
  do os <- put (first + e) Neg (snd st);
  do m <- put (first + e) (if e =? 0 then first else last + 1 - e) (fst st);
  Ok (m, os).
Definition reversal_map (d : pd) (c : component) : res edgemap :=
  let e0 := pd_new_edgemap (nedges d) in
  let n := length (cp_edge c) in
  do first <- get (cp_edge c) 0;
  do last <- get (cp_edge c) (n - 1);
  assert (last + 1 =? n + first);
  do st <- fold_ok (set_edge first last) (seq 0 n) (pmap (em_perm e0), em_or e0);
  do p <- pd_regenerate_pcidx (mkPerm (fst st) (pc_idx (em_perm e0)));
  Ok (mkEM p (snd st)).
(** pd_reorient_component, src/pd_operations.c lines 43-144 *)
Definition pd_reorient_component (d : pd) (cmp : nat) (o : orient) : res pd :=
  match o with
  | Neg =>
      do c <- get (p_comp d) cmp;
      do cs <- fold_ok (flip_head d) (cp_edge c) (p_cross d);
      let d1 := with_cross d cs in
      do m <- reversal_map d1 c;
      do b <- pd_edgemap_ok m;
      assert b;
      do d2 <- pd_apply_edgemap d1 m;
      pd_regenerate_faces d2
  | _ => Ok d
  end.

(** the edge map of pd_renumber_component, lines 177-200; e + ofs is computed on 32-bit numbers *)
Definition shift_edge (c : component) (ofs : Z) (st : list nat * list orient) (e : nat) : res (list nat * list orient) :=
  let n := length (cp_edge c) in
  let new_e := Z.to_nat ((Z.of_nat e + ofs) mod 2 ^ 32 mod Z.of_nat n)%Z in
  do from <- get (cp_edge c) e;
  do to <- get (cp_edge c) new_e;
  do os <- put from Pos (snd st);
  do m <- put from to (fst st);
  Ok (m, os).
Definition shift_map (d : pd) (c : component) (ofs : Z) : res edgemap :=
  let e0 := pd_new_edgemap (nedges d) in
  do st <- fold_ok (shift_edge c ofs) (seq 0 (length (cp_edge c))) (pmap (em_perm e0), em_or e0);
  do p <- pd_regenerate_pcidx (mkPerm (fst st) (pc_idx (em_perm e0)));
  Ok (mkEM p (snd st)).
(** pd_renumber_component, src/pd_operations.c lines 147-213 *)
Definition pd_renumber_component (d : pd) (cmp : nat) (ofs : Z) : res pd :=
  if (ofs =? 0)%Z then Ok d
  else
    do c <- get (p_comp d) cmp;
    do m <- shift_map d c ofs;
    do b <- pd_edgemap_ok m;
    assert b;
    do d2 <- pd_apply_edgemap d m;
    pd_regenerate_faces d2.
