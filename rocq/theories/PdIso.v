(** Model of the isomorphisms of diagrams (src/pd_isomorphisms.c). *)
From Coq Require Import List ZArith Lia Bool Arith.
From Verif Require Import Base Sorting Iterators PermData Perm Pd PdCross PdFaces OverUnder.
From Verif Require PdStore.
Import ListNotations.
Open Scope nat_scope.
Open Scope res_scope.

(** * Maps *)

(** pd_edgemap_t, pd_crossmap_t, pd_facemap_t and pd_iso_t, src/pd_isomorphisms.h.  The field orient of
    an edge map has perm->n entries.  A crossing map may be a NULL pointer. *)
Record edgemap := mkEM { em_perm : perm; em_or : list orient }.
Record ormap := mkOM { om_perm : perm; om_or : orient }.
Record iso := mkIso { i_comp : perm; i_edge : edgemap; i_cross : option ormap; i_face : ormap }.

(** a loop whose turns can fail *)
Fixpoint fold_ok {A B} (f : A -> B -> res A) (l : list B) (a : A) : res A :=
  match l with
  | [] => Ok a
  | x :: l' => do a' <- f a x; fold_ok f l' a'
  end.

(** pd_compose_or, src/pdcode.c lines 180-197 *)
Definition pd_compose_or (a b : orient) : res orient :=
  match a, b with
  | Pos, Pos | Neg, Neg => Ok Pos
  | Pos, Neg | Neg, Pos => Ok Neg
  | _, _ => Fail
  end.
(** pd_or_ok, src/pdcode.c lines 199-202 *)
Definition pd_or_ok (o : orient) : bool := match o with Unset => false | _ => true end.

(** pd_new_edgemap, src/pd_isomorphisms.c lines 357-371 *)
Definition pd_new_edgemap (n : nat) : edgemap := mkEM (pd_new_perm n) (repeat Pos n).
(** pd_edgemap_ok, lines 447-464 *)
Definition pd_edgemap_ok (m : edgemap) : res bool :=
  do b <- pd_perm_ok (em_perm m);
  Ok (b && forallb pd_or_ok (em_or m)).
(** pd_crossmap_ok, lines 939-943, and pd_facemap_ok, lines 1274-1277 *)
Definition pd_ormap_ok (m : ormap) : res bool := pd_perm_ok (om_perm m).
Definition pd_crossmap_ok (m : option ormap) : res bool :=
  match m with None => Ok true | Some m => pd_ormap_ok m end.

(** pd_compose_edgemaps, lines 745-776: pc_idx keeps the value 0 it got from pd_new_perm *)
Definition compose_edge (A B : edgemap) (e : nat) : res (nat * orient) :=
  do be <- get (pmap (em_perm B)) e;
  do bo <- get (em_or B) e;
  do ae <- get (pmap (em_perm A)) be;
  do ao <- get (em_or A) be;
  do o <- pd_compose_or bo ao;
  Ok (ae, o).
Definition pd_compose_edgemaps (A B : edgemap) : res edgemap :=
  assert (pn (em_perm A) =? pn (em_perm B));
  do l <- map_ok (compose_edge A B) (seq 0 (pn (em_perm A)));
  Ok (mkEM (mkPerm (map fst l) 0) (map snd l)).
(** pd_stareq_edgemap, lines 778-787 *)
Definition pd_stareq_edgemap (A B : edgemap) : res edgemap :=
  do AB <- pd_compose_edgemaps A B;
  Ok (mkEM (mkPerm (pmap (em_perm AB)) (pc_idx (em_perm A))) (em_or AB)).

(** pd_compose_crossmaps, lines 1194-1205, and pd_compose_facemaps, lines 1427-1438 *)
Definition pd_compose_ormaps (A B : ormap) : res ormap :=
  do p <- pd_compose_perms (om_perm A) (om_perm B);
  do o <- pd_compose_or (om_or A) (om_or B);
  Ok (mkOM p o).
(** pd_stareq_crossmap, lines 1207-1212, and pd_stareq_facemap, lines 1440-1445 *)
Definition pd_stareq_ormap (A B : ormap) : res ormap :=
  do p <- pd_stareq_perm (om_perm A) (om_perm B);
  do o <- pd_compose_or (om_or A) (om_or B);
  Ok (mkOM p o).
(** on a NULL crossing map both functions read through the null pointer *)
Definition on_crossmaps (f : ormap -> ormap -> res ormap) (A B : option ormap) : res (option ormap) :=
  match A, B with
  | Some a, Some b => do c <- f a b; Ok (Some c)
  | _, _ => UB
  end.

(** pd_compose_isos, lines 1731-1744 *)
Definition pd_compose_isos (A B : iso) : res iso :=
  do c <- pd_compose_perms (i_comp A) (i_comp B);
  do e <- pd_compose_edgemaps (i_edge A) (i_edge B);
  do x <- on_crossmaps pd_compose_ormaps (i_cross A) (i_cross B);
  do f <- pd_compose_ormaps (i_face A) (i_face B);
  Ok (mkIso c e x f).
(** pd_stareq_iso, lines 1746-1753 *)
Definition pd_stareq_iso (A B : iso) : res iso :=
  do c <- pd_stareq_perm (i_comp A) (i_comp B);
  do e <- pd_stareq_edgemap (i_edge A) (i_edge B);
  do x <- on_crossmaps pd_stareq_ormap (i_cross A) (i_cross B);
  do f <- pd_stareq_ormap (i_face A) (i_face B);
  Ok (mkIso c e x f).

(** pd_iso_is_e, lines 1708-1729: the tests, in order *)
Definition is_pos (o : orient) : bool := orient_eqb o Pos.
Definition pd_iso_is_e (A : iso) : res bool :=
  if negb (pd_perm_is_e (i_comp A)) then Ok false
  else if negb (pd_perm_is_e (em_perm (i_edge A))) then Ok false
  else match i_cross A with
       | None => UB
       | Some x =>
           Ok (pd_perm_is_e (om_perm x) && pd_perm_is_e (om_perm (i_face A)) &&
               is_pos (om_or (i_face A)) && is_pos (om_or x) && forallb is_pos (em_or (i_edge A)))
       end.
(** pd_iso_period, lines 1755-1770, as pd_perm_period *)
Fixpoint iso_period_loop (A : iso) (left : nat) (P : iso) (period : nat) : res nat :=
  do b <- pd_iso_is_e P;
  if b : bool then Ok period
  else match left with
       | 0 => Fail
       | S left' => do P' <- pd_stareq_iso P A; iso_period_loop A left' P' (S period)
       end.
Definition pd_iso_period (A : iso) : res nat := iso_period_loop A (Z.to_nat 9998) A 1.

(** pd_iso_ok, lines 1813-1827 *)
Definition pd_iso_ok (A : iso) : res bool :=
  and_ok (pd_perm_ok (i_comp A)) (and_ok (pd_edgemap_ok (i_edge A))
    (and_ok (pd_crossmap_ok (i_cross A)) (pd_ormap_ok (i_face A)))).

(** * Lists without repetitions *)

(** pd_perm_cmp, pd_edgemap_cmp, pd_crossmap_cmp, pd_facemap_cmp and pd_iso_cmp compare the numbers in
    these lists one after the other (src/pd_perm.c lines 298-311, src/pd_isomorphisms.c lines 482-506,
    945-957, 1279-1291 and 1790-1811).  Simplification: in each use both lists have the same length (the
    assertions that check it are left out), and the case that two isomorphisms of diagrams without
    crossings agree on components and edges, where pd_crossmap_cmp reads through a null pointer, is
    treated as if there were nothing to compare. *)
Definition or_key (o : orient) : nat := match o with Pos => 0 | _ => 1 end.
Definition em_key (m : edgemap) : list nat := pmap (em_perm m) ++ map or_key (em_or m).
Definition om_key (m : ormap) : list nat := or_key (om_or m) :: pmap (om_perm m).
Definition iso_key (A : iso) : list nat :=
  pmap (i_comp A) ++ em_key (i_edge A) ++
  match i_cross A with Some x => om_key x | None => [] end ++ om_key (i_face A).

Definition by_key {A} (key : A -> list nat) (l : list A) : list A :=
  isort (fun a b => not_gt (PdStore.kcmp (key a) (key b))) l.
(** the loop over neighbours in the sorted buffer; its bound n-1 wraps around for n = 0 *)
Definition unique_by {A} (key : A -> list nat) (l : list A) : res bool :=
  match l with
  | [] => UB
  | _ => Ok (adjacent (fun a b => negb (list_eqb (key a) (key b))) (by_key key l))
  end.

(** * Component groups and component permutations *)

(** pd_build_compgrps, src/pd_isomorphisms.c lines 107-212: the groups, each the list of its
    components; [last] is the number of edges of the previous component.  The assertions on lines 174,
    182, 195-196 and 202 hold by construction, except that without components the first group
    still gets component 0 and the assertion on line 182 fails. *)
Fixpoint grow (sizes : list nat) (i last : nat) (cur : list nat) : list (list nat) :=
  match sizes with
  | [] => [cur]
  | s :: r => if s =? last then grow r (S i) s (cur ++ [i]) else cur :: grow r (S i) s [i]
  end.
Definition comp_sizes (d : pd) : list nat := map (fun c => length (cp_edge c)) (p_comp d).
Definition pd_build_compgrps (A B : pd) : res (option (list (list nat))) :=
  if negb (list_eqb (comp_sizes A) (comp_sizes B)) then Ok None
  else match comp_sizes A with
       | [] => Fail
       | s :: r => Ok (Some (grow r 1 s [0]))
       end.

(** the objects of a multi-index and its successive states, as the loops on lines 274 and 634 see them:
    the multi-index is incremented after each of the [n] turns *)
Fixpoint states {A} (incr : A -> res A) (n : nat) (x : A) : res (list A) :=
  match n with
  | 0 => Ok []
  | S n' => do y <- incr x; do l <- states incr n' y; Ok (x :: l)
  end.
Definition perm_nvals (p : perm) : nat := Z.to_nat (pd_nperms p).
Definition all_states {obj} (incr : obj -> res obj) (nvals : obj -> nat) (objs : list obj) : res (list (list obj)) :=
  let idx := pd_new_multidx nvals objs in
  do l <- states (pd_increment_multidx incr) (Z.to_nat (pd_multidx_nvals idx)) idx;
  Ok (map (map (@cobj obj)) l).

(** a write map[i] = v *)
Definition put {A} (i : nat) (v : A) (l : list A) : res (list A) :=
  if i <? length l then Ok (upd i v l) else UB.

(** one group in one permutation, lines 276-294 *)
Definition assign_group (m : perm) (gp : list nat * perm) : res perm :=
  let '(g, p) := gp in
  do m' <- fold_ok (fun l k =>
      do from <- get g k;
      do x <- get (pmap p) k;
      do to <- get g x;
      put from to l) (seq 0 (length g)) (pmap m);
  pd_regenerate_pcidx (mkPerm m' (pc_idx m)).
(** pd_build_compperms, lines 234-306 *)
Definition pd_build_compperms (grps : list (list nat)) : res (list perm) :=
  let n := list_sum (map (@length nat) grps) in
  do sts <- all_states pd_increment_perm perm_nvals (map (fun g => pd_new_perm (length g)) grps);
  map_ok (fun ps => fold_ok assign_group (combine grps ps) (pd_new_perm n)) sts.
(** pd_compperms_ok, lines 330-353, and pd_perms_unique, src/pd_perm.c lines 313-336, which sorts the
    buffer it is given: the sorted buffer if the test succeeds *)
Definition pd_compperms_ok (l : list perm) : res (list perm) :=
  do b <- all_ok pd_perm_ok l;
  assert b;
  do u <- unique_by pmap l;
  assert u;
  Ok (by_key pmap l).

(** * Edge maps *)

(** one component in one edge map, lines 636-657 *)
Definition map_edge (CA CB : component) (dm : list nat) (o : orient) (st : list nat * list orient) (k : nat)
    : res (list nat * list orient) :=
  do from <- get (cp_edge CA) k;
  do x <- get dm k;
  do to <- get (cp_edge CB) x;
  do m <- put from to (fst st);
  do r <- put from o (snd st);
  Ok (m, r).
Definition map_comp (A B : pd) (cp : perm) (st : list nat * list orient) (cd : nat * dihedral)
    : res (list nat * list orient) :=
  let '(comp, dh) := cd in
  do CA <- get (p_comp A) comp;
  do tc <- get (pmap cp) comp;
  do CB <- get (p_comp B) tc;
  assert (length (cp_edge CA) =? length (cp_edge CB));
  fold_ok (map_edge CA CB (dmap dh) (dor dh)) (seq 0 (length (cp_edge CA))) st.
Definition make_edgemap (A B : pd) (cp : perm) (dhs : list dihedral) : res edgemap :=
  let e0 := pd_new_edgemap (nedges A) in
  do st <- fold_ok (map_comp A B cp) (combine (seq 0 (length dhs)) dhs) (pmap (em_perm e0), em_or e0);
  do p <- pd_regenerate_pcidx (mkPerm (fst st) (pc_idx (em_perm e0)));
  Ok (mkEM p (snd st)).
(** pd_build_edgemaps, lines 580-672 *)
Definition pd_build_edgemaps (A B : pd) (cp : perm) : res (list edgemap) :=
  assert ((ncomps A =? ncomps B) && (ncomps B =? pn cp));
  assert (nedges A =? nedges B);
  do sts <- all_states pd_increment_dihedral pd_ndihedrals (map pd_new_dihedral (comp_sizes A));
  map_ok (make_edgemap A B cp) sts.
(** pd_build_oriented_edgemaps, lines 2393-2478: the same with cyclic groups and every edge positive *)
Definition pd_build_oriented_edgemaps (A B : pd) (cp : perm) : res (list edgemap) :=
  assert ((ncomps A =? ncomps B) && (ncomps B =? pn cp));
  assert (nedges A =? nedges B);
  do sts <- all_states pd_increment_cyclic pd_ncyclics (map pd_new_cyclic (comp_sizes A));
  map_ok (fun cs => make_edgemap A B cp (map (fun m => mkD m Pos) cs)) sts.
(** pd_edgemaps_ok, lines 508-578 *)
Definition pd_edgemaps_ok (l : list edgemap) : res bool :=
  and_ok (all_ok pd_edgemap_ok l) (unique_by em_key l).

(** * Crossing maps and face maps *)

(** bsearch of the GNU C library: [cmp i] compares the key with element [i] *)
Fixpoint bsearch_loop (fuel : nat) (cmp : nat -> comparison) (l u : nat) : option nat :=
  match fuel with
  | 0 => None
  | S f =>
      if l <? u then
        let i := (l + u) / 2 in
        match cmp i with
        | Eq => Some i
        | Lt => bsearch_loop f cmp l i
        | Gt => bsearch_loop f cmp (i + 1) u
        end
      else None
  end.
Definition bsearch (cmp : nat -> comparison) (n : nat) : option nat := bsearch_loop (S n) cmp 0 n.

(** pd_canonorder_cross, src/pdcode.c lines 243-263 *)
Definition canonorder_cross (c : crossing) (o : orient) : crossing :=
  let c := match o with Neg => mkCross (ce3 c) (ce2 c) (ce1 c) (ce0 c) (csign c) | _ => c end in
  rotate_left c (cross_rdist c).
(** pd_canonorder_face, src/pdcode.c lines 265-325 *)
Definition canonorder_face_or (f : face) (o : orient) : face :=
  canonorder_face (match o with Neg => rev f | _ => f end).

(** one turn of the loops of pdint_build_oriented_crossmap (lines 980-1013) and
    pdint_build_oriented_signed_crossmap (lines 1044-1086): the number of the image *)
Definition cross_image (sgn : bool) (B : pd) (m : list nat) (o : orient) (x : crossing) : res (option nat) :=
  do e0 <- get m (ce0 x);
  do e1 <- get m (ce1 x);
  do e2 <- get m (ce2 x);
  do e3 <- get m (ce3 x);
  let y := canonorder_cross (mkCross e0 e1 e2 e3 Unset) o in
  match bsearch (fun i => pd_cross_cmp y (nth i (p_cross B) no_cross)) (ncross B) with
  | None => Ok None
  | Some i => if sgn && negb (orient_eqb (csign x) (csign (nth i (p_cross B) no_cross))) then Ok None
              else Ok (Some i)
  end.
(** one turn of the loop of pdint_build_oriented_facemap, lines 1311-1354.  The orientations in
    mapface are the zeros calloc wrote; they are never read. *)
Definition face_image (B : pd) (m : list nat) (o : orient) (f : face) : res (option nat) :=
  do es <- gather m (map fst f);
  if length es =? 0 then UB else
  let y := canonorder_face_or (map (fun e => (e, Neg)) es) o in
  Ok (bsearch (fun i => pd_face_cmp y (nth i (p_face B) [])) (nfaces B)).
(** the loop, left at the first object without an image *)
Fixpoint images {A} (img : A -> res (option nat)) (l : list A) : res (option (list nat)) :=
  match l with
  | [] => Ok (Some [])
  | x :: l' =>
      do i <- img x;
      match i with
      | None => Ok None
      | Some i => do r <- images img l'; Ok (option_map (cons i) r)
      end
  end.
Definition oriented_map {A} (img : A -> res (option nat)) (o : orient) (l : list A) : res (list ormap) :=
  do r <- images img l;
  match r with
  | None => Ok []
  | Some m => do p <- pd_regenerate_pcidx (mkPerm m 0); Ok [mkOM p o]
  end.
(** pd_build_crossmaps and pd_build_signed_crossmaps, lines 1095-1172 *)
Definition pd_build_crossmaps (sgn : bool) (A B : pd) (em : edgemap) : res (list (option ormap)) :=
  if (ncross A =? 0) && (ncross B =? 0) then Ok [None]
  else
    assert (ncross A =? ncross B);
    let m := pmap (em_perm em) in
    do p <- oriented_map (cross_image sgn B m Pos) Pos (p_cross A);
    do n <- oriented_map (cross_image sgn B m Neg) Neg (p_cross A);
    Ok (map Some (p ++ n)).
(** pd_build_facemaps, lines 1366-1406 *)
Definition pd_build_facemaps (A B : pd) (em : edgemap) : res (list ormap) :=
  let m := pmap (em_perm em) in
  if (ncross A =? 0) && (ncross B =? 0) then
    do o <- get (em_or em) 0;
    do m' <- put 0 0 (seq 0 (nfaces A));
    do m'' <- put 1 1 m';
    Ok [mkOM (mkPerm m'' 0) o]
  else
    assert (nfaces A =? nfaces B);
    do p <- oriented_map (face_image B m Pos) Pos (p_face A);
    do n <- oriented_map (face_image B m Neg) Neg (p_face A);
    Ok (p ++ n).

(** * Consistency of an isomorphism *)

(** pdint_in_cyclic_order, lines 1829-1851; a - 1 and n - 1 are computed on unsigned 32-bit numbers *)
Definition pdint_in_cyclic_order (a b n : nat) (o : orient) : res bool :=
  assert (pd_or_ok o);
  let minus1 x y := (negb (x =? 0) && (y =? x - 1)) || ((x =? 0) && (Z.of_nat y =? 2 ^ 32 - 1)%Z) in
  match o with
  | Pos => Ok ((b =? a + 1) || ((b =? 0) && minus1 n a))
  | _ => Ok (minus1 a b || (minus1 n b && (a =? 0)))
  end.

(** pdint_buffers_cycliceq, lines 1853-1899 *)
Definition pdint_buffers_cycliceq (a b : list nat) (n : nat) (o : orient) : bool :=
  let bcopy := map (fun i => match o with Pos => nth i b 0 | _ => nth (n - 1 - i) b 0 end) (seq 0 n) in
  existsb (fun ofs => forallb (fun i => nth i a 0 =? nth ((i + ofs) mod n) bcopy 0) (seq 0 n)) (seq 0 n).

(** the checks of pd_iso_consistent, lines 1901-2233, one loop each *)
Definition comp_size_ok (A B : pd) (cp : list nat) (comp : nat) : res bool :=
  do CA <- get (p_comp A) comp;
  do tc <- get cp comp;
  do CB <- get (p_comp B) tc;
  Ok (length (cp_edge CA) =? length (cp_edge CB)).
Definition edge_comp_ok (A B : pd) (cp em : list nat) (e : nat) : res bool :=
  do ca <- pd_component_and_pos A e;
  do e' <- get em e;
  do cb <- pd_component_and_pos B e';
  do tc <- get cp (fst ca);
  Ok (fst cb =? tc).
Definition comp_or_ok (A : pd) (ors : list orient) (comp : nat) : res bool :=
  do CA <- get (p_comp A) comp;
  do e0 <- get (cp_edge CA) 0;
  do o0 <- get ors e0;
  all_ok (fun k => do e <- get (cp_edge CA) k; do o <- get ors e; Ok (orient_eqb o o0))
    (seq 1 (length (cp_edge CA) - 1)).
Definition comp_order_ok (A B : pd) (em : list nat) (ors : list orient) (comp : nat) : res bool :=
  do CA <- get (p_comp A) comp;
  do e0 <- get (cp_edge CA) 0;
  do o <- get ors e0;
  let n := length (cp_edge CA) in
  all_ok (fun k =>
    do e1 <- get (cp_edge CA) k;
    do e2 <- get (cp_edge CA) ((k + 1) mod n);
    do a1 <- get em e1;
    do a2 <- get em e2;
    do q1 <- pd_component_and_pos B a1;
    do q2 <- pd_component_and_pos B a2;
    assert (fst q1 =? fst q2);
    do CB <- get (p_comp B) (fst q1);
    pdint_in_cyclic_order (snd q1) (snd q2) (length (cp_edge CB)) o) (seq 0 n).
Definition cross_pair_ok (A B : pd) (em : list nat) (x : ormap) (c : nat) : res bool :=
  do xa <- get (p_cross A) c;
  do es <- gather em (cross_edges xa);
  do c' <- get (pmap (om_perm x)) c;
  do xb <- get (p_cross B) c';
  Ok (pdint_buffers_cycliceq es (cross_edges xb) 4 (om_or x)).
Definition face_size_ok (A B : pd) (x : ormap) (f : nat) : res bool :=
  do fa <- get (p_face A) f;
  do f' <- get (pmap (om_perm x)) f;
  do fb <- get (p_face B) f';
  Ok (length fa =? length fb).
Definition face_pair_ok (A B : pd) (em : list nat) (x : ormap) (f : nat) : res bool :=
  do fa <- get (p_face A) f;
  do es <- gather em (map fst fa);
  do f' <- get (pmap (om_perm x)) f;
  do fb <- get (p_face B) f';
  assert (length fa =? length fb);
  Ok (pdint_buffers_cycliceq es (map fst fb) (length fb) (om_or x)).

(** pd_iso_consistent, lines 1901-2233 *)
Definition pd_iso_consistent (A B : pd) (i : iso) : res bool :=
  do a <- pd_ok A;
  assert a;
  do b <- pd_ok B;
  assert b;
  do k <- pd_iso_ok i;
  if negb k then Ok false else
  assert (ncross A =? ncross B);
  do n <- (if ncross A =? 0 then Ok true
           else match i_cross i with None => UB | Some x => Ok (ncross A =? pn (om_perm x)) end);
  if negb n then Ok false else
  assert (nedges A =? nedges B);
  if negb (nedges A =? pn (em_perm (i_edge i))) then Ok false else
  assert (nfaces A =? nfaces B);
  if negb (nfaces A =? pn (om_perm (i_face i))) then Ok false else
  assert (ncomps A =? ncomps B);
  if negb (ncomps A =? pn (i_comp i)) then Ok false else
  let cp := pmap (i_comp i) in
  let em := pmap (em_perm (i_edge i)) in
  let ors := em_or (i_edge i) in
  let comps := seq 0 (ncomps A) in
  let faces := seq 0 (nfaces A) in
  and_ok (all_ok (comp_size_ok A B cp) comps)
    (and_ok (all_ok (edge_comp_ok A B cp em) (seq 0 (nedges A)))
      (and_ok (all_ok (comp_or_ok A ors) comps)
        (and_ok (all_ok (comp_order_ok A B em ors) comps)
          (and_ok (match i_cross i with
                   | Some x => all_ok (cross_pair_ok A B em x) (seq 0 (ncross A))
                   | None => Ok true (* ncross = 0: no turn of the loop *)
                   end)
            (and_ok (all_ok (face_size_ok A B (i_face i)) faces)
              (all_ok (face_pair_ok A B em (i_face i)) faces)))))).

(** * The search *)

(** the comparisons at the start of pdint_build_isos, lines 1473-1501.  Simplification: the 32 bytes of
    the two hash arrays are equal exactly if the texts are (the bytes after the text are 0). *)
Definition may_match (A B : pd) : bool :=
  list_eqb (p_hash A) (p_hash B) &&
  (ncross A =? ncross B) && (nedges A =? nedges B) && (ncomps A =? ncomps B) && (nfaces A =? nfaces B) &&
  list_eqb (comp_sizes A) (comp_sizes B) &&
  list_eqb (map (@length (nat * orient)) (p_face A)) (map (@length (nat * orient)) (p_face B)).

(** the loop over crossing and face maps, lines 1549-1564 *)
Fixpoint add_isos (A B : pd) (early : bool) (cp : perm) (em : edgemap) (l : list (option ormap * ormap)) : res (list iso) :=
  match l with
  | [] => Ok []
  | (x, f) :: l' =>
      let i := mkIso cp em x f in
      do b <- pd_iso_consistent A B i;
      assert b;
      if early then Ok [i] else do r <- add_isos A B early cp em l'; Ok (i :: r)
  end.
(** a loop whose turns find isomorphisms; with FAILEARLY it stops when it has found one *)
Fixpoint search {T} (early : bool) (f : T -> res (list iso)) (l : list T) : res (list iso) :=
  match l with
  | [] => Ok []
  | x :: l' =>
      do a <- f x;
      if early && negb (length a =? 0) then Ok a else do r <- search early f l'; Ok (a ++ r)
  end.
(** the loop over edge maps, lines 1537-1569; [keep] selects the crossing maps that are used *)
Definition from_edgemap (keep : option ormap -> res bool) (early : bool) (A B : pd) (cp : perm) (em : edgemap) : res (list iso) :=
  do xs <- pd_build_crossmaps false A B em;
  do fs <- pd_build_facemaps A B em;
  assert (length xs =? length fs);
  do ks <- map_ok keep xs;
  add_isos A B early cp em (map snd (filter (fun p => fst p) (combine ks (combine xs fs)))).
(** the loop over component permutations, lines 1529-1573 *)
Definition from_compperm (keep : option ormap -> res bool) (early : bool) (A B : pd) (cp : perm) : res (list iso) :=
  do ems <- pd_build_edgemaps A B cp;
  do b <- pd_edgemaps_ok ems;
  assert b;
  search early (from_edgemap keep early A B cp) ems.
(** the end, lines 1580-1604: the container is emptied from the last element on *)
Definition collect (l : list iso) : res (list iso) :=
  match l with
  | [] => Ok []
  | _ => do u <- unique_by iso_key (rev l); assert u; Ok (rev l)
  end.
Definition build_isos (keep : option ormap -> res bool) (early : bool) (A B : pd) : res (list iso) :=
  if negb (may_match A B) then Ok []
  else
    do g <- pd_build_compgrps A B;
    match g with
    | None => Ok []
    | Some grps =>
        do cps <- pd_build_compperms grps;
        do cps <- pd_compperms_ok cps;
        do l <- search early (from_compperm keep early A B) cps;
        collect l
    end.

(** pdint_build_isos, lines 1458-1609; pd_build_isos, lines 1452-1455; pd_isomorphic, lines 1612-1634 *)
Definition keep_all (x : option ormap) : res bool := Ok true.
Definition pd_build_isos (A B : pd) : res (list iso) := build_isos keep_all false A B.
Definition pd_isomorphic (A B : pd) : res bool :=
  do l <- build_isos keep_all true A B;
  Ok (negb (length l =? 0)).

(** pdint_build_map_isomorphisms, lines 2731-2884: crossmaps[map]->orient is read through the pointer;
    pd_map_isomorphic, lines 2890-2913.  Simplification: the test is made for all crossing maps of an
    edge map before the first isomorphism is built from one of them. *)
Definition keep_pos (x : option ormap) : res bool :=
  match x with None => UB | Some x => Ok (is_pos (om_or x)) end.
Definition pd_build_map_isomorphisms (A B : pd) : res (list iso) := build_isos keep_pos false A B.
Definition pd_map_isomorphic (A B : pd) : res bool :=
  do l <- pd_build_map_isomorphisms A B;
  Ok (negb (length l =? 0)).

(** * Diagram isotopies *)

(** pd_is_diagram_isotopy, lines 2295-2354 *)
Definition pd_is_diagram_isotopy (i : iso) (A B : pd) : res bool :=
  do t <- all_ok (fun c =>
      do CA <- get (p_comp A) c;
      do c' <- get (pmap (i_comp i)) c;
      do CB <- get (p_comp B) c';
      Ok (cp_tag CA =? cp_tag CB)%Z) (seq 0 (pn (i_comp i)));
  if negb t then Ok false
  else if negb (ncross A =? ncross B) then Ok false
  else
    do s <- (if ncross A =? 0 then Ok true
             else match i_cross i with None => UB | Some x => Ok (orient_eqb (om_or x) (om_or (i_face i))) end);
    assert s;
    if negb (forallb is_pos (em_or (i_edge i))) then Ok false
    else if ncross A =? 0 then Ok true
    else match i_cross i with
         | None => UB
         | Some x =>
             all_ok (fun c =>
               do xa <- get (p_cross A) c;
               do c' <- get (pmap (om_perm x)) c;
               do xb <- get (p_cross B) c';
               Ok (orient_eqb (csign xa) (csign xb))) (seq 0 (pn (om_perm x)))
         end.
(** pd_diagram_isotopy_ok, lines 2357-2377 *)
Definition pd_diagram_isotopy_ok (i : iso) (A B : pd) : res bool :=
  and_ok (pd_iso_ok i) (pd_is_diagram_isotopy i A B).

(** lines 2520-2528 *)
Definition writhe_sum (d : pd) : Z :=
  fold_left (fun w c => if is_pos (csign c) then (w + 1)%Z else (w - 1)%Z) (p_cross d) 0%Z.
(** lines 2550-2577: the component of [B] with the same tag *)
Fixpoint find_tag (t : Z) (cs : list component) (j : nat) : option nat :=
  match cs with
  | [] => None
  | c :: cs' => if (cp_tag c =? t)%Z then Some j else find_tag t cs' (S j)
  end.
Definition tag_perm (A B : pd) : res (list nat) :=
  map_ok (fun c => match find_tag (cp_tag c) (p_comp B) 0 with Some j => Ok j | None => Fail end) (p_comp A).
(** the isomorphisms from one edge map, lines 2616-2682 *)
Fixpoint add_isotopies (A B : pd) (cp : perm) (em : edgemap) (l : list (option ormap * ormap)) : res (list iso) :=
  match l with
  | [] => Ok []
  | (x, f) :: l' =>
      let i := mkIso cp em x f in
      do b <- pd_diagram_isotopy_ok i A B;
      assert b;
      do r <- add_isotopies A B cp em l'; Ok (i :: r)
  end.
Definition isotopies_from_edgemap (A B : pd) (cp : perm) (em : edgemap) : res (list iso) :=
  do xs <- pd_build_crossmaps true A B em;
  match xs with
  | [] => Ok []
  | x0 :: _ =>
      do fs <- pd_build_facemaps A B em;
      if length xs =? length fs then add_isotopies A B cp em (combine xs fs)
      else
        assert ((length xs =? 1) && (length fs =? 2));
        match x0 with
        | None => UB
        | Some x =>
            do f <- get fs (if is_pos (om_or x) then 0 else 1);
            add_isotopies A B cp em [(x0, f)]
        end
  end.
(** pd_build_diagram_isotopies, lines 2479-2708; pd_diagram_isotopic, lines 2710-2729.  The
    permutation is checked with pc_idx = 0: it is not regenerated. *)
Definition pd_build_diagram_isotopies (A B : pd) : res (list iso) :=
  if negb (may_match A B) then Ok []
  else if negb (writhe_sum A =? writhe_sum B)%Z then Ok []
  else
    do m <- tag_perm A B;
    let cp := mkPerm m 0 in
    do k <- pd_perm_ok cp;
    assert k;
    do s <- all_ok (comp_size_ok A B m) (seq 0 (ncomps A));
    if negb s then Ok []
    else
      do ems <- pd_build_oriented_edgemaps A B cp;
      do b <- pd_edgemaps_ok ems;
      assert b;
      do l <- search false (isotopies_from_edgemap A B cp) ems;
      collect l.
Definition pd_diagram_isotopic (A B : pd) : res bool :=
  do l <- pd_build_diagram_isotopies A B;
  Ok (negb (length l =? 0)).
