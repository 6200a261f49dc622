(** Model of the strand queries, the alternation test, the linking numbers and pd_copy
    (src/plcTopology.c lines 1803-2216, src/pdcode.c lines 380-412 and 2628-2809). *)
From Coq Require Import List ZArith Lia Bool Arith.
From Verif Require Import Base Iterators Pd PdCross PdHash.
Import ListNotations.
Open Scope nat_scope.
Open Scope res_scope.

(** the tests "edge at position p is incoming", src/plcTopology.c lines 1812-1816 and 1914-1915 *)
Definition incoming (d : pd) (cr : nat) (c : crossing) (p : nat) : res bool :=
  do E <- get (p_edge d) (cedge c p);
  Ok ((e_head E =? cr) && (e_headpos E =? p)).

(** over_in_pos, over_out_pos, under_in_pos, under_out_pos *)
Record passes := mkPasses { over_in : nat; over_out : nat; under_in : nat; under_out : nat }.

(** pd_overunder_internal, src/plcTopology.c lines 1803-2014.  pd_check_cr only reports an
    invalid crossing number (PD_VERBOSE off), so that the reads run out of bounds. *)
Definition pd_overunder_internal (d : pd) (cr : nat) : res passes :=
  do c <- get (p_cross d) cr;
  do in0 <- incoming d cr c 0;
  do in1 <- incoming d cr c 1;
  Ok (if in0 then
        if in1 then
          match csign c with
          | Pos => mkPasses 0 2 1 3
          | Neg => mkPasses 1 3 0 2
          | Unset => mkPasses 0 2 1 3
          end
        else
          match csign c with
          | Pos => mkPasses 3 1 0 2
          | Neg => mkPasses 0 2 3 1
          | Unset => mkPasses 3 1 0 2
          end
      else
        if in1 then
          match csign c with
          | Pos => mkPasses 1 3 2 0
          | Neg => mkPasses 2 0 1 3
          | Unset => mkPasses 1 3 2 0
          end
        else
          match csign c with
          | Pos => mkPasses 2 0 3 1
          | Neg => mkPasses 3 1 2 0
          | Unset => mkPasses 2 0 3 1
          end).

(** pd_overstrand_pos, pd_understrand_pos, lines 2017-2044 *)
Definition pd_overstrand_pos (d : pd) (cr : nat) : res (nat * nat) :=
  do r <- pd_overunder_internal d cr; Ok (over_in r, over_out r).
Definition pd_understrand_pos (d : pd) (cr : nat) : res (nat * nat) :=
  do r <- pd_overunder_internal d cr; Ok (under_in r, under_out r).

(** pd_overstrand, pd_understrand, lines 2046-2071 *)
Definition pd_overstrand (d : pd) (cr : nat) : res (nat * nat) :=
  do r <- pd_overstrand_pos d cr;
  do c <- get (p_cross d) cr;
  Ok (cedge c (fst r), cedge c (snd r)).
Definition pd_understrand (d : pd) (cr : nat) : res (nat * nat) :=
  do r <- pd_understrand_pos d cr;
  do c <- get (p_cross d) cr;
  Ok (cedge c (fst r), cedge c (snd r)).

(** one turn of the inner loop of pd_is_alternating, src/pdcode.c lines 2653-2710: [false] when
    the function returns false *)
Definition edge_alternates (d : pd) (e : nat) : res bool :=
  do E <- get (p_edge d) e;
  do u <- pd_understrand_pos d (e_tail E);
  do o <- pd_overstrand_pos d (e_tail E);
  if snd u =? e_tailpos E then
    do u' <- pd_understrand_pos d (e_head E);
    do o' <- pd_overstrand_pos d (e_head E);
    if fst u' =? e_headpos E then Ok false
    else if negb (fst o' =? e_headpos E) then Fail
    else Ok true
  else if snd o =? e_tailpos E then
    do u' <- pd_understrand_pos d (e_head E);
    do o' <- pd_overstrand_pos d (e_head E);
    if fst o' =? e_headpos E then Ok false
    else if negb (fst u' =? e_headpos E) then Fail
    else Ok true
  else Fail.

(** pd_is_alternating, src/pdcode.c lines 2628-2719 *)
Definition pd_is_alternating (d : pd) : res bool :=
  assert (forallb (fun c => negb (orient_eqb (csign c) Unset)) (p_cross d));
  all_ok (edge_alternates d) (concat (map cp_edge (p_comp d))).

(** pd_component_and_pos, src/pdcode.c lines 380-412: the first place in the components *)
Fixpoint pos_in (e : nat) (l : list nat) : option nat :=
  match l with
  | [] => None
  | x :: l' => if x =? e then Some 0 else option_map S (pos_in e l')
  end.
Fixpoint comp_search (e comp : nat) (cs : list component) : res (nat * nat) :=
  match cs with
  | [] => Fail
  | c :: cs' =>
      match pos_in e (cp_edge c) with
      | Some p => Ok (comp, p)
      | None => comp_search e (S comp) cs'
      end
  end.
Definition pd_component_and_pos (d : pd) (e : nat) : res (nat * nat) :=
  assert (e <? nedges d);
  comp_search e 0 (p_comp d).

(** the loops of pd_linking_number and pd_unsigned_linking_number, src/plcTopology.c lines
    2118-2147 and 2190-2209: [weight] is what a crossing contributes *)
Fixpoint lk_loop (d : pd) (weight : orient -> Z) (other : nat) (es : list nat) (lk : Z) : res Z :=
  match es with
  | [] => Ok lk
  | e :: es' =>
      do E <- get (p_edge d) e;
      do cr <- get (p_cross d) (e_head E);
      do q <- pd_component_and_pos d (cedge cr ((e_headpos E + 1) mod 4));
      lk_loop d weight other es' (if fst q =? other then (lk + weight (csign cr))%Z else lk)
  end.
Definition lk_worker (d : pd) (weight : orient -> Z) (c1 c2 : nat) : res Z :=
  do C1 <- get (p_comp d) c1;
  do C2 <- get (p_comp d) c2;
  do lk <- (if length (cp_edge C1) <? length (cp_edge C2) then lk_loop d weight c2 (cp_edge C1) 0%Z
            else lk_loop d weight c1 (cp_edge C2) 0%Z);
  Ok (Z.quot lk 2).

(** pd_linking_number, src/plcTopology.c lines 2074-2152.  Simplification: lk is not bounded by the
    range of int (there are fewer than 2^31 edges). *)
Definition lk_weight (s : orient) : Z := match s with Unset | Pos => 1 | Neg => -1 end.
Definition pd_linking_number (d : pd) (c1 c2 : nat) : res Z :=
  do C1 <- get (p_comp d) c1;
  do C2 <- get (p_comp d) c2;
  assert (forallb (fun c => negb (orient_eqb (csign c) Unset)) (p_cross d));
  lk_worker d lk_weight c1 c2.
(** pd_unsigned_linking_number, lines 2154-2214 *)
Definition pd_unsigned_linking_number (d : pd) (c1 c2 : nat) : res Z := lk_worker d (fun _ => 1%Z) c1 c2.

(** pd_build_unknot(0), src/pdcode_testcodes.c lines 333-377, before the hash is made *)
Definition unknot0 : pd :=
  mkPd 2 0 [32] [mkEdge 0 4 0 4] [] [mkComp [0] 65%Z] [[(0, Pos)]; [(0, Neg)]].
Definition pd_build_unknot0 : res pd :=
  do b <- pd_ok unknot0;
  assert b;
  pd_regenerate_hash unknot0.

(** pd_copy_newsize, src/pdcode.c lines 2721-2805.  A component without edges keeps the tag 0 that
    calloc gave it. *)
Definition copy_comp (c : component) : component :=
  match cp_edge c with
  | [] => mkComp [] 0%Z
  | _ => c
  end.
Definition pd_copy_newsize (d : pd) (mv : nat) : res pd :=
  if ncross d =? 0 then pd_build_unknot0
  else
    let mv := maxverts_of (if mv <? ncross d then ncross d else mv) in
    let a := mkPd mv (p_uid d) (p_hash d) (p_edge d) (p_cross d) (map copy_comp (p_comp d)) (p_face d) in
    assert (ncross d <=? mv);
    assert (nedges d <=? MAXEDGES a);
    assert (ncomps d <=? MAXCOMPONENTS a);
    assert (nfaces d <=? MAXFACES a);
    Ok a.
(** pd_copy, lines 2807-2809 *)
Definition pd_copy (d : pd) : res pd := pd_copy_newsize d (ncross d).
