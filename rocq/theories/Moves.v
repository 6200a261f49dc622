(** Model of the first Reidemeister move: adding a loop (src/pd_crossingmoves.c lines 647-699). *)
From Coq Require Import List ZArith Lia Bool Arith.
From Verif Require Import Base Iterators Pd PdCross PdEdges PdComps PdFaces PdHash OverUnder.
Import ListNotations.
Open Scope nat_scope.
Open Scope res_scope.

(** pd_build_unknot(1), src/pdcode_testcodes.c lines 377-451, before the hash is made *)
Definition unknot1 : pd :=
  mkPd 2 0 [32] [mkEdge 0 1 0 0; mkEdge 0 2 0 3] [mkCross 0 0 1 1 Pos] [mkComp [0; 1] 65%Z]
    [[(0, Neg); (1, Pos)]; [(0, Pos)]; [(1, Neg)]].
Definition pd_build_unknot1 : res pd :=
  do b <- pd_ok unknot1;
  assert b;
  pd_regenerate_hash unknot1.

(** cross[c].edge[p] = e *)
Definition set_cedge (x : crossing) (p e : nat) : crossing :=
  match p with
  | 0 => mkCross e (ce1 x) (ce2 x) (ce3 x) (csign x)
  | 1 => mkCross (ce0 x) e (ce2 x) (ce3 x) (csign x)
  | 2 => mkCross (ce0 x) (ce1 x) e (ce3 x) (csign x)
  | _ => mkCross (ce0 x) (ce1 x) (ce2 x) e (csign x)
  end.
Definition put_cross (cs : list crossing) (c p e : nat) : res (list crossing) :=
  if 4 <=? p then UB else do x <- get cs c; Ok (upd c (set_cedge x p e) cs).

(** lines 660-681: the new crossing, and the head of ea, the tail of eb and both ends of e at it.
    A face record with neither orientation leaves the new crossing uninitialized. *)
Definition new_loop (c e ea eb : nat) (o : orient) : res (crossing * nat * nat * edge) :=
  match o with
  | Pos => Ok (mkCross ea eb e e Unset, 0, 1, mkEdge c 3 c 2)
  | Neg => Ok (mkCross eb ea e e Unset, 1, 0, mkEdge c 2 c 3)
  | Unset => UB
  end.

(** pd_R1_loop_addition, lines 647-699 *)
Definition pd_R1_loop_addition (d : pd) (f e_on_f : nat) : res pd :=
  if ncross d =? 0 then pd_build_unknot1
  else
    do r <- pd_copy_newsize d (ncross d + 2);
    do F <- get (p_face d) f;
    do a <- get F e_on_f;
    let e := fst a in
    let c := ncross d in let ea := nedges d in let eb := nedges d + 1 in
    do l <- new_loop c e ea eb (snd a);
    let '(x, pa, pb, E') := l in
    do E <- get (p_edge d) e;
    let es := upd e E' (p_edge r) ++ [mkEdge c pa (e_tail E) (e_tailpos E); mkEdge (e_head E) (e_headpos E) c pb] in
    do cs1 <- put_cross (p_cross r) (e_tail E) (e_tailpos E) ea;
    do cs2 <- put_cross cs1 (e_head E) (e_headpos E) eb;
    do r1 <- pd_regenerate_crossings (with_cross (with_edges r es) (cs2 ++ [x]));
    do r2 <- pd_regenerate_comps r1;
    do r3 <- pd_regenerate_faces r2;
    pd_regenerate_hash r3.
