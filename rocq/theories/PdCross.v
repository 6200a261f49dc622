(** Model of pd_regenerate_crossings and the functions it calls (src/pdcode.c lines 570-700). *)
From Coq Require Import List ZArith Lia Bool Arith.
From Verif Require Import Base Iterators Sorting Pd.
From Verif Require Perm.
Import ListNotations.
Open Scope nat_scope.
Open Scope res_scope.

(** a loop that rewrites every element of an array *)
Fixpoint map_ok {A B} (f : A -> res B) (l : list A) : res (list B) :=
  match l with
  | [] => Ok []
  | x :: l' => do y <- f x; do r <- map_ok f l'; Ok (y :: r)
  end.

(** pdint_cross_rdist, src/pdcode.c lines 607-632 *)
Definition cross_rdist (c : crossing) : nat :=
  let '(lowpos, lowedge) :=
    fold_left (fun s pos => if cedge c pos <? snd s then (pos, cedge c pos) else s)
      [1; 2; 3] (0, cedge c 0) in
  if cedge c ((lowpos + 3) mod 4) =? lowedge then (lowpos + 3) mod 4 else lowpos.

(** pdint_rotate_left, src/pdcode.c lines 589-605 *)
Definition rotate_left (c : crossing) (k : nat) : crossing :=
  mkCross (cedge c ((0 + k) mod 4)) (cedge c ((1 + k) mod 4))
          (cedge c ((2 + k) mod 4)) (cedge c ((3 + k) mod 4)) (csign c).

(** one end of an edge record, lines 665-666 and 688-689: [rots] is cross_rotate, [num] is
    new_cross_num.  An end that is not set (position 4, crossing number PD_UNSET_IDX) makes
    both reads run out of bounds. *)
Definition move_end (rots num : list nat) (c p : nat) : res (nat * nat) :=
  if 4 <=? p then UB
  else
    do k <- get rots c;
    do c' <- get num c;
    Ok (c', (p + 4 - k) mod 4).
Definition move_edge (rots num : list nat) (e : edge) : res edge :=
  do h <- move_end rots num (e_head e) (e_headpos e);
  do t <- move_end rots num (e_tail e) (e_tailpos e);
  Ok (mkEdge (fst h) (snd h) (fst t) (snd t)).

Definition no_cross : crossing := mkCross 0 0 0 0 Unset.

(** pdint_cross_index_cmp, src/pdcode.c lines 576-587 *)
Definition cross_index_le (cs : list crossing) (i j : nat) : bool :=
  not_gt (pd_cross_cmp (nth i cs no_cross) (nth j cs no_cross)).

(** pd_regenerate_crossings, src/pdcode.c lines 635-700.
    Simplification: the two loops over the edges (lines 661-668 and 686-691) are one; the
    first does not change the fields head and tail that the second rewrites. *)
Definition pd_regenerate_crossings (d : pd) : res pd :=
  let rots := map cross_rdist (p_cross d) in
  let cs := map (fun c => rotate_left c (cross_rdist c)) (p_cross d) in
  let cross_perm := isort (cross_index_le cs) (seq 0 (ncross d)) in
  do new_num <- Perm.scatter cross_perm 0 (repeat 0 (ncross d));
  do es <- map_ok (move_edge rots new_num) (p_edge d);
  Ok (with_cross (with_edges d es) (map (fun i => nth i cs no_cross) cross_perm)).
