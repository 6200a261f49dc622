(** Model of the array primitives of the crossing moves (src/pd_crossingmoves.c lines 46-272). *)
From Coq Require Import List ZArith Lia Bool Arith.
From Verif Require Import Base Sorting Pd PdCross.
Import ListNotations.
Open Scope nat_scope.
Open Scope res_scope.

(** PD_UNSET_IDX in an index table is [None]. *)

(** the loop that drops repetitions, lines 110-121: [last] is uniquedeletions[j-1] *)
Fixpoint unique_from (last : nat) (l : list nat) : list nat :=
  match l with
  | [] => []
  | x :: l' => if last =? x then unique_from last l' else x :: unique_from x l'
  end.
Definition unique (l : list nat) : list nat :=
  match l with [] => [] | x :: l' => x :: unique_from x l' end.

(** the main loop, lines 175-199: [dels] is uniquedeletions from deletions_i on, [si] and [ti] are
    source_i and target_i *)
Fixpoint compact_loop {A} (src : list A) (dels : list nat) (si ti : nat) : list A * list (option nat) :=
  match src with
  | [] => ([], [])
  | x :: src' =>
      if (match dels with [] => false | k :: _ => si =? k end) then
        let r := compact_loop src' (tl dels) (S si) ti in (fst r, None :: snd r)
      else
        let r := compact_loop src' dels (S si) (S ti) in (x :: fst r, Some ti :: snd r)
  end.

(** pd_compacting_copy, lines 54-204.  Result: the array target_var (of ntarget entries, NULL and
    empty alike) and the table target_idx.  Simplification: malloc succeeds, also for 0 bytes. *)
Definition pd_compacting_copy {A} (src : list A) (deletions : list nat) : res (list A * list (option nat)) :=
  match deletions with
  | [] => Ok (src, map Some (seq 0 (length src)))
  | _ =>
      let u := unique (isort Nat.leb deletions) in
      assert (forallb (fun i => i <? length src) u);
      if length u =? length src then Ok ([], repeat None (length src))
      else
        assert (length u <? length src);
        Ok (compact_loop src u 0 0)
  end.

(** the loops on lines 221-226 and 247-251 that find the entries without an image *)
Fixpoint unset_places (transform : list (option nat)) (source : list nat) (i : nat) : res (list nat) :=
  match source with
  | [] => Ok []
  | x :: source' =>
      do t <- get transform x;
      do r <- unset_places transform source' (S i);
      Ok (match t with None => i :: r | Some _ => r end)
  end.

(** pd_transform_and_compact_indices, lines 206-272.  An entry PD_UNSET_IDX of the result is [None]. *)
Definition pd_transform_and_compact_indices (source : list nat) (transform : list (option nat)) : res (list (option nat)) :=
  do dels <- unset_places transform source 0;
  do r <- pd_compacting_copy source dels;
  map_ok (get transform) (fst r).
