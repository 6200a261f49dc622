(** Model of pd_container.c and pd_sortedbuf.c. *)
From Coq Require Import List ZArith Lia Bool.
From Verif Require Import Base.
Import ListNotations.
Open Scope Z_scope.
Open Scope res_scope.

(** * pd_container *)

Definition u32 (x : Z) : Z := x mod 4294967296.

Section Container.
(** Stored pointers; [null] is NULL. *)
Context {A : Type} (null : A).

(** pd_container_t, src/pd_container.h lines 26-37.  The length of [c_elt] is the number of
    cells really allocated. *)
Record container := mkCont { c_nelts : Z; c_bufsize : Z; c_initsize : Z; c_elt : list A }.

(** pd_new_container, src/pd_container.c lines 27-52 (the argument is an unsigned int). *)
Definition pd_new_container (initsize : Z) : container :=
  let i := if initsize <? 100 then 100 else initsize in
  mkCont 0 i i (repeat null (Z.to_nat i)).

(** Lines 121-134: realloc to [newsize] bytes, [newsize] being an unsigned int computed as
    (unsigned)((size_t)(unsigned)(bufsize+initsize) * 8), then clear the cells from nelts
    to the new bufsize.  Simplification: the clearing loop is one step; it is out of
    bounds when the block got is smaller than the recorded bufsize. *)
Definition grow_container (c : container) : res container :=
  let newsize := u32 (u32 (c_bufsize c + c_initsize c) * 8) in
  let cells := newsize / 8 in
  let bufsize' := u32 (c_bufsize c + c_initsize c) in
  if cells =? 0 then UB
  else if cells <? bufsize' then UB
  else Ok (mkCont (c_nelts c) bufsize' (c_initsize c)
             (firstn (Z.to_nat (c_nelts c)) (c_elt c)
              ++ repeat null (Z.to_nat cells - Z.to_nat (c_nelts c)))).

(** pd_addto_container, src/pd_container.c lines 112-140. *)
Definition pd_addto_container (c : container) (x : A) : res container :=
  do c1 <- (if c_nelts c =? u32 (c_bufsize c - 1) then grow_container c else Ok c);
  if c_nelts c1 <? Z.of_nat (length (c_elt c1))
  then Ok (mkCont (u32 (c_nelts c1 + 1)) (c_bufsize c1) (c_initsize c1)
             (upd (Z.to_nat (c_nelts c1)) x (c_elt c1)))
  else UB.

(** pd_pop_container, src/pd_container.c lines 142-152; the index nelts-1 is unsigned. *)
Definition pd_pop_container (c : container) : res (A * container) :=
  let i := u32 (c_nelts c - 1) in
  if i <? Z.of_nat (length (c_elt c))
  then Ok (nth (Z.to_nat i) (c_elt c) null,
           mkCont i (c_bufsize c) (c_initsize c) (upd (Z.to_nat i) null (c_elt c)))
  else UB.

(** pd_container_elt, src/pd_container.c lines 154-162. *)
Definition pd_container_elt (c : container) (i : Z) : res A :=
  assert (i <? c_nelts c);
  if i <? Z.of_nat (length (c_elt c)) then Ok (nth (Z.to_nat i) (c_elt c) null) else UB.

(** pd_container_nelts, src/pd_container.c lines 105-110. *)
Definition pd_container_nelts (c : container) : Z := c_nelts c.

(** pd_container_ok, src/pd_container.c lines 164-201, both PD_VERBOSE settings (the
    verbose branch exits instead of returning false). *)
Definition pd_container_ok (verbose : bool) (c : container) : res bool :=
  if verbose then if c_bufsize c <? c_nelts c then Fail else Ok true
  else Ok (negb (c_bufsize c <=? c_nelts c)).

End Container.
Arguments mkCont {A}. Arguments c_nelts {A}. Arguments c_bufsize {A}.
Arguments c_initsize {A}. Arguments c_elt {A}.

(** * pd_sortedbuf *)

(** pd_idx_cmp, src/pd_crossingmoves.c lines 46-52. *)
Definition pd_idx_cmp (a b : nat) : comparison := Nat.compare a b.

(** bsearch of the C library (glibc's loop: [l], [u], [idx = (l+u)/2]). *)
Fixpoint bsearch (fuel : nat) (key : nat) (buf : list nat) (l u : nat) : res (option nat) :=
  match fuel with
  | O => Fuel
  | S f =>
      if (l <? u)%nat then
        let idx := ((l + u) / 2)%nat in
        match nth_error buf idx with
        | None => UB
        | Some x =>
            match pd_idx_cmp key x with
            | Lt => bsearch f key buf l idx
            | Gt => bsearch f key buf (S idx) u
            | Eq => Ok (Some idx)
            end
        end
      else Ok None
  end.

Definition bsearch_all (key : nat) (buf : list nat) : res (option nat) :=
  bsearch (S (length buf)) key buf 0 (length buf).

(** pd_sortedbuf_contains, src/pd_sortedbuf.c lines 42-52. *)
Definition pd_sortedbuf_contains (buf : list nat) (i : nat) : res bool :=
  do pos <- bsearch_all i buf;
  Ok (match pos with None => false | Some _ => true end).

(** The copying loop, src/pd_sortedbuf.c lines 113-126: [prev] is buf[i-1], the list is
    buf[i..], the result is newbuf[j..] and whether j got ahead of i. *)
Fixpoint insert_loop (insert prev : nat) (l : list nat) : list nat * bool :=
  match l with
  | [] => ([], false)
  | x :: l' =>
      let (r, ahead) := insert_loop insert x l' in
      if (prev <? insert)%nat && (insert <? x)%nat
      then (insert :: x :: r, true) else (x :: r, ahead)
  end.

(** pd_sortedbuf_insert, src/pd_sortedbuf.c lines 54-135.  [None] is the NULL buffer;
    nelems is the length of the list.  The room for nelems+1 entries is exceeded when the
    loop inserts more than once, reported as UB. *)
Definition pd_sortedbuf_insert (buf : option (list nat)) (insert : nat) : res (option (list nat)) :=
  match buf with
  | None => Ok (Some [insert])
  | Some [] => Fail
  | Some (x :: l) =>
      do pos <- bsearch_all insert (x :: l);
      match pos with
      | Some _ => Ok (Some (x :: l))
      | None =>
          if (insert <? x)%nat then Ok (Some (insert :: x :: l))
          else
            let (r, ahead) := insert_loop insert x l in
            let out := x :: r ++ (if ahead then [] else [insert]) in
            if Nat.eqb (length out) (S (S (length l))) then Ok (Some out) else UB
      end
  end.

(** pd_buf_contains, src/pd_sortedbuf.c lines 138-153: position of the first match
    ([None] = false and PD_UNSET_IDX). *)
Fixpoint pd_buf_contains_from (j : nat) (buf : list nat) (i : nat) : option nat :=
  match buf with
  | [] => None
  | x :: buf' => if Nat.eqb x i then Some j else pd_buf_contains_from (S j) buf' i
  end.
Definition pd_buf_contains := pd_buf_contains_from 0.
