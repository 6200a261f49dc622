(** Model of the permutation iterator and permutation group (src/pd_perm.c). *)
From Coq Require Import List ZArith Lia Bool Arith.
From Verif Require Import Base PermData.
Import ListNotations.
Open Scope res_scope.

(** struct pd_perm_struct, src/pd_perm.h lines 11-18; the field n is the length of map. *)
Record perm := mkPerm { pmap : list nat; pc_idx : nat }.

Definition pn (p : perm) : nat := length (pmap p).

(** pd_new_perm, src/pd_perm.c lines 45-63. *)
Definition pd_new_perm (n : nat) : perm := mkPerm (seq 0 n) 0.

(** Loop 1 of pd_increment_perm, src/pd_perm.c line 124: the largest k < c with
    a[k] < a[k+1]. *)
Fixpoint find_k (a : list nat) (c : nat) : option nat :=
  match c with
  | 0 => None
  | S k => if nth k a 0 <? nth (k + 1) a 0 then Some k else find_k a k
  end.

(** Loop 2, src/pd_perm.c line 133. *)
Fixpoint find_l (a : list nat) (k l : nat) : nat :=
  match l with
  | 0 => 0
  | S l' => if (k + 1 <? l) && (nth l a 0 <=? nth k a 0) then find_l a k l' else l
  end.

(** Swap of two entries, src/pd_perm.c lines 135 and 139. *)
Definition swap (a : list nat) (i j : nat) : list nat :=
  upd j (nth i a 0) (upd i (nth j a 0) a).

(** Loop 4, src/pd_perm.c lines 137-141; the fuel bounds the number of rounds. *)
Fixpoint reverse_loop (fuel : nat) (a : list nat) (i j : nat) : list nat :=
  match fuel with
  | 0 => a
  | S f => if i <? j then reverse_loop f (swap a i j) (i + 1) (j - 1) else a
  end.

(** Knuth's successor, the [else] branch of pd_increment_perm, src/pd_perm.c lines 104-143. *)
Definition next_map (a : list nat) : list nat :=
  let n := length a in
  match find_k a (n - 1) with
  | None => seq 0 n                                             (* lines 126-131 *)
  | Some k =>
      let l := find_l a k (n - 1) in
      reverse_loop n (swap a k l) (k + 1) (n - 1)
  end.

(** pd_increment_perm, src/pd_perm.c lines 82-148.  For n = 0 the C code reduces modulo
    pd_n_pc_perms[0] = 0: undefined behaviour. *)
Definition pd_increment_perm (p : perm) : res perm :=
  let n := pn p in
  if n <=? max_pc_perm then
    if n_pc_perms n =? 0 then UB else
    let i := (pc_idx p + 1) mod (n_pc_perms n) in
    match nth_error (pc_perm n) i with
    | Some row => Ok (mkPerm (firstn n row) i)
    | None => UB
    end
  else Ok (mkPerm (next_map (pmap p)) 0).

(** pd_nperms, src/pd_perm.c lines 163-184, with 32-bit wrap-around. *)
Fixpoint nperms_loop (n : nat) (acc : Z) (i : Z) : Z :=
  match n with
  | 0 => acc
  | S n' => nperms_loop n' ((acc * i) mod 2 ^ 32)%Z (i + 1)%Z
  end.
Definition pd_nperms (p : perm) : Z :=
  if pn p <=? max_pc_perm then Z.of_nat (n_pc_perms (pn p))
  else nperms_loop (pn p) 1 1.

(** Entry-wise lookup of A->map[b] for each b, with the bounds check C does not do. *)
Fixpoint gather (a : list nat) (b : list nat) : res (list nat) :=
  match b with
  | [] => Ok []
  | x :: b' =>
      match nth_error a x with
      | Some y => do r <- gather a b'; Ok (y :: r)
      | None => UB
      end
  end.

Fixpoint list_eqb (a b : list nat) : bool :=
  match a, b with
  | [], [] => true
  | x :: a', y :: b' => (x =? y) && list_eqb a' b'
  | _, _ => false
  end.

Fixpoint find_row (r : list nat) (t : list (list nat)) : option nat :=
  match t with
  | [] => None
  | x :: t' => if list_eqb r x then Some 0 else option_map S (find_row r t')
  end.

(** pd_regenerate_pcidx, src/pd_perm.c lines 388-409.  Simplification: the bsearch in the
    (sorted) table is a linear search; not found is exit(1). *)
Definition pd_regenerate_pcidx (p : perm) : res perm :=
  if max_pc_perm <? pn p then Ok (mkPerm (pmap p) 0)
  else match find_row (pmap p) (pc_perm (pn p)) with
       | Some i => Ok (mkPerm (pmap p) i)
       | None => Fail
       end.

(** pd_compose_perms, src/pd_perm.c lines 467-488. *)
Definition pd_compose_perms (A B : perm) : res perm :=
  assert (pn A =? pn B);
  do m <- gather (pmap A) (pmap B);
  pd_regenerate_pcidx (mkPerm m 0).

(** pd_stareq_perm, src/pd_perm.c lines 490-504 (pc_idx is left alone). *)
Definition pd_stareq_perm (A B : perm) : res perm :=
  assert (pn A =? pn B);
  do m <- gather (pmap A) (pmap B);
  Ok (mkPerm m (pc_idx A)).

(** pd_perm_is_e, src/pd_perm.c lines 455-465. *)
Definition pd_perm_is_e (p : perm) : bool := list_eqb (pmap p) (seq 0 (pn p)).

(** The loop of pd_perm_period, src/pd_perm.c lines 512-514; [left] counts down from
    failsafe - period. *)
Fixpoint period_loop (A : perm) (left : nat) (Apow : perm) (period : nat) : res nat :=
  if pd_perm_is_e Apow then Ok period
  else match left with
       | 0 => Fail                                   (* line 516: period < failsafe fails *)
       | S left' => do Apow' <- pd_stareq_perm Apow A; period_loop A left' Apow' (S period)
       end.

(** pd_perm_period, src/pd_perm.c lines 506-520; failsafe = 10000.  When the loop stops
    at period = failsafe the assertion fails whatever Apow is, so the last round that can
    succeed has period = 9999. *)
Definition pd_perm_period (A : perm) : res nat := period_loop A (Z.to_nat 9998) A 1.

(** pd_inverse_perm, src/pd_perm.c lines 522-538. *)
Fixpoint scatter (m : list nat) (i : nat) (acc : list nat) : res (list nat) :=
  match m with
  | [] => Ok acc
  | x :: m' => if x <? length acc then scatter m' (S i) (upd x i acc) else UB
  end.
Definition pd_inverse_perm (p : perm) : res perm :=
  do m <- scatter (pmap p) 0 (seq 0 (pn p));
  pd_regenerate_pcidx (mkPerm m 0).

(** pd_perm_ok, src/pd_perm.c lines 187-252.  For n = 0, pd_pc_perm[0] is NULL but no
    entry is read.  pc_idx = pd_nperms passes the first test (the test is >) and then
    reads one row beyond the table. *)
Fixpoint nodupb (l : list nat) : bool :=
  match l with
  | [] => true
  | x :: l' => negb (existsb (Nat.eqb x) l') && nodupb l'
  end.
Definition pd_perm_ok (p : perm) : res bool :=
  let n := pn p in
  let standard :=
    forallb (fun x => x <? n) (pmap p) && nodupb (pmap p) in
  if n <=? max_pc_perm then
    if n_pc_perms n <? pc_idx p then Ok false
    else if n =? 0 then Ok standard
    else match nth_error (pc_perm n) (pc_idx p) with
         | None => UB
         | Some row => if list_eqb (pmap p) (firstn n row) then Ok standard else Ok false
         end
  else Ok standard.
