(** Specification for pd stores (C08): what a history of insertions should leave behind. *)
From Coq Require Import List ZArith Lia Bool Arith.
From Verif Require Import Base PdStore.
Import ListNotations.
Open Scope nat_scope.

Section Spec.
Context {D P : Type} (hash : D -> key) (pack : D -> P) (unpack : P -> D) (iso isot : D -> D -> bool).

Definition keyb (a b : key) : bool := if list_eq_dec Nat.eq_dec a b then true else false.

(** The diagram as it comes back out of storage. *)
Definition stored (d : D) : D := unpack (pack d).

(** r, already accepted, stands for the new code d under the relation chosen *)
Definition stands_for (eq : equivalence) (r d : D) : bool :=
  keyb (hash r) (hash d) && same iso isot eq (stored r) d.

(** The accepted codes, in order of acceptance. *)
Definition accept (reps : list D) (x : D * equivalence) : list D :=
  if existsb (fun r => stands_for (snd x) r (fst x)) reps then reps else reps ++ [fst x].
Definition accepted (h : list (D * equivalence)) : list D := fold_left accept h [].

(** The accepted codes under one hash, and the numbering 1, 2, 3, ... *)
Definition under (k : key) (reps : list D) : list D := filter (fun r => keyb (hash r) k) reps.
Fixpoint number {X} (n : nat) (l : list X) : list (nat * X) :=
  match l with [] => [] | x :: l' => (n, x) :: number (S n) l' end.

End Spec.
