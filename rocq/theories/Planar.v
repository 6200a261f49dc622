(** Specification: connected diagrams and the two sides of an edge. *)
From Coq Require Import List Bool Arith Relations.
From Verif Require Import Base Iterators Pd PdSpec.
Import ListNotations.
Open Scope nat_scope.

(** two crossings that have an edge in common *)
Definition joined (d : pd) (c c' : nat) : Prop := exists e p p', slot d c p e /\ slot d c' p' e.
Definition connected (d : pd) : Prop :=
  forall c c', c < ncross d -> c' < ncross d -> clos_refl_trans nat (joined d) c c'.

(** face number [f] runs along edge [e] in direction [o] *)
Definition face_along (d : pd) (f e : nat) (o : orient) : Prop :=
  exists F, nth_error (p_face d) f = Some F /\ In (e, o) F.

(** the edges chosen by [z] meet every crossing an even number of times *)
Definition even_everywhere (d : pd) (z : nat -> bool) : Prop :=
  forall c x, nth_error (p_cross d) c = Some x ->
    xorb (xorb (z (ce0 x)) (z (ce1 x))) (xorb (z (ce2 x)) (z (ce3 x))) = false.
