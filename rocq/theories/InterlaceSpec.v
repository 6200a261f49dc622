(** Specification: crossings that a component visits alternately. *)
From Coq Require Import List ZArith Arith.
From Verif Require Import Base Iterators Pd PdSpec OverUnderSpec.
Import ListNotations.
Open Scope nat_scope.

(** [w] visits [a], [b], [a] and [b] in this order *)
Definition abab (w : list nat) (a b : nat) : Prop :=
  exists u0 u1 u2 u3 u4, w = u0 ++ a :: u1 ++ b :: u2 ++ a :: u3 ++ b :: u4.
(** the visits of [a] and [b] alternate *)
Definition interlaced (w : list nat) (a b : nat) : Prop := a <> b /\ (abab w a b \/ abab w b a).

(** the crossings along a list of edges *)
Definition visits (d : pd) (es w : list nat) : Prop :=
  Forall2 (fun e c => exists E, edge_at d e E /\ e_head E = c) es w.

(** the sign of a crossing by the numbers of the two edges that leave it: the second one counterclockwise has
    the larger number or not.  (pd_invariants.c describes the opposite sign in a comment; only products of two
    signs are used.) *)
Definition order_sign (d : pd) (c : nat) (z : Z) : Prop :=
  exists p e f, departs d c p e /\ departs d c ((p + 1) mod 4) f /\ (e < f /\ z = 1%Z \/ f < e /\ z = (-1)%Z).

(** [L] lists the interlaced pairs of crossings of [w], each once *)
Definition interlaced_pairs (w : list nat) (L : list (nat * nat)) : Prop :=
  NoDup L /\ forall a b, In (a, b) L <-> a < b /\ interlaced w a b.
Definition sum_products (s : nat -> Z) (L : list (nat * nat)) : Z :=
  fold_right (fun ab t => s (fst ab) * s (snd ab) + t)%Z 0%Z L.
