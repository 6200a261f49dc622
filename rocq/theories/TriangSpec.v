(** What a triangulation of the n-gon is, independently of the model. *)
From Coq Require Import List Arith Sorted.
Import ListNotations.
Open Scope nat_scope.

(** the vertex v lies strictly between the ends of the chord, in the numbering of the n-gon *)
Definition inside (c : nat * nat) (v : nat) : Prop :=
  Nat.min (fst c) (snd c) < v < Nat.max (fst c) (snd c).
Definition meet (c d : nat * nat) : Prop :=
  fst c = fst d \/ fst c = snd d \/ snd c = fst d \/ snd c = snd d.
(** two chords of a convex polygon cross when they have no common end and the ends of one lie on different
    sides of the other *)
Definition crosses (c d : nat * nat) : Prop :=
  ~ meet c d /\ ((inside c (fst d) /\ ~ inside c (snd d)) \/ (~ inside c (fst d) /\ inside c (snd d))).
Definition same (c d : nat * nat) : Prop := c = d \/ c = (snd d, fst d).
(** a chord of the n-gon that is not a side *)
Definition diagonal (n : nat) (c : nat * nat) : Prop :=
  fst c < n /\ snd c < n /\ fst c <> snd c /\ (fst c + 1) mod n <> snd c /\ (snd c + 1) mod n <> fst c.
Definition triangulation (n : nat) (cs : list (nat * nat)) : Prop :=
  length cs = n - 3 /\ Forall (diagonal n) cs /\ ForallOrdPairs (fun c d => ~ crosses c d /\ ~ same c d) cs.
