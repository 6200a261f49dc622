(** Specification: the planar diagram codes of the KnotTheory package. *)
From Coq Require Import List NArith Bool Arith.
From Verif Require Import Base Iterators Pd PdSpec Relabel OverUnderSpec.
Import ListNotations.
Open Scope nat_scope.

(** X[i,j,k,l] stands for a crossing whose edges are, counterclockwise from the one on which the lower strand comes in,
    i, j, k and l.  Edges are counted from 1. *)
Definition kt_edge (d : pd) (c p : nat) (v : N) : Prop := exists e, slot d c p e /\ v = N.of_nat (e + 1).
Definition kt_crossing (d : pd) (c : nat) (v : N * N * N * N) : Prop :=
  let '(i, j, k, l) := v in
  exists s oi oo ui uo, sign_at d c s /\ over_under d c s oi oo ui uo /\
    kt_edge d c ui i /\ kt_edge d c ((ui + 1) mod 4) j /\ kt_edge d c ((ui + 2) mod 4) k /\ kt_edge d c ((ui + 3) mod 4) l.
(** [vs] is the code of [d] *)
Definition kt_code (d : pd) (vs : list (N * N * N * N)) : Prop :=
  length vs = ncross d /\ forall c v, nth_error vs c = Some v -> kt_crossing d c v.
