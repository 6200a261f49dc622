(** Specification of diagrams by the places that are joined. *)
From Coq Require Import List Arith.
From Verif Require Import Base Iterators Pd PdSpec Relabel Planar RegenSpec.
Import ListNotations.
Open Scope nat_scope.

(** one edge runs between the places [s] and [t] *)
Definition wire (d : pd) (s t : nat * nat) : Prop :=
  s <> t /\ exists e, slot d (fst s) (snd s) e /\ slot d (fst t) (snd t) e.

(** [d] has [n] crossings and, up to the numbering of the crossings and the places where they start, its edges join the
    places listed in [w] *)
Definition shaped (d : pd) (n : nat) (w : list ((nat * nat) * (nat * nat))) : Prop :=
  ncross d = n /\ exists sigma rho, bij_on n sigma /\ (forall c, c < n -> rho c < 4) /\
    forall s t, In (s, t) w -> wire d (moved sigma rho (fst s) (snd s)) (moved sigma rho (fst t) (snd t)).

(** The places of each crossing are numbered counterclockwise from 0 to 3. *)

(** a closed braid of two strands with [q] crossings *)
Definition torus_wires (q : nat) := flat_map (fun i =>
  [((i, 0), ((i + 1) mod q, 1)); ((i, 3), ((i + 1) mod q, 2))]) (seq 0 q).
(** two strands twisted around each other at the crossings [a], ..., [a + k] *)
Definition ladder (a k : nat) := flat_map (fun i => [((i, 3), (i + 1, 0)); ((i, 2), (i + 1, 1))]) (seq a k).
(** two strands with [n + 1] crossings, joined to themselves at both ends *)
Definition plait_wires (n : nat) := ladder 0 n ++ [((0, 0), (0, 1)); ((n, 2), (n, 3))].
(** [n] crossings between two strands, whose ends are hooked into each other at two more crossings *)
Definition twist_wires (n : nat) := ladder 2 (n - 1) ++
  [((0, 0), (1, 0)); ((0, 1), (1, 3)); ((0, 2), (2, 0)); ((1, 2), (2, 1)); ((0, 3), (n + 1, 3)); ((1, 1), (n + 1, 2))].
(** [n] rings in a row, each hooked into the next one at crossings 2i and 2i + 1 *)
Definition chain_wires (n : nat) :=
  flat_map (fun i => [((2 * i, 1), (2 * i + 1, 3)); ((2 * i, 2), (2 * i + 1, 2))]) (seq 0 (n - 1)) ++
  flat_map (fun i => [((2 * i, 3), (2 * i + 2, 0)); ((2 * i + 1, 1), (2 * i + 3, 0))]) (seq 0 (n - 2)) ++
  [((0, 0), (1, 0)); ((2 * (n - 2), 3), (2 * (n - 2) + 1, 1))].

(** the function call [x] gives a diagram in regular form that passes pd_ok, with [m] crossings, [k] components and all
    crossings positive, whose edges join the places in [w] *)
Definition built_as (x : res pd) (m k : nat) (w : list ((nat * nat) * (nat * nat))) : Prop :=
  exists d', x = Ok d' /\ regular d' /\ connected d' /\ pd_ok d' = Ok true /\ ncomps d' = k /\
    (forall c s, sign_at d' c s -> s = Pos) /\ shaped d' m w.
