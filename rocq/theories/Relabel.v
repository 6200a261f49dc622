(** Specification: two diagrams that differ only in the numbering of crossings and edges and in
    the place at which each crossing starts. *)
From Coq Require Import List ZArith Lia Bool Arith Permutation.
From Verif Require Import Base Iterators Pd PdSpec PdProofs.
Import ListNotations.
Open Scope nat_scope.

(** a bijection of 0, ..., n-1 *)
Definition bij_on (n : nat) (f : nat -> nat) : Prop :=
  (forall i, i < n -> f i < n) /\ (forall i j, i < n -> j < n -> f i = f j -> i = j).

(** the place that corresponds to place [p] of crossing [c] when crossing [c] becomes number
    [sigma c] and starts [rho c] places further on *)
Definition moved (sigma rho : nat -> nat) (c p : nat) : nat * nat := (sigma c, (p + 4 - rho c) mod 4).

Definition sign_at (d : pd) (c : nat) (s : orient) : Prop :=
  exists x, nth_error (p_cross d) c = Some x /\ csign x = s.

(** [d'] is [d] with crossing [c] renamed to [sigma c] and turned by [rho c] places, and edge [e]
    renamed to [pi e] *)
Record relabelled (d d' : pd) (sigma rho pi : nat -> nat) : Prop := {
  rl_ncross : ncross d' = ncross d;
  rl_nedges : nedges d' = nedges d;
  rl_sigma : bij_on (ncross d) sigma;
  rl_rho : forall c, c < ncross d -> rho c < 4;
  rl_pi : bij_on (nedges d) pi;
  rl_slot : forall c p e, slot d c p e ->
    slot d' (sigma c) (snd (moved sigma rho c p)) (pi e);
  rl_sign : forall c s, sign_at d c s -> sign_at d' (sigma c) s;
  rl_edge : forall e E, edge_at d e E -> exists E', edge_at d' (pi e) E' /\
    head_slot E' = moved sigma rho (e_head E) (e_headpos E) /\
    tail_slot E' = moved sigma rho (e_tail E) (e_tailpos E) }.

(** the rest of the record *)
Definition same_rest (d d' : pd) : Prop :=
  p_maxv d' = p_maxv d /\ p_uid d' = p_uid d /\ p_hash d' = p_hash d /\
  p_comp d' = p_comp d /\ p_face d' = p_face d.

(** every crossing starts with the lowest of its edges, and with the first of two neighbouring
    places that hold it *)
Definition starts_at_lowest (x : crossing) : Prop :=
  (forall p, p < 4 -> cedge x 0 <= cedge x p) /\ cedge x 3 <> cedge x 0.
Definition crossings_canonical (d : pd) : Prop :=
  (forall x, In x (p_cross d) -> starts_at_lowest x) /\ crossings_sorted d.
