(** Specification of planar diagram codes: what the arrays mean, independently of the
    functions that check or rebuild them. *)
From Coq Require Import List ZArith Lia Bool Arith Sorted.
From Verif Require Import Base Iterators Pd.
Import ListNotations.
Open Scope nat_scope.

(** place [p] (of 0,1,2,3, counterclockwise) around crossing [c] holds edge number [e] *)
Definition slot (d : pd) (c p e : nat) : Prop :=
  p < 4 /\ exists x, nth_error (p_cross d) c = Some x /\ cedge x p = e.
(** record of edge [e] *)
Definition edge_at (d : pd) (e : nat) (E : edge) : Prop := nth_error (p_edge d) e = Some E.

(** the two ends of an edge record *)
Definition head_slot (E : edge) : nat * nat := (e_head E, e_headpos E).
Definition tail_slot (E : edge) : nat * nat := (e_tail E, e_tailpos E).

(** there are two edges per crossing, and each edge record points, at both ends, to places
    that hold this edge *)
Definition ends_recorded (d : pd) : Prop :=
  nedges d = 2 * ncross d /\
  forall e E, edge_at d e E ->
    slot d (e_head E) (e_headpos E) e /\ slot d (e_tail E) (e_tailpos E) e.

(** strands go straight through crossings: across from the head of an edge is the tail of
    some edge, and across from the tail of an edge is the head of some edge *)
Definition goes_through (d : pd) : Prop :=
  forall e E, edge_at d e E ->
    (exists e' E', edge_at d e' E' /\ slot d (e_head E) ((e_headpos E + 2) mod 4) e' /\
       tail_slot E' = (e_head E, (e_headpos E + 2) mod 4)) /\
    (exists e' E', edge_at d e' E' /\ slot d (e_tail E) ((e_tailpos E + 2) mod 4) e' /\
       head_slot E' = (e_tail E, (e_tailpos E + 2) mod 4)).

(** the two ends of each edge are different places *)
Definition two_ended (d : pd) : Prop :=
  forall e E, edge_at d e E -> head_slot E <> tail_slot E.

(** lexicographic order on lists of numbers *)
Inductive lex_lt : list nat -> list nat -> Prop :=
| lex_nil : forall y l, lex_lt [] (y :: l)
| lex_here : forall x y l l', x < y -> lex_lt (x :: l) (y :: l')
| lex_next : forall x l l', lex_lt l l' -> lex_lt (x :: l) (x :: l').
Definition lex_le (a b : list nat) : Prop := a = b \/ lex_lt a b.

(** crossings are listed in dictionary order *)
Definition crossings_sorted (d : pd) : Prop :=
  StronglySorted lex_le (map cross_edges (p_cross d)).
(** faces and components: more edges first, then dictionary order *)
Definition big_first (a b : list nat) : Prop :=
  length b < length a \/ (length a = length b /\ lex_le a b).
Definition faces_sorted (d : pd) : Prop :=
  StronglySorted big_first (map (map fst) (p_face d)).
Definition comps_sorted (d : pd) : Prop :=
  StronglySorted big_first (map cp_edge (p_comp d)).

(** edge [b] continues edge [a] straight through the crossing at the head of [a] *)
Definition continues (d : pd) (a b : nat) : Prop :=
  exists A B, edge_at d a A /\ edge_at d b B /\
    e_tail B = e_head A /\ e_tailpos B = (e_headpos A + 2) mod 4.

(** consecutive members of a cyclic list are related *)
Definition cyclically {A} (R : A -> A -> Prop) (l : list A) : Prop :=
  forall i a b, nth_error l i = Some a -> nth_error l ((i + 1) mod length l) = Some b -> R a b.

(** an edge with a direction of travel, and the places where the journey ends and starts *)
Notation dart := (nat * orient)%type (only parsing).
Definition dart_to (d : pd) (a : dart) (s : nat * nat) : Prop :=
  exists E, edge_at d (fst a) E /\
    (snd a = Pos /\ s = head_slot E \/ snd a = Neg /\ s = tail_slot E).
Definition dart_from (d : pd) (a : dart) (s : nat * nat) : Prop :=
  exists E, edge_at d (fst a) E /\
    (snd a = Pos /\ s = tail_slot E \/ snd a = Neg /\ s = head_slot E).
(** walking along [a] and turning left at the crossing one leaves along [b]: the place where
    [b] starts is the next one clockwise *)
Definition left_turn (d : pd) (a b : dart) : Prop :=
  exists c p, p < 4 /\ dart_to d a (c, p) /\ dart_from d b (c, (p + 3) mod 4).

(** the darts of a diagram *)
Definition is_dart (d : pd) (a : dart) : Prop := fst a < nedges d /\ (snd a = Pos \/ snd a = Neg).

(** a face starts with one of its lowest-numbered edges *)
Definition starts_low (f : face) : Prop :=
  forall a b, nth_error f 0 = Some a -> In b f -> fst a <= fst b.
