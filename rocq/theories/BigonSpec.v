(** Specification: bigons, and the edges that stay when crossings are removed. *)
From Coq Require Import List Arith.
From Verif Require Import Base Iterators Pd PdSpec OverUnderSpec.
Import ListNotations.
Open Scope nat_scope.

(** The sides of a face are [x] and [y].  Going round the face, [x] ends at place [p] of crossing [u] and [y] at
    place [q] of the other crossing [v]. *)
Definition bigon (d : pd) (x y : dart) (u p v q : nat) : Prop :=
  (In [x; y] (p_face d) \/ In [y; x] (p_face d)) /\ dart_to d x (u, p) /\ dart_to d y (v, q) /\ u <> v.

(** a corner of the face [f] at crossing [c]: it arrives there at place [p] *)
Definition arrives_at (d : pd) (f : face) (c p : nat) : Prop := exists x, In x f /\ dart_to d x (c, p).

(** the edge starts at a crossing that stays *)
Definition survives (d : pd) (gone : list nat) (e : nat) : bool :=
  match nth_error (p_edge d) e with
  | Some E => if in_dec Nat.eq_dec (e_tail E) gone then false else true
  | None => false
  end.

(** Of the two strands along a bigon, one passes above the other at both crossings.  The strand along [x] uses place
    [p] of crossing [u] and the place of [v] before [q]; the strand along [y] uses the other two. *)
Definition one_above (d : pd) (u p v q : nat) : Prop :=
  over_at d u p /\ over_at d v ((q + 3) mod 4) \/ over_at d u ((p + 3) mod 4) /\ over_at d v q.
