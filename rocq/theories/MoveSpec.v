(** Specification of the first Reidemeister move on crossing and edge tables. *)
From Coq Require Import List Arith.
From Verif Require Import Base Iterators Pd PdSpec Relabel.
Import ListNotations.
Open Scope nat_scope.

(** [d1] is [d] with a loop on edge [e]: at a new crossing c the strand e, cut into a, e, b, crosses itself.
    Edge a runs from where e started to place [pa] of c; e starts at the opposite place, and returns to c at a
    place next to it, where the strand goes on along b to where e ended.  [pa], [pb] are the places of a, b. *)
Record loop_at (d d1 : pd) (e a b c pa pb : nat) : Prop := {
  lp_ncross : ncross d1 = S (ncross d);
  lp_nedges : nedges d1 = nedges d + 2;
  lp_c : c = ncross d; lp_a : a = nedges d; lp_b : b = nedges d + 1;
  (** all other edges and the places that do not hold an end of e are unchanged *)
  lp_others : forall x X, x <> e -> edge_at d x X -> edge_at d1 x X;
  lp_slots : forall E v p x, edge_at d e E -> (v, p) <> head_slot E -> (v, p) <> tail_slot E -> slot d v p x -> slot d1 v p x;
  lp_signs : forall v s, sign_at d v s -> sign_at d1 v s;
  (** the three parts of e *)
  lp_edges : forall E, edge_at d e E -> exists A E' B,
    edge_at d1 a A /\ edge_at d1 e E' /\ edge_at d1 b B /\
    tail_slot A = tail_slot E /\ head_slot A = (c, pa) /\
    tail_slot E' = (c, (pa + 2) mod 4) /\ head_slot E' = (c, (pb + 2) mod 4) /\
    tail_slot B = (c, pb) /\ head_slot B = head_slot E /\
    slot d1 (e_tail E) (e_tailpos E) a /\ slot d1 (e_head E) (e_headpos E) b;
  lp_new : slot d1 c pa a /\ slot d1 c ((pa + 2) mod 4) e /\ slot d1 c ((pb + 2) mod 4) e /\ slot d1 c pb b }.
(** The loop lies on the left of e traversed in direction [o]: turning left at its end one is on e again.
    The new crossing has no sign. *)
Definition loop_added (d d1 : pd) (e : nat) (o : orient) : Prop :=
  exists a b c pa pb, loop_at d d1 e a b c pa pb /\ left_turn d1 (e, o) (e, o) /\ sign_at d1 c Unset.
