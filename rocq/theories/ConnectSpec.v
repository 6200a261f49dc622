(** Specification of the connected sum of two diagrams. *)
From Coq Require Import List ZArith Bool Arith Permutation.
From Verif Require Import Base Iterators Pd PdSpec Relabel Strands HashSpec RegenSpec Planar SplitSpec.
Import ListNotations.
Open Scope nat_scope.

(** Piece [p] of [d]: its crossings, signs and edge records are in [d], except that edge [x] of [p] ends where edge
    [y] of piece [q] ended, and edge [y] of [q] is at the place where [x] ended. *)
Record part (d : pd) (p : piece) (x : nat) (q : piece) (y : nat) : Prop := {
  pt_turn : forall c, c < ncross (pc p) -> at_turn p c < 4;
  pt_slot : forall c k e, slot (pc p) c k e -> (forall X, edge_at (pc p) x X -> head_slot X <> (c, k)) ->
    slot d (at_cross p c) (snd (moved (at_cross p) (at_turn p) c k)) (at_edge p e);
  pt_head : forall X, edge_at (pc p) x X ->
    slot d (at_cross p (e_head X)) (snd (moved (at_cross p) (at_turn p) (e_head X) (e_headpos X))) (at_edge q y);
  pt_sign : forall c s, sign_at (pc p) c s -> sign_at d (at_cross p c) s;
  pt_edge : forall e E, e <> x -> edge_at (pc p) e E -> exists E', edge_at d (at_edge p e) E' /\
    head_slot E' = moved (at_cross p) (at_turn p) (e_head E) (e_headpos E) /\
    tail_slot E' = moved (at_cross p) (at_turn p) (e_tail E) (e_tailpos E);
  pt_join : forall X Y, edge_at (pc p) x X -> edge_at (pc q) y Y -> exists E', edge_at d (at_edge p x) E' /\
    head_slot E' = moved (at_cross q) (at_turn q) (e_head Y) (e_headpos Y) /\
    tail_slot E' = moved (at_cross p) (at_turn p) (e_tail X) (e_tailpos X) }.

(** [d] is [pc p] and [pc q], joined along edges [x] and [y]: every crossing and every edge of [d] belongs to exactly
    one of the two *)
Record sum_of (d : pd) (p : piece) (x : nat) (q : piece) (y : nat) : Prop := {
  sm_left : part d p x q y;
  sm_right : part d q y p x;
  sm_cross : Permutation (crossings_of p ++ crossings_of q) (seq 0 (ncross d));
  sm_edge : Permutation (edges_of p ++ edges_of q) (seq 0 (nedges d)) }.

(** The components of [d]: the component x, u, of [p] and the component y, v, of [q] have become x, v, y, u, and the
    others are still there.  Components are compared as cyclic lists. *)
Definition rest_of (c : pd) (i : nat) : list (list nat) := map cp_edge (firstn i (p_comp c) ++ skipn (S i) (p_comp c)).
Definition sum_strands (p : piece) (x : nat) (q : piece) (y : nat) (L : list (list nat)) : Prop :=
  exists i j C D u v, nth_error (p_comp (pc p)) i = Some C /\ rotation (cp_edge C) (x :: u) /\
    nth_error (p_comp (pc q)) j = Some D /\ rotation (cp_edge D) (y :: v) /\
    L = (map (at_edge p) [x] ++ map (at_edge q) v ++ map (at_edge q) [y] ++ map (at_edge p) u) ::
        map (map (at_edge p)) (rest_of (pc p) i) ++ map (map (at_edge q)) (rest_of (pc q) j).
Definition summed_comps (d : pd) (p : piece) (x : nat) (q : piece) (y : nat) : Prop :=
  exists L, sum_strands p x q y L /\ length L = ncomps d /\
    forall l, In l L -> exists c, In c (p_comp d) /\ rotation l (cp_edge c).
(** the same when components may have been turned around *)
Definition summed_turned (d : pd) (p : piece) (x : nat) (q : piece) (y : nat) : Prop :=
  exists L, sum_strands p x q y L /\ length L = ncomps d /\
    forall l, In l L -> exists c, In c (p_comp d) /\ (rotation l (cp_edge c) \/ rotation (rev l) (cp_edge c)).

(** what the sum needs of a diagram: it passes the checks, and it is planar and connected *)
Record summand (d : pd) : Prop := {
  sd_some : 0 < ncross d;
  sd_ok : pd_ok d = Ok true;
  sd_ends : two_ended d;
  sd_comps : forall c, In c (p_comp d) -> cp_edge c <> [];
  sd_planar : planar d;
  sd_connected : connected d }.
