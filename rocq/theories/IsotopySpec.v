(** Specification for diagram isotopies. *)
From Coq Require Import List ZArith Bool Arith.
From Verif Require Import Base Iterators Pd PdSpec Relabel HashSpec Carry Planar DiagIso IsoSpec.
Import ListNotations.
Open Scope nat_scope.

(** [d] is [d0] with other tags (and perhaps another uid) *)
Record same_but_tags (d0 d : pd) : Prop := {
  sb_hash : p_hash d = p_hash d0;
  sb_edge : p_edge d = p_edge d0;
  sb_cross : p_cross d = p_cross d0;
  sb_face : p_face d = p_face d0;
  sb_comp : map cp_edge (p_comp d) = map cp_edge (p_comp d0) }.
(** a diagram of a connected projection as pd_regenerate leaves it, with any tags *)
Definition drawn (d : pd) : Prop := exists d0, tidy d0 /\ connected d0 /\ same_but_tags d0 d.

Definition tags (d : pd) : list Z := map cp_tag (p_comp d).
(** the tags of each diagram differ, and when both have as many components the tags are the same; with six components or
    less they are also in the same order *)
Definition tags_agree (A B : pd) : Prop :=
  NoDup (tags A) /\ NoDup (tags B) /\
  (ncomps A = ncomps B -> (forall t, In t (tags A) -> In t (tags B)) /\ (ncomps A <= 6 -> tags A = tags B)).

(** the number of ways to turn all components fits in 32 bits *)
Definition rotations (d : pd) : nat := fold_right (fun C n => length (cp_edge C) * n) 1 (p_comp d).
Definition turnable (d : pd) : Prop := (Z.of_nat (rotations d) < 2 ^ 32)%Z.

(** place [p] at a crossing that is turned by [r], and reflected when [s] is negative *)
Definition turn_to (s : orient) (r p : nat) : nat := match s with Pos => (r + p) mod 4 | _ => (r + 4 - p) mod 4 end.

(** moving crossing [c], turned by [turn c], to [kc c] and edge [e] to [ke e] takes diagram [A] to diagram [B]: the edges
    around each crossing, the signs, the crossing and place where each edge starts and ends, and the tags *)
Record isotopy (A B : pd) (kc ke turn : nat -> nat) (s : orient) : Prop := {
  it_ncross : ncross B = ncross A;
  it_nedges : nedges B = nedges A;
  it_kc : bij_on (ncross A) kc;
  it_ke : bij_on (nedges A) ke;
  it_cross : forall c x, nth_error (p_cross A) c = Some x -> exists y, nth_error (p_cross B) (kc c) = Some y /\
    csign y = csign x /\ forall p, p < 4 -> cedge y (turn_to s (turn c) p) = ke (cedge x p);
  it_edge : forall e E, nth_error (p_edge A) e = Some E -> exists E', nth_error (p_edge B) (ke e) = Some E' /\
    e_head E' = kc (e_head E) /\ e_headpos E' = turn_to s (turn (e_head E)) (e_headpos E) /\
    e_tail E' = kc (e_tail E) /\ e_tailpos E' = turn_to s (turn (e_tail E)) (e_tailpos E);
  it_tag : forall i C e, nth_error (p_comp A) i = Some C -> In e (cp_edge C) ->
    exists j C', nth_error (p_comp B) j = Some C' /\ In (ke e) (cp_edge C') /\ cp_tag C' = cp_tag C }.

(** what the code builds: an isomorphism that keeps the cyclic order of the edges along every component, the signs and
    the tags *)
Record kept (A B : pd) (kc ke kp kf : nat -> nat) (s : orient) : Prop := {
  kt_iso : isomorphism A B kc ke kp kf s s (fun _ => Pos);
  kt_sign : forall c x y, nth_error (p_cross A) c = Some x -> nth_error (p_cross B) (kc c) = Some y -> csign y = csign x;
  kt_tag : forall i C C', nth_error (p_comp A) i = Some C -> nth_error (p_comp B) (kp i) = Some C' -> cp_tag C' = cp_tag C }.
