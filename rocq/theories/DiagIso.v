(** Specification: isomorphisms of diagrams. *)
From Coq Require Import List Bool Arith.
From Verif Require Import Base Iterators Pd PdSpec Relabel HashSpec.
Import ListNotations.
Open Scope nat_scope.

(** a cyclic list read forward or backward *)
Definition turned {A} (o : orient) (l : list A) : list A := match o with Pos => l | _ => rev l end.
Definition around_cross (x : crossing) : list nat := [ce0 x; ce1 x; ce2 x; ce3 x].

(** renaming crossing [c] to [kc c] and edge [e] to [ke e] takes the edges around each crossing of [A]
    to those around a crossing of [B], all in the same cyclic order or, with [spin] negative, all in the
    opposite order *)
Record alike (A B : pd) (kc ke : nat -> nat) (spin : orient) : Prop := {
  al_ncross : ncross B = ncross A;
  al_nedges : nedges B = nedges A;
  al_kc : bij_on (ncross A) kc;
  al_ke : bij_on (nedges A) ke;
  al_cross : forall c x, nth_error (p_cross A) c = Some x ->
    exists y, nth_error (p_cross B) (kc c) = Some y /\ rotation (turned spin (around_cross y)) (map ke (around_cross x)) }.

(** and components to components, each forward or backward, and faces to faces, all forward or all backward *)
Record isomorphism (A B : pd) (kc ke kp kf : nat -> nat) (spin round : orient) (dir : nat -> orient) : Prop := {
  im_alike : alike A B kc ke spin;
  im_ncomps : ncomps B = ncomps A;
  im_kp : bij_on (ncomps A) kp;
  im_comp : forall i C, nth_error (p_comp A) i = Some C ->
    exists C', nth_error (p_comp B) (kp i) = Some C' /\ rotation (turned (dir i) (cp_edge C')) (map ke (cp_edge C));
  im_nfaces : nfaces B = nfaces A;
  im_kf : bij_on (nfaces A) kf;
  im_face : forall f F, nth_error (p_face A) f = Some F ->
    exists F', nth_error (p_face B) (kf f) = Some F' /\ rotation (turned round (map fst F')) (map ke (map fst F)) }.
