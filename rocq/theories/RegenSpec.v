(** Specification: diagrams in the form that pd_regenerate produces. *)
From Coq Require Import List ZArith Sorted.
From Verif Require Import Base Iterators Pd PdSpec Relabel Strands Thm_Faces.
Import ListNotations.

(** the closed left-turning walks of the diagram are as many as Euler's formula asks for, and none
    is longer than the number of edges *)
Definition planar (d : pd) : Prop :=
  exists fs, face_partition d fs /\ length fs = ncross d + 2 /\ Forall (fun f => length f <= nedges d) fs.

(** consistent edge records, crossings in canonical form, edges numbered along the components,
    tags A, B, ..., all faces, each starting with a lowest edge, in order *)
Record regular (d : pd) : Prop := {
  rg_recorded : ends_recorded d;
  rg_through : goes_through d;
  rg_ends : two_ended d;
  rg_cross : crossings_canonical d;
  rg_comps : numbered_along d;
  rg_tags : tags_in_order d;
  rg_faces : face_partition d (p_face d);
  rg_nfaces : nfaces d = ncross d + 2;
  rg_low : Forall starts_low (p_face d);
  rg_sorted : faces_sorted d }.

(** some crossing has a sign *)
Definition signed (d : pd) : Prop := exists c s, sign_at d c s /\ s <> Unset.
Definition unsigned (d : pd) : Prop := forall c s, sign_at d c s -> s = Unset.
