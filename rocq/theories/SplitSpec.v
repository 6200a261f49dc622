(** Specification: a diagram that is the disjoint union of other diagrams. *)
From Coq Require Import List ZArith Bool Arith Permutation.
From Verif Require Import Base Iterators Pd PdSpec Relabel Strands Thm_Faces RegenSpec Planar DeloopSpec.
Import ListNotations.
Open Scope nat_scope.

(** a diagram [pc], and where its crossings (turned) and edges are in a bigger diagram *)
Record piece := mkPiece { pc : pd; at_cross : nat -> nat; at_turn : nat -> nat; at_edge : nat -> nat }.

(** crossings, signs and edge records of the piece appear in [d] *)
Record inside (d : pd) (p : piece) : Prop := {
  in_turn : forall c, c < ncross (pc p) -> at_turn p c < 4;
  in_slot : forall c q e, slot (pc p) c q e ->
    slot d (at_cross p c) (snd (moved (at_cross p) (at_turn p) c q)) (at_edge p e);
  in_sign : forall c s, sign_at (pc p) c s -> sign_at d (at_cross p c) s;
  in_edge : forall e E, edge_at (pc p) e E -> exists E', edge_at d (at_edge p e) E' /\
    if unset_edge E then unset_edge E' = true
    else head_slot E' = moved (at_cross p) (at_turn p) (e_head E) (e_headpos E) /\
         tail_slot E' = moved (at_cross p) (at_turn p) (e_tail E) (e_tailpos E) }.

Definition crossings_of (p : piece) : list nat := map (at_cross p) (seq 0 (ncross (pc p))).
Definition edges_of (p : piece) : list nat := map (at_edge p) (seq 0 (nedges (pc p))).
Definition rename_comp_by (f : nat -> nat) (c : component) : component := mkComp (map f (cp_edge c)) (cp_tag c).
Definition comps_of (p : piece) : list component := map (rename_comp_by (at_edge p)) (p_comp (pc p)).

(** every crossing, every edge and every component (with its tag) of [d] belongs to exactly one piece *)
Record union_of (d : pd) (ps : list piece) : Prop := {
  un_inside : forall p, In p ps -> inside d p;
  un_cross : Permutation (flat_map crossings_of ps) (seq 0 (ncross d));
  un_edge : Permutation (flat_map edges_of ps) (seq 0 (nedges d));
  un_comp : Permutation (flat_map comps_of ps) (p_comp d) }.

(** a circle without crossings *)
Definition circle (c : pd) (tag : Z) : Prop :=
  p_cross c = [] /\ (exists E, p_edge c = [E] /\ unset_edge E = true) /\ p_comp c = [mkComp [0] tag].
(** a connected planar diagram with crossings.  Nothing is asked of the order of its crossings, edges, components or
    of its list of faces. *)
Record drawn (c : pd) : Prop := {
  dr_some : 0 < ncross c;
  dr_recorded : ends_recorded c;
  dr_through : goes_through c;
  dr_ends : two_ended c;
  dr_comps : strand_partition c (map cp_edge (p_comp c));
  dr_tags : tags_fine c;
  dr_planar : planar c;
  dr_connected : connected c }.
Definition simple_piece (c : pd) : Prop := (exists tag, circle c tag) \/ drawn c.

(** the same diagram in another numbering *)
Definition same_diagram (c c' : pd) : Prop :=
  (exists tag, circle c tag /\ circle c' tag) \/
  (drawn c /\ drawn c' /\ exists sigma rho pi, relabelled c c' sigma rho pi /\
     Permutation (p_comp c') (map (rename_comp_by pi) (p_comp c))).
