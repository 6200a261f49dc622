(** Specification: the strands of a diagram, and numberings of the edges along strands. *)
From Coq Require Import List ZArith.
From Verif Require Import Base Iterators Pd PdSpec Relabel.
Import ListNotations.

(** closed strands, each edge continued straight by the next, that together use every edge once *)
Definition strand_partition (d : pd) (L : list (list nat)) : Prop :=
  (forall c, In c L -> c <> [] /\ cyclically (continues d) c) /\
  NoDup (concat L) /\ (forall e, In e (concat L) <-> e < nedges d).

(** the components number all the edges consecutively along the strands, longest strand first *)
Definition numbered_along (d : pd) : Prop :=
  concat (map cp_edge (p_comp d)) = seq 0 (nedges d) /\
  (forall c, In c (p_comp d) -> cp_edge c <> [] /\ cyclically (continues d) (cp_edge c)) /\
  comps_sorted d.

(** tags A, B, C, ... in the signed type char *)
Definition letter (i : nat) : Z := ((65 + Z.of_nat i + 128) mod 256 - 128)%Z.
Definition tags_in_order (d : pd) : Prop :=
  forall i c, nth_error (p_comp d) i = Some c -> cp_tag c = letter i.
