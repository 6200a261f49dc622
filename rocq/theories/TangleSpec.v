(** Specification of tangles: closed curves that cross a diagram, the two sides of such a curve, and what lies inside. *)
From Coq Require Import List ZArith Lia Bool Arith Sorted.
From Verif Require Import Base Iterators Pd PdSpec OverUnderSpec Planar Tangle.
Import ListNotations.
Open Scope nat_scope.

(** A closed curve that visits the faces [fs], each once, and goes from each of them to the next one across the
    corresponding edge of [es]; no edge is crossed twice. *)
Definition closed_curve (d : pd) (es fs : list nat) : Prop :=
  es <> [] /\ NoDup es /\ NoDup fs /\ length fs = length es /\
  forall i e f g, nth_error es i = Some e -> nth_error fs i = Some f -> nth_error fs ((i + 1) mod length es) = Some g ->
    face_along d f e Pos /\ face_along d g e Neg \/ face_along d f e Neg /\ face_along d g e Pos.

Definition crosses_in (d : pd) (inside : nat -> bool) (e : nat) : Prop :=
  exists E, edge_at d e E /\ inside (e_tail E) = false /\ inside (e_head E) = true.
Definition crosses_out (d : pd) (inside : nat -> bool) (e : nat) : Prop :=
  exists E, edge_at d e E /\ inside (e_tail E) = true /\ inside (e_head E) = false.
(** both ends of the edge are inside *)
Definition inner (d : pd) (inside : nat -> bool) (e : nat) : Prop :=
  exists E, edge_at d e E /\ inside (e_tail E) = true /\ inside (e_head E) = true.

(** [inside] tells on which side of the curve each crossing is: the edges that the curve crosses lead from one side to
    the other, all other edges stay on one side.  The inside is to the left of the curve: an edge that runs inwards has
    the face that the curve comes from on its left. *)
Definition two_sides_of (d : pd) (es fs : list nat) (inside : nat -> bool) : Prop :=
  (forall i e f, nth_error es i = Some e -> nth_error fs i = Some f ->
     face_along d f e Pos /\ crosses_in d inside e \/ face_along d f e Neg /\ crosses_out d inside e) /\
  (forall e E, edge_at d e E -> ~ In e es -> inside (e_head E) = inside (e_tail E)).

(** an edge that leaves a crossing and returns to it at the next place clockwise *)
Definition right_curl (E : edge) : Prop := e_head E = e_tail E /\ e_tailpos E = (e_headpos E + 1) mod 4.
Definition no_right_curl (d : pd) (inside : nat -> bool) : Prop :=
  forall e E, edge_at d e E -> inside (e_head E) = true -> ~ right_curl E.

(** consecutive elements are related *)
Definition in_turn {A} (r : A -> A -> Prop) (l : list A) : Prop :=
  forall i a b, nth_error l i = Some a -> nth_error l (i + 1) = Some b -> r a b.

(** a strand enters at one place of the boundary, runs straight on through the inside and leaves at another place *)
Definition is_strand (d : pd) (es : list nat) (inside : nat -> bool) (s : tstrand) : Prop :=
  exists a mid b, nth_error es (start_edge s) = Some a /\ nth_error es (end_edge s) = Some b /\
    crosses_in d inside a /\ crosses_out d inside b /\ (forall e, In e mid -> inner d inside e) /\
    in_turn (continues d) (a :: mid ++ [b]) /\ ts_nedges s = length (a :: mid ++ [b]) /\ on_comp d a (ts_comp s).

(** an increasing list of things that have a property, or of all of them; nothing to list is [None] *)
Definition lists_only (buf : option (list nat)) (P : nat -> Prop) : Prop :=
  match buf with None => True | Some l => l <> [] /\ StronglySorted lt l /\ forall x, In x l -> P x end.
Definition lists_all (buf : option (list nat)) (P : nat -> Prop) : Prop :=
  match buf with None => forall x, ~ P x | Some l => l <> [] /\ StronglySorted lt l /\ forall x, In x l <-> P x end.
Definition inside_cross (d : pd) (inside : nat -> bool) (c : nat) : Prop := c < ncross d /\ inside c = true.

(** the boundary and the strands of the tangle [t] are those of the curve *)
Definition boundary_found (d : pd) (es fs : list nat) (inside : nat -> bool) (t : tangle) : Prop :=
  t_edge t = es /\ t_face t = fs /\ length (t_or t) = length es /\
  (forall i e o, nth_error es i = Some e -> nth_error (t_or t) i = Some o ->
     match o with Inward => crosses_in d inside e | Outward => crosses_out d inside e end) /\
  StronglySorted lt (map start_edge (t_strand t)) /\
  (forall i, In i (map start_edge (t_strand t)) <-> exists e, nth_error es i = Some e /\ crosses_in d inside e) /\
  NoDup (map end_edge (t_strand t)) /\
  (forall i, In i (map end_edge (t_strand t)) <-> exists e, nth_error es i = Some e /\ crosses_out d inside e) /\
  (forall s, In s (t_strand t) -> is_strand d es inside s).
