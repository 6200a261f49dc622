(** C12-C14: what the checks on planar diagram codes accept. *)
From Coq Require Import List ZArith Lia Bool Arith Sorted.
From Verif Require Import Base Iterators Pd PdSpec PdProofs PdExamples.
Import ListNotations.
Open Scope nat_scope.

(** ** C12 *)

(** The crossing check accepts exactly the tables in which every place holds an existing edge,
    every edge is held by two places (or by none, if both its ends are unset) and the crossings
    are in dictionary order. *)
Theorem cross_ok_exact : forall d, 0 < ncross d ->
  pd_cross_ok d = Ok true <->
  (forall c p e, slot d c p e -> e < nedges d) /\
  (forall e E, edge_at d e E ->
     count_occ Nat.eq_dec (all_slots (p_cross d)) e = 2 \/
     (count_occ Nat.eq_dec (all_slots (p_cross d)) e = 0 /\ e_headpos E = 4 /\ e_tailpos E = 4)) /\
  crossings_sorted d.
Proof. exact cross_ok_spec. Qed.

(** The edge check accepts exactly the tables in which both ends of every edge are recorded
    correctly and strands go straight through crossings. *)
Theorem edges_ok_exact : forall d, 0 < ncross d ->
  pd_edges_ok d = Ok true <-> ends_recorded d /\ goes_through d.
Proof. exact edges_ok_spec. Qed.

(** In an accepted diagram every edge is held by exactly two places, and its record points to
    places that hold it; crossings are sorted. *)
Theorem pd_ok_incidence : forall d, pd_ok d = Ok true -> 0 < ncross d ->
  (forall c p e, slot d c p e -> e < nedges d) /\
  (forall e, e < nedges d -> count_occ Nat.eq_dec (all_slots (p_cross d)) e = 2) /\
  ends_recorded d /\ goes_through d /\ crossings_sorted d.
Proof.
  intros d H Hn. unfold pd_ok in H. apply and_ok_true in H as (H1 & H). apply and_ok_true in H as (H2 & _).
  apply cross_ok_spec in H1; auto. apply edges_ok_spec in H2; auto. destruct H1 as (A & B & C). destruct H2 as (R & G).
  split; auto. split; [|auto]. intros e He. destruct (edge_at_ex d e He) as (E & HE).
  destruct (B e E HE) as [K|(K1 & K2 & _)]; auto. destruct R as (_ & R). destruct (R e E HE) as (S & _).
  apply slot_lt in S. lia.
Qed.

(** If moreover no edge has both ends at the same place, every place around every crossing is
    the end of exactly one directed edge: it is the head of exactly one edge and the tail of
    none, or the tail of exactly one and the head of none. *)
Theorem pd_ok_every_place : forall d c p, pd_ok d = Ok true -> two_ended d -> c < ncross d -> p < 4 ->
  exists e E, edge_at d e E /\ slot d c p e /\
    ((head_slot E = (c, p) /\ tail_slot E <> (c, p)) \/ (tail_slot E = (c, p) /\ head_slot E <> (c, p))) /\
    (forall e' E', edge_at d e' E' -> head_slot E' = (c, p) \/ tail_slot E' = (c, p) -> e' = e).
Proof.
  intros d c p H T Hc Hp. destruct (pd_ok_incidence d H) as (_ & _ & R & _); [lia|].
  destruct (dto_surj d c p R T Hc Hp) as ((e, o) & D & K). pose proof (dto_slot d _ R D) as S. rewrite K in S.
  destruct D as (L & O). cbn [fst snd] in *. destruct (edge_at_ex d e L) as (E & HE). exists e, E.
  split; auto. split; auto. split.
  - specialize (T e E HE). unfold dto in K. cbn [fst snd] in K. unfold edge_at in HE. rewrite HE in K.
    destruct O; subst o; [left|right]; split; congruence.
  - intros e' E' HE' [K'|K']; destruct R as (_ & R); destruct (R e' E' HE') as (S1 & S2).
    + unfold head_slot in K'. inversion K' as [[Q1 Q2]]. rewrite Q1, Q2 in S1. exact (slot_fun _ _ _ _ _ S1 S).
    + unfold tail_slot in K'. inversion K' as [[Q1 Q2]]. rewrite Q1, Q2 in S2. exact (slot_fun _ _ _ _ _ S2 S).
Qed.

Example two_ended_trefoil : two_ended trefoil.
Proof.
  intros e E H. unfold edge_at in H. do 6 (destruct e as [|e]; [inversion H; cbn; discriminate|]).
  destruct e; discriminate.
Qed.

(** pd_ok does not check that: it accepts a diagram in which both ends of each edge are at the
    same place, so that two of the four places are nobody's end. *)
Definition one_ended : pd :=
  mkPd 2 0 [] [mkEdge 0 0 0 0; mkEdge 0 2 0 2] [mkCross 0 0 1 1 Unset] [mkComp [0; 1] 65%Z] [].
Theorem pd_ok_two_ended_refuted :
  pd_ok one_ended = Ok true /\ ~ two_ended one_ended /\
  slot one_ended 0 1 0 /\
  forall e E, edge_at one_ended e E -> head_slot E <> (0, 1) /\ tail_slot E <> (0, 1).
Proof.
  split; [reflexivity|]. split; [|split].
  - intros T. apply (T 0 (mkEdge 0 0 0 0)); reflexivity.
  - split; [lia|]. exists (mkCross 0 0 1 1 Unset). auto.
  - intros e E H. unfold edge_at in H. do 2 (destruct e as [|e]; [inversion H; cbn; split; discriminate|]).
    destruct e; discriminate.
Qed.

(** ** C13 *)

(** The component check accepts exactly the lists of components that number all edges
    consecutively, in which each edge continues the one before (cyclically), and whose tags are
    distinct and, except possibly for the least, at least 'A'. *)
Theorem comps_ok_exact : forall d, 0 < ncross d -> pd_edges_ok d = Ok true ->
  pd_comps_ok d = Ok true <->
  ncomps d <= MAXCOMPONENTS d /\
  concat (map cp_edge (p_comp d)) = seq 0 (nedges d) /\
  (forall c, In c (p_comp d) -> cyclically (continues d) (cp_edge c)) /\
  NoDup (map cp_tag (p_comp d)) /\
  (forall t t', In t (map cp_tag (p_comp d)) -> In t' (map cp_tag (p_comp d)) -> (t < t')%Z -> (65 <= t')%Z).
Proof. intros d Hn H. apply edges_ok_spec in H; auto. apply comps_ok_spec; tauto. Qed.

(** Neither the order of the components by length nor the tag of the first is checked. *)
Definition unsorted_comps : pd := mkPd 3 0 []
  [mkEdge 0 0 0 1; mkEdge 0 3 0 2; mkEdge 1 0 1 1; mkEdge 2 0 1 2; mkEdge 2 3 2 2; mkEdge 1 3 2 1]
  [mkCross 0 0 1 1 Unset; mkCross 2 2 3 5 Unset; mkCross 3 5 4 4 Unset]
  [mkComp [0; 1] 7%Z; mkComp [2; 3; 4; 5] 65%Z] [].
Theorem comps_ok_order_refuted :
  pd_ok unsorted_comps = Ok true /\ ~ comps_sorted unsorted_comps /\
  exists c, In c (p_comp unsorted_comps) /\ (cp_tag c < 65)%Z.
Proof.
  split; [reflexivity|]. split.
  - intros S. inversion S as [|? ? _ F]; subst. inversion F as [|? ? B _]; subst.
    destruct B as [B|(B & _)]; cbn in B; lia.
  - exists (mkComp [0; 1] 7%Z). cbn. split; auto. lia.
Qed.

(** The check follows an edge number it has not yet compared with anything: a component naming
    an edge that does not exist makes it read outside the edge table, before it can say no. *)
Theorem comps_ok_wild_read_refuted : forall k, 5 <= k ->
  let d := mkPd 2 0 [] (p_edge hopf) (p_cross hopf) [mkComp [0; k] 65%Z; mkComp [2; 3] 66%Z] (p_face hopf) in
  MAXEDGES d <= k /\ pd_edges_ok d = Ok true /\ pd_comps_ok d = UB.
Proof.
  intros k Hk d. split; [exact Hk|]. split; [reflexivity|].
  do 5 (destruct k as [|k]; [lia|]). unfold pd_comps_ok. cbn -[nth_error]. unfold comp_edge_ok. cbn -[nth_error].
  unfold get at 1. cbn [nth_error]. cbn. destruct k; reflexivity.
Qed.

(** ** C14 *)

(** The face check accepts exactly the lists of nonempty cycles of left turns, each starting
    with a lowest edge, in order of decreasing length and then dictionary order. *)
Theorem faces_ok_exact : forall d, 0 < ncross d -> pd_edges_ok d = Ok true ->
  pd_faces_ok d = Ok true <->
  nfaces d <= MAXFACES d /\
  (forall f, In f (p_face d) ->
     f <> [] /\ (forall a, In a f -> is_dart d a) /\ cyclically (left_turn d) f /\ starts_low f) /\
  faces_sorted d.
Proof. intros d Hn H. apply edges_ok_spec in H; auto. apply faces_ok_spec; tauto. Qed.

(** It does not ask for all faces, nor for different ones: any valid diagram with the faces left
    out is still accepted, and so is one with a face listed again. *)
Theorem faces_ok_incomplete_refuted : forall d, pd_ok d = Ok true -> 0 < ncross d ->
  pd_ok (with_faces d []) = Ok true.
Proof.
  intros d H Hn. unfold pd_ok in *. rewrite !and_ok_true in *. destruct H as (H1 & H2 & H3 & H4).
  split; [exact H1|]. split; [exact H2|]. split; [|rewrite comps_ok_faces; exact H4]. unfold pd_faces_ok, nfaces.
  change (ncross (with_faces d [])) with (ncross d). cbn [with_faces p_face length Nat.ltb Nat.leb].
  destruct (Nat.eqb_spec (ncross d) 0); [lia|]. reflexivity.
Qed.
Theorem faces_ok_repeat_refuted :
  pd_ok (with_faces hopf [[(0, Neg); (2, Pos)]; [(0, Neg); (2, Pos)]]) = Ok true.
Proof. reflexivity. Qed.
(** A face with no edges makes it divide by zero. *)
Theorem faces_ok_empty_face_refuted : forall d fs, 0 < ncross d -> length fs < MAXFACES d ->
  pd_faces_ok (with_faces d ([] :: fs)) = UB.
Proof.
  intros d fs Hn L. unfold pd_faces_ok, nfaces.
  change (MAXFACES (with_faces d ([] :: fs))) with (MAXFACES d).
  change (ncross (with_faces d ([] :: fs))) with (ncross d). cbn [with_faces p_face length].
  match goal with |- context [MAXFACES d <? ?b] => destruct (Nat.ltb_spec (MAXFACES d) b) as [Q|Q] end.
  { lia. }
  destruct (Nat.eqb_spec (ncross d) 0); [lia|]. reflexivity.
Qed.

Print Assumptions cross_ok_exact.
Print Assumptions edges_ok_exact.
Print Assumptions pd_ok_incidence.
Print Assumptions pd_ok_every_place.
Print Assumptions pd_ok_two_ended_refuted.
Print Assumptions comps_ok_exact.
Print Assumptions comps_ok_order_refuted.
Print Assumptions comps_ok_wild_read_refuted.
Print Assumptions faces_ok_exact.
Print Assumptions faces_ok_incomplete_refuted.
Print Assumptions faces_ok_repeat_refuted.
Print Assumptions faces_ok_empty_face_refuted.
