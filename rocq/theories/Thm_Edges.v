(** C17, first half: rebuilding the edge records from the crossing table. *)
From Coq Require Import List ZArith Lia Bool Arith Permutation Sorted.
From Verif Require Import Base Iterators Pd PdSpec PdProofs SlotCount PdCross PdEdges Places PdEdgesProofs
  PdExamples Thm_Cross.
Import ListNotations.
Open Scope nat_scope.

(** every edge number 0, ..., 2n-1 stands at exactly two of the 4n places around the crossings *)
Definition each_edge_twice (d : pd) : Prop :=
  forall e, e < 2 * ncross d -> count_occ Nat.eq_dec (flat_map cross_edges (p_cross d)) e = 2.
(** no edge leaves a crossing and comes back to the same crossing straight across *)
Definition no_edge_across (d : pd) : Prop :=
  forall c p e, slot d c p e -> slot d c ((p + 2) mod 4) e -> False.

(** From any such crossing table pd_regenerate_edges, if it does not exit, keeps everything but the
    edge records and makes edge records whose ends are the two places of the edge and which are
    oriented so that strands go straight through every crossing.  The old edge records play no
    role.  The function never reads or writes outside its arrays, and it exits only if some edge
    returns to its crossing straight across. *)
Theorem regenerate_edges_correct : forall d, 0 < ncross d -> each_edge_twice d ->
  (exists es, pd_regenerate_edges d = Ok (with_edges d es) /\
     ends_recorded (with_edges d es) /\ two_ended (with_edges d es) /\ goes_through (with_edges d es)) \/
  (pd_regenerate_edges d = Fail /\ ~ no_edge_across d).
Proof.
  intros d Hn H. pose proof (twice_perm _ H) as H4.
  destruct (regenerate_edges_cases d H4 Hn) as [(es & E & (_ & R & T) & G)|(E & N)]; [left; eauto 8|].
  right. split; auto. intros X. apply N. intros t Ht Q. apply (X (fst t) (snd t) (edge_in (p_cross d) t)).
  - apply place_slot; auto.
  - rewrite <- Q. apply (place_slot (p_cross d) d (opp t)); auto. apply opp_in; auto.
Qed.

(** Hence it always succeeds when no edge returns straight across. *)
Theorem regenerate_edges_succeeds : forall d, 0 < ncross d -> each_edge_twice d -> no_edge_across d ->
  exists es, pd_regenerate_edges d = Ok (with_edges d es) /\
     ends_recorded (with_edges d es) /\ two_ended (with_edges d es) /\ goes_through (with_edges d es).
Proof.
  intros d Hn H N. destruct (regenerate_edges_correct d Hn H) as [X|(_ & X)]; auto. contradiction.
Qed.

(** The orientation of the strands is chosen afresh: what the edge records said before is lost.
    The result for the trefoil is the trefoil with its strand reversed. *)
Theorem regenerate_edges_forgets : forall d es, pd_regenerate_edges (with_edges d es) = pd_regenerate_edges d.
Proof. intros []; reflexivity. Qed.
Theorem regenerate_edges_orientation_refuted :
  pd_ok trefoil = Ok true /\
  exists es, pd_regenerate_edges trefoil = Ok (with_edges trefoil es) /\
    es = map (fun E => mkEdge (e_tail E) (e_tailpos E) (e_head E) (e_headpos E)) (p_edge trefoil) /\
    es <> p_edge trefoil.
Proof. split; [reflexivity|]. eexists. split; [reflexivity|]. split; [reflexivity|discriminate]. Qed.

(** A crossing table where two edges return straight across makes the function exit, although an
    orientation exists. *)
Definition two_rings : pd := mkPd 2 0 [] [] [mkCross 0 1 0 1 Unset] [] [].
Theorem regenerate_edges_across_refuted :
  each_edge_twice two_rings /\ pd_regenerate_edges two_rings = Fail /\
  ends_recorded (with_edges two_rings [mkEdge 0 0 0 2; mkEdge 0 1 0 3]) /\
  goes_through (with_edges two_rings [mkEdge 0 0 0 2; mkEdge 0 1 0 3]).
Proof.
  split; [intros [|[|e]] H; [reflexivity|reflexivity|cbn in H; lia]|]. split; [reflexivity|].
  apply (edges_ok_spec (with_edges two_rings [mkEdge 0 0 0 2; mkEdge 0 1 0 3])); [cbn; lia|reflexivity].
Qed.

(** crossing tables that meet the hypotheses *)
Example trefoil_edges_twice : each_edge_twice trefoil.
Proof. intros e H. cbn in H. do 6 (destruct e as [|e]; [reflexivity|]). lia. Qed.
Example trefoil_no_across : no_edge_across trefoil.
Proof.
  intros c p e (Hp & x & Hx & E) (_ & y & Hy & E'). rewrite Hx in Hy. injection Hy as <-.
  do 3 (destruct c as [|c]; [injection Hx as <-; do 4 (destruct p as [|p]; [cbn in E, E'; congruence|]); lia|]).
  destruct c; discriminate.
Qed.
Example curl_edges : each_edge_twice curl /\ no_edge_across curl.
Proof.
  split; [intros e H; cbn in H; do 2 (destruct e as [|e]; [reflexivity|]); lia|].
  intros c p e (Hp & x & Hx & E) (_ & y & Hy & E'). rewrite Hx in Hy. injection Hy as <-.
  destruct c as [|c]; [injection Hx as <-; do 4 (destruct p as [|p]; [cbn in E, E'; congruence|]); lia|].
  destruct c; discriminate.
Qed.

Print Assumptions regenerate_edges_correct.
Print Assumptions regenerate_edges_succeeds.
Print Assumptions regenerate_edges_forgets.
Print Assumptions regenerate_edges_orientation_refuted.
Print Assumptions regenerate_edges_across_refuted.
