(** C54: pd_regenerate as a whole. *)
From Coq Require Import List ZArith Lia Bool Arith Permutation Sorted.
From Verif Require Import Base Iterators Sorting Pd PdSpec PdProofs Relabel RelabelProofs RelabelSym
  Strands SlotCount PdCross PdCrossProofs PdEdges PdComps PdFaces PdHash HashSpec PdRegen RegenSpec RegenProofs PdExamples
  Thm_Pd Thm_Cross Thm_Edges Thm_Comps Thm_Faces Thm_Hash.
Import ListNotations.
Open Scope nat_scope.

(** On a planar diagram with consistent edge records, some signs and room for its components,
    pd_regenerate gives the same signed and oriented diagram with crossings and edges renamed, in
    regular form.  With at most 64 components the result passes pd_ok. *)
Theorem regenerate_signed : forall d L, 0 < ncross d -> ncross d <= p_maxv d ->
  pd_edges_ok d = Ok true -> two_ended d -> signed d ->
  strand_partition d L -> length L <= MAXCOMPONENTS d -> planar d ->
  exists d' sigma rho pi, pd_regenerate d = Ok d' /\ relabelled d d' sigma rho pi /\ regular d' /\
    ncomps d' = length L /\ p_maxv d' = p_maxv d /\ p_uid d' = p_uid d /\
    (ncomps d' <= 64 -> pd_ok d' = Ok true).
Proof.
  intros d L Hn Hm HE T Sg HL LL P. pose proof (proj1 (edges_ok_spec d Hn) HE) as (R & G).
  destruct (regenerate_spec d (recorded_in_range d R)) as (d1 & num & E1 & Ed & _ & _ & _ & RL & S1).
  pose proof (rl_ncross _ _ _ _ _ RL) as N1. pose proof (rl_ends_recorded _ _ _ _ _ RL R) as R1.
  pose proof (rl_two_ended _ _ _ _ _ RL R T) as T1. pose proof (rl_goes_through _ _ _ _ _ RL R G) as G1.
  assert (HE1 : pd_edges_ok d1 = Ok true) by (apply edges_ok_spec; auto; lia).
  destruct (regenerate_rest_ok d1 (map (map (fun e => e)) L)) as (d' & s & r & q & E & RL2 & Rg & Nc & Mv & Ui & _ & _ & Ok1); auto.
  - lia.
  - rewrite N1. rewrite Ed. exact Hm.
  - eapply relabelled_strand_partition; eauto.
  - rewrite map_length. unfold MAXCOMPONENTS in *. rewrite Ed. auto.
  - eapply relabelled_planar; eauto.
  - rewrite map_length in Nc. exists d'. do 3 eexists. split; [|split; [|split; [auto|split; [auto|]]]].
    + unfold pd_regenerate. rewrite E1. cbn [bind]. unfold regenerate_edges_if_needed.
      rewrite signed_not_unset by (eapply relabelled_signed; eauto). rewrite HE1. cbn [bind]. exact E.
    + eapply rl_trans; [exact R|exact RL|exact RL2].
    + rewrite Mv, Ui. rewrite Ed. auto.
Qed.

(** When no sign is set, or there are no edge records, the edges are oriented afresh and no sign
    remains: the result is a regular form of the unsigned crossing table with some orientation. *)
Theorem regenerate_unsigned : forall d d', 0 < ncross d -> ncross d <= p_maxv d ->
  ends_in_range d -> each_edge_twice d -> no_edge_across d -> unsigned d \/ nedges d <> 2 * ncross d ->
  pd_regenerate d = Ok d' ->
  exists es sigma rho pi, relabelled (with_edges (drop_signs d) es) d' sigma rho pi /\ regular d' /\ unsigned d' /\
    p_maxv d' = p_maxv d /\ p_uid d' = p_uid d /\ (ncomps d' <= 64 -> pd_ok d' = Ok true).
Proof.
  intros d d' Hn Hm Hr H2 HA HU E.
  unfold pd_regenerate in E. apply bind_ok in E as (d1 & E1 & E).
  destruct (fresh_step d d1 Hn Hr H2 HA HU E1) as (d2 & es & s & r & q & E2 & R & G & T & S & N2 & M2 & U2 & R0 & G0 & T0 & RL).
  rewrite E2 in E. cbn [bind] in E. change (regenerate_rest d2 = Ok d') in E.
  destruct (rest_inv d2 d') as (P & L & HL & LL); auto; try lia.
  destruct (regenerate_rest_ok d2 L) as (x & s' & r' & q' & E' & RL2 & Rg & Nc & Mv & Ui & _ & _ & Ok1); auto; try lia.
  rewrite E in E'. apply ok_inj in E'. subst x.
  pose proof (rl_trans _ _ _ _ _ _ _ _ _ R0 RL RL2) as RT.
  exists es. do 3 eexists. split; [exact RT|]. split; auto. split.
  - apply (relabelled_unsigned _ _ _ _ _ RT). intros c o (x & Hx & <-). cbn in Hx. rewrite nth_error_map in Hx.
    destruct (nth_error (p_cross d) c); [|discriminate]. cbn in Hx. injection Hx as <-. reflexivity.
  - rewrite Mv, Ui. auto.
Qed.
(** It succeeds when that orientation is planar and has few enough strands. *)
Theorem regenerate_unsigned_total : forall d, 0 < ncross d -> ncross d <= p_maxv d ->
  ends_in_range d -> each_edge_twice d -> no_edge_across d -> unsigned d \/ nedges d <> 2 * ncross d ->
  (forall es, let d0 := with_edges (drop_signs d) es in
     ends_recorded d0 -> goes_through d0 -> two_ended d0 ->
     planar d0 /\ forall L, strand_partition d0 L -> length L <= MAXCOMPONENTS d) ->
  exists d', pd_regenerate d = Ok d'.
Proof.
  intros d Hn Hm Hr H2 HA HU HP.
  destruct (regenerate_spec d Hr) as (d1 & num & E1 & _).
  destruct (fresh_step d d1 Hn Hr H2 HA HU E1) as (d2 & es & s & r & q & E2 & R & G & T & S & N2 & M2 & U2 & R0 & G0 & T0 & RL).
  destruct (HP es R0 G0 T0) as (P & K).
  assert (HC : pd_cross_ok d2 = Ok true) by (apply consistent_cross_ok; auto; lia).
  assert (HE : pd_edges_ok d2 = Ok true) by (apply edges_ok_spec; auto; lia).
  destruct (strands_exist d2 ltac:(lia) ltac:(lia) HC HE) as (L & HL & _).
  destruct (rl_sym _ _ _ _ _ R0 T0 RL) as (s' & r' & q' & RS).
  destruct (regenerate_rest_ok d2 L) as (x & _ & _ & _ & E' & _); auto; try lia.
  - pose proof (K _ (relabelled_strand_partition _ _ _ _ _ RS R G L HL)) as K2. rewrite map_length in K2.
    unfold MAXCOMPONENTS in *. rewrite M2. auto.
  - eapply relabelled_planar; eauto.
  - exists x. unfold pd_regenerate. rewrite E1. cbn [bind]. rewrite E2. cbn [bind]. exact E'.
Qed.

Lemma regenerate_room : forall d d', 0 < ncross d -> ncross d <= p_maxv d ->
  pd_edges_ok d = Ok true -> two_ended d -> signed d -> pd_regenerate d = Ok d' ->
  regular d' /\ pd_regenerate_faces d' = Ok d' /\ pd_regenerate_hash d' = Ok d' /\
  ncross d' = ncross d /\ p_maxv d' = p_maxv d /\ ncomps d' <= MAXCOMPONENTS d' /\ signed d'.
Proof.
  intros d d' Hn Hm HE T Sg E. pose proof (proj1 (edges_ok_spec d Hn) HE) as (R & G).
  destruct (regenerate_spec d (recorded_in_range d R)) as (d1 & num & E1 & Ed & _ & _ & _ & RL & S1).
  pose proof (rl_ncross _ _ _ _ _ RL) as N1. pose proof (rl_ends_recorded _ _ _ _ _ RL R) as R1.
  pose proof (rl_two_ended _ _ _ _ _ RL R T) as T1. pose proof (rl_goes_through _ _ _ _ _ RL R G) as G1.
  assert (HE1 : pd_edges_ok d1 = Ok true) by (apply edges_ok_spec; auto; lia).
  assert (M1 : p_maxv d1 = p_maxv d) by (rewrite Ed; reflexivity).
  assert (Sg1 : signed d1) by (eapply relabelled_signed; eauto).
  unfold pd_regenerate in E. rewrite E1 in E. cbn [bind] in E. unfold regenerate_edges_if_needed in E.
  rewrite signed_not_unset, HE1 in E by auto. cbn [bind] in E. change (regenerate_rest d1 = Ok d') in E.
  destruct (rest_inv d1 d') as (P & L & HL & LL); auto; try lia.
  destruct (regenerate_rest_ok d1 L) as (x & s' & r' & q' & E' & RL2 & Rg & Nc & Mv & Ui & F1 & F2 & Ok1); auto; try lia.
  rewrite E in E'. apply ok_inj in E'. subst x.
  split; auto. split; auto. split; auto. split; [rewrite (rl_ncross _ _ _ _ _ RL2); auto|]. split; [congruence|].
  split; [unfold MAXCOMPONENTS in *; rewrite Nc, Mv; auto|]. eapply relabelled_signed; eauto.
Qed.
Lemma regenerate_form : forall d d', 0 < ncross d -> ncross d <= p_maxv d ->
  pd_edges_ok d = Ok true -> two_ended d -> signed d -> pd_regenerate d = Ok d' ->
  regular d' /\ pd_regenerate_faces d' = Ok d' /\ pd_regenerate_hash d' = Ok d'.
Proof. intros d d' H1 H2 H3 H4 H5 H6. destruct (regenerate_room d d' H1 H2 H3 H4 H5 H6) as (A & B & C & _). auto. Qed.

(** A second call changes nothing when some sign is set. *)
Theorem regenerate_twice : forall d d', 0 < ncross d -> ncross d <= p_maxv d ->
  pd_edges_ok d = Ok true -> two_ended d -> signed d ->
  pd_regenerate d = Ok d' -> pd_regenerate d' = Ok d'.
Proof.
  intros d d' H1 H2 H3 H4 H5 H6. destruct (regenerate_room d d' H1 H2 H3 H4 H5 H6) as (A & B & C & E & F & K & S).
  apply regenerate_fixed; auto; lia.
Qed.
(** no face of a result is longer than the number of edges *)
Lemma faces_short : forall d, 0 < ncross d -> pd_edges_ok d = Ok true -> two_ended d ->
  pd_regenerate_faces d = Ok d -> Forall (fun f => length f <= nedges d) (p_face d).
Proof.
  intros d Hn HE T HF. destruct (loop_cases d Hn HE T) as [(fs & E & _ & _ & _ & _ & B & _)|(E & _)]; [|congruence].
  rewrite HF in E. apply ok_inj in E. assert (Q := f_equal p_face E). cbn [with_faces p_face] in Q. rewrite Q. exact B.
Qed.
(** For unsigned diagrams it may: each call reverses the strand of this trefoil, so that the result
    alternates between two diagrams. *)
Definition trefoil_unsigned : pd := drop_signs trefoil.
Theorem regenerate_unsigned_twice_refuted : exists d1 d2,
  pd_regenerate trefoil_unsigned = Ok d1 /\ pd_regenerate d1 = Ok d2 /\ d2 <> d1 /\ pd_regenerate d2 = Ok d1.
Proof.
  do 2 eexists. split; [vm_compute; reflexivity|]. split; [vm_compute; reflexivity|]. split; [discriminate|].
  vm_compute. reflexivity.
Qed.

(** A chain of [n + 2] rings, each hooked into the next: two crossings for each hook. *)
Definition ring_edges (n i : nat) : nat * nat * nat * nat :=
  if i =? 0 then (0, 1, 0, 1)
  else if i =? n + 1 then (4 * i - 1, 4 * i - 1, 4 * i - 2, 4 * i - 1)
  else (4 * i - 2, 4 * i - 1, 4 * i, 4 * i + 1).
Definition hook (n i : nat) : list crossing :=
  let '(a, b, _, e) := ring_edges n i in
  let '(_, b', c', e') := ring_edges n (i + 1) in
  [mkCross b' b c' a Unset; mkCross a c' e e' Unset].
Definition chain (n : nat) : pd :=
  mkPd (2 * (n + 1)) 0 [] [] (flat_map (hook n) (seq 0 (n + 1))) [] [].
(** With 65 rings pd_regenerate makes a diagram that does not pass pd_ok: the tags, of type char,
    wrap around. *)
Theorem regenerate_many_refuted :
  each_edge_twice (chain 63) /\ no_edge_across (chain 63) /\
  exists d', pd_regenerate (chain 63) = Ok d' /\ ncomps d' = 65 /\ pd_ok d' <> Ok true.
Proof.
  assert (A : each_edge_twice (chain 63) /\ no_edge_across (chain 63)).
  { split.
  - assert (K : forallb (fun e => count_occ Nat.eq_dec (flat_map cross_edges (p_cross (chain 63))) e =? 2)
                  (seq 0 (2 * ncross (chain 63))) = true) by (vm_compute; reflexivity).
    intros e He. rewrite forallb_forall in K. apply Nat.eqb_eq, K, in_seq. lia.
  - assert (K : forallb (fun x => negb (ce0 x =? ce2 x) && negb (ce1 x =? ce3 x)) (p_cross (chain 63)) = true)
      by (vm_compute; reflexivity).
    intros c p e (Hp & x & Hx & E1) (_ & y & Hy & E2). rewrite Hx in Hy. injection Hy as <-.
    rewrite forallb_forall in K. specialize (K x (nth_error_In _ _ Hx)). apply andb_true_iff in K as (K1 & K2).
    apply negb_true_iff, Nat.eqb_neq in K1, K2. destruct x as [a b f g o]. cbn [ce0 ce1 ce2 ce3] in *.
    destruct (small4 p Hp) as [->|[->|[->| ->]]]; cbn in E1, E2; congruence. }
  split; [apply A|]. split; [apply A|].
  assert (K : bind (pd_regenerate (chain 63)) (fun d' => Ok (ncomps d')) = Ok 65) by (vm_compute; reflexivity).
  apply bind_ok in K as (d' & E & K). apply ok_inj in K. exists d'. split; auto. split; auto.
  destruct A as (A1 & A2).
  destruct (regenerate_unsigned (chain 63) d') as (es & s & r & q & RL & Rg & _); auto.
  - change (ncross (chain 63)) with 128. lia.
  - intros [|e] X H; discriminate.
  - left. intros c o (x & Hx & <-). apply nth_error_In in Hx. apply in_flat_map in Hx as (i & _ & Hx). unfold hook in Hx.
    destruct (ring_edges 63 i) as [[[a b] u] e]. destruct (ring_edges 63 (i + 1)) as [[[u' b'] c'] e'].
    destruct Hx as [<-|[<-|[]]]; reflexivity.
  - intros Q. unfold pd_ok in Q. rewrite !and_ok_true in Q.
    assert (0 < ncross d') by (rewrite (rl_ncross _ _ _ _ _ RL); change (0 < 128); lia).
    eapply (regenerate_comps_many_refuted d'); [auto| |apply Rg|rewrite K; auto|tauto]. tauto.
Qed.

(** ** Satisfiability *)
Example trefoil_signed_hyps : signed trefoil /\ planar trefoil /\ two_ended trefoil /\
  strand_partition trefoil [[0; 1; 2; 3; 4; 5]] /\ length [[0; 1; 2; 3; 4; 5]] <= MAXCOMPONENTS trefoil.
Proof.
  destruct trefoil_partition as (P & N). split; [|split; [|split; [|split]]].
  - exists 0, Pos. split; [eexists; split; reflexivity|discriminate].
  - exists (p_face trefoil). split; auto. split; auto. repeat (constructor; [cbn; lia|]). constructor.
  - apply two_ended_trefoil.
  - exact (comps_partition trefoil N).
  - cbn. lia.
Qed.
(** a trefoil with other numbers becomes the trefoil again *)
Definition trefoil_shuffled : pd := mkPd 3 0 []
  [mkEdge 1 0 0 1; mkEdge 2 1 1 2; mkEdge 0 2 2 3; mkEdge 1 1 0 0; mkEdge 2 0 1 3; mkEdge 0 3 2 2]
  [mkCross 3 0 2 5 Pos; mkCross 0 3 1 4 Pos; mkCross 4 1 5 2 Pos] [] [].
Example regenerate_shuffled : exists d', pd_regenerate trefoil_shuffled = Ok d' /\ p_cross d' = p_cross trefoil /\
  p_edge d' = p_edge trefoil /\ p_comp d' = p_comp trefoil /\ p_face d' = p_face trefoil.
Proof. eexists. split; [vm_compute; reflexivity|]. repeat split. Qed.
(** a trefoil without edge records *)
Example regenerate_bare : let d := with_edges trefoil [] in
  ends_in_range d /\ each_edge_twice d /\ no_edge_across d /\ nedges d <> 2 * ncross d /\
  exists d', pd_regenerate d = Ok d' /\ pd_ok d' = Ok true.
Proof.
  cbv zeta. split; [intros [|e] E H; discriminate|]. split; [exact trefoil_edges_twice|]. split; [exact trefoil_no_across|].
  split; [cbn; lia|]. eexists. split; [vm_compute; reflexivity|reflexivity].
Qed.
Print Assumptions regenerate_signed.
Print Assumptions regenerate_unsigned.
Print Assumptions regenerate_unsigned_total.
Print Assumptions regenerate_twice.
Print Assumptions regenerate_unsigned_twice_refuted.
Print Assumptions regenerate_many_refuted.
