(** C17, second half: regeneration of the components. *)
From Coq Require Import List ZArith Lia Bool Arith Permutation Sorted.
From Verif Require Import Base Iterators Sorting Pd PdSpec PdProofs Relabel RelabelProofs Strands SlotCount PdCross
  PdCrossProofs PdEdges PdComps PdCompsProofs PdExamples Thm_Pd Thm_Cross Thm_Edges.
Import ListNotations.
Open Scope nat_scope.

Section Comps.
Context (d : pd) (Hn : 0 < ncross d) (Hm : ncross d <= p_maxv d).
Context (HC : pd_cross_ok d = Ok true) (HE : pd_edges_ok d = Ok true).

(** The strands of such a diagram partition its edges, and all such partitions have the same
    number of strands. *)
Theorem strands_exist : exists L, strand_partition d L /\ forall M, strand_partition d M -> length M = length L.
Proof.
  destruct (regenerate_comps_cases d Hn Hm HC HE) as (L & HL & _). exists L. split; auto.
  intros M HM. apply (proj1 (edges_ok_spec d Hn)) in HE as (R & G). eapply strand_length; eauto.
Qed.

(** When there is room for the components, pd_regenerate_comps gives the same diagram with crossings
    and edges renamed (and crossings turned): the new edge numbers run consecutively along each
    component, longest component first, the components are the strands, and crossings are sorted. *)
Theorem regenerate_comps_correct : forall L, strand_partition d L -> length L <= MAXCOMPONENTS d ->
  exists d' sigma rho pi, pd_regenerate_comps d = Ok d' /\
     relabelled d d' sigma rho pi /\ crossings_sorted d' /\
     p_maxv d' = p_maxv d /\ p_uid d' = p_uid d /\ p_hash d' = p_hash d /\ p_face d' = p_face d /\
     ncomps d' = length L /\ numbered_along d' /\ tags_in_order d'.
Proof.
  intros M HM LM. destruct (regenerate_comps_cases d Hn Hm HC HE) as (L & HL & _ & K & _).
  assert (E : length M = length L) by (apply (proj1 (edges_ok_spec d Hn)) in HE as (R & G); eapply strand_length; eauto).
  destruct (K ltac:(lia)) as (d' & s & r & q & A1 & A2 & A3 & _ & A4 & A5 & A6 & A7 & A8 & A9).
  exists d', s, r, q. rewrite E. auto 12.
Qed.

(** When there is not, it writes outside the array of components. *)
Theorem regenerate_comps_overflow : forall L, strand_partition d L -> MAXCOMPONENTS d < length L ->
  pd_regenerate_comps d = UB.
Proof.
  intros M HM LM. destruct (regenerate_comps_cases d Hn Hm HC HE) as (L & HL & _ & _ & K).
  assert (E : length M = length L) by (apply (proj1 (edges_ok_spec d Hn)) in HE as (R & G); eapply strand_length; eauto).
  apply K. lia.
Qed.
End Comps.

Lemma comps_partition : forall d, numbered_along d -> strand_partition d (map cp_edge (p_comp d)).
Proof.
  intros d (A & B & _). split; [|split].
  - intros c Hc. apply in_map_iff in Hc as (x & <- & Hx). auto.
  - rewrite A. apply seq_NoDup.
  - intros e. rewrite A, in_seq. lia.
Qed.
Lemma letters_distinct : forall i j, i < 256 -> j < 256 -> letter i = letter j -> i = j.
Proof.
  intros i j Hi Hj. unfold letter. intros E.
  assert (K : ((65 + Z.of_nat i + 128) mod 256 = (65 + Z.of_nat j + 128) mod 256)%Z) by lia.
  pose proof (Z.div_mod (65 + Z.of_nat i + 128) 256 ltac:(lia)). pose proof (Z.div_mod (65 + Z.of_nat j + 128) 256 ltac:(lia)).
  pose proof (Z.mod_pos_bound (65 + Z.of_nat i + 128) 256 ltac:(lia)).
  assert ((65 + Z.of_nat i + 128) / 256 - (65 + Z.of_nat j + 128) / 256 = 0 \/ (65 + Z.of_nat i + 128) / 256 - (65 + Z.of_nat j + 128) / 256 >= 1 \/ (65 + Z.of_nat i + 128) / 256 - (65 + Z.of_nat j + 128) / 256 <= -1)%Z by lia.
  lia.
Qed.
Lemma letter_small : forall i, i < 63 -> letter i = (65 + Z.of_nat i)%Z.
Proof. intros i H. unfold letter. rewrite Z.mod_small; lia. Qed.
Lemma letter_big : forall i, 63 <= i < 128 -> (letter i < 65)%Z.
Proof.
  intros i H. unfold letter. replace (65 + Z.of_nat i + 128)%Z with (Z.of_nat i - 63 + 1 * 256)%Z by lia.
  rewrite Z.mod_add, Z.mod_small by lia. lia.
Qed.

(** With at most 64 components the result passes the crossing, edge and component checks... *)
Theorem regenerate_comps_valid : forall d d', 0 < ncross d -> two_ended d ->
  pd_regenerate_comps d = Ok d' -> ncomps d' <= 64 ->
  pd_cross_ok d' = Ok true /\ pd_edges_ok d' = Ok true /\ pd_comps_ok d' = Ok true /\ two_ended d'.
Proof.
  intros d d' Hn T E LN. pose proof E as E'. unfold pd_regenerate_comps in E'.
  destruct (Nat.leb_spec (ncross d) (p_maxv d)) as [Hm|]; [|discriminate].
  apply bind_ok in E' as (b & HC & E'). destruct b; [|discriminate].
  apply bind_ok in E' as (b & HE & E'). destruct b; [|discriminate]. clear E'.
  destruct (strands_exist d Hn Hm HC HE) as (L & HL & _).
  destruct (le_lt_dec (length L) (MAXCOMPONENTS d)) as [LL|LL].
  2:{ rewrite (regenerate_comps_overflow d Hn Hm HC HE L HL LL) in E. discriminate. }
  destruct (regenerate_comps_correct d Hn Hm HC HE L HL LL) as (d2 & s & r & q & E2 & RL & S & M1 & _ & _ & _ & NC & NA & TG).
  rewrite E2 in E. apply ok_inj in E. subst d2. pose proof (proj1 (edges_ok_spec d Hn) HE) as (R & G).
  assert (Hn' : 0 < ncross d') by (rewrite (rl_ncross _ _ _ _ _ RL); auto).
  pose proof (rl_ends_recorded _ _ _ _ _ RL R) as R'. pose proof (rl_two_ended _ _ _ _ _ RL R T) as T'.
  split; [apply consistent_cross_ok; auto|]. split; [apply edges_ok_spec; auto; split; auto; eapply rl_goes_through; eauto|].
  split; auto. destruct NA as (N1 & N2 & N3). apply comps_ok_spec; auto.
  split; [unfold MAXCOMPONENTS in *; rewrite M1; lia|]. split; auto. split; [intros c Hc; apply N2; auto|]. split.
  - apply NoDup_nth_error. intros i j Hi Hij. rewrite map_length in Hi. rewrite !nth_error_map in Hij.
    destruct (nth_error (p_comp d') i) as [x|] eqn:X; [|apply nth_error_None in X; lia].
    destruct (nth_error (p_comp d') j) as [y|] eqn:Y; [|discriminate]. cbn in Hij. injection Hij as Hij.
    rewrite (TG i x X), (TG j y Y) in Hij. unfold ncomps in LN.
    assert (j < length (p_comp d')) by (apply nth_error_Some; congruence).
    apply letters_distinct; auto; lia.
  - intros t t' Ht Ht' Lt. apply in_map_iff in Ht as (x & <- & Hx). apply in_map_iff in Ht' as (y & <- & Hy).
    apply In_nth_error in Hx as (i & X). apply In_nth_error in Hy as (j & Y). rewrite (TG i x X), (TG j y Y) in *.
    assert (i < ncomps d') by (apply nth_error_Some; unfold ncomps in *; congruence).
    assert (j < ncomps d') by (apply nth_error_Some; unfold ncomps in *; congruence).
    destruct (le_lt_dec 63 j) as [J|J].
    + assert (j = 63) by lia. subst j. exfalso. assert (letter 63 = -128)%Z as Q by reflexivity. rewrite Q in Lt.
      unfold letter in Lt. pose proof (Z.mod_pos_bound (65 + Z.of_nat i + 128) 256). lia.
    + rewrite letter_small in * by lia. lia.
Qed.

(** ... and with more than 64 it never passes the component check: the tags, of type char, wrap
    around to numbers below 'A'. *)
Theorem regenerate_comps_many_refuted : forall d, 0 < ncross d -> pd_edges_ok d = Ok true ->
  tags_in_order d -> 65 <= ncomps d -> pd_comps_ok d <> Ok true.
Proof.
  intros d Hn HE TG LN H. apply (proj1 (edges_ok_spec d Hn)) in HE as (R & _).
  apply comps_ok_spec in H; auto. destruct H as (_ & _ & _ & _ & H).
  destruct (nth_error (p_comp d) 63) as [x|] eqn:X; [|apply nth_error_None in X; unfold ncomps in LN; lia].
  destruct (nth_error (p_comp d) 64) as [y|] eqn:Y; [|apply nth_error_None in Y; unfold ncomps in LN; lia].
  specialize (H (cp_tag x) (cp_tag y)). rewrite (TG _ _ X), (TG _ _ Y) in H.
  assert (letter 63 = -128)%Z as Q by reflexivity. assert (letter 64 = -127)%Z as Q' by reflexivity. rewrite Q, Q' in H.
  assert (65 <= -127)%Z; [|lia]. apply H; try lia.
  - rewrite <- Q, <- (TG _ _ X). apply in_map. eapply nth_error_In; eauto.
  - rewrite <- Q', <- (TG _ _ Y). apply in_map. eapply nth_error_In; eauto.
Qed.

(** A diagram that is already numbered this way, with crossings in canonical form, is left alone. *)
Theorem regenerate_comps_idle : forall d, 0 < ncross d -> ncross d <= p_maxv d -> ncomps d <= MAXCOMPONENTS d ->
  pd_cross_ok d = Ok true -> pd_edges_ok d = Ok true ->
  numbered_along d -> tags_in_order d -> crossings_canonical d -> pd_regenerate_comps d = Ok d.
Proof. exact regenerate_comps_fixed. Qed.
(** Hence a second call changes nothing. *)
Theorem regenerate_comps_twice : forall d d', 0 < ncross d -> two_ended d ->
  pd_regenerate_comps d = Ok d' -> pd_regenerate_comps d' = Ok d'.
Proof.
  intros d d' Hn T E. pose proof E as E'. unfold pd_regenerate_comps in E'.
  destruct (Nat.leb_spec (ncross d) (p_maxv d)) as [Hm|]; [|discriminate].
  apply bind_ok in E' as (b & HC & E'). destruct b; [|discriminate].
  apply bind_ok in E' as (b & HE & E'). destruct b; [|discriminate]. clear E'.
  destruct (regenerate_comps_cases d Hn Hm HC HE) as (L & HL & _ & K1 & K2).
  destruct (le_lt_dec (length L) (MAXCOMPONENTS d)) as [LL|LL].
  2:{ rewrite (K2 LL) in E. discriminate. }
  destruct (K1 LL) as (d2 & s & r & q & E2 & RL & S & C & M1 & _ & _ & _ & NC & NA & TG).
  rewrite E2 in E. apply ok_inj in E. subst d2. pose proof (proj1 (edges_ok_spec d Hn) HE) as (R & G).
  assert (Hn' : 0 < ncross d') by (rewrite (rl_ncross _ _ _ _ _ RL); auto).
  pose proof (rl_ends_recorded _ _ _ _ _ RL R) as R'. pose proof (rl_two_ended _ _ _ _ _ RL R T) as T'.
  apply regenerate_comps_fixed; auto.
  - rewrite M1, (rl_ncross _ _ _ _ _ RL). auto.
  - unfold MAXCOMPONENTS in *. rewrite M1. lia.
  - apply consistent_cross_ok; auto.
  - apply edges_ok_spec; auto. split; auto. eapply rl_goes_through; eauto.
Qed.

(** Together with the previous half: from any crossing table that names each edge twice, when no
    edge returns straight across and the crossings are sorted, the two functions give a diagram
    numbered along its strands whose crossing table is the old one with edges renamed. *)
Theorem regenerate_edges_comps : forall d, 0 < ncross d -> ncross d <= p_maxv d ->
  each_edge_twice d -> no_edge_across d -> crossings_sorted d ->
  exists d1 L, pd_regenerate_edges d = Ok d1 /\ p_cross d1 = p_cross d /\ strand_partition d1 L /\
    (length L <= MAXCOMPONENTS d ->
     exists d2 sigma rho pi, pd_regenerate_comps d1 = Ok d2 /\ relabelled d1 d2 sigma rho pi /\
       numbered_along d2 /\ tags_in_order d2 /\ crossings_canonical d2 /\ pd_edges_ok d2 = Ok true).
Proof.
  intros d Hn Hm H4 NA S. destruct (regenerate_edges_succeeds d Hn H4 NA) as (es & E & R & T & G).
  exists (with_edges d es).
  assert (HE : pd_edges_ok (with_edges d es) = Ok true) by (apply edges_ok_spec; auto).
  assert (HC : pd_cross_ok (with_edges d es) = Ok true) by (apply consistent_cross_ok; auto).
  destruct (regenerate_comps_cases (with_edges d es) Hn Hm HC HE) as (L & HL & _ & K1 & K2).
  exists L. split; auto. split; auto. split; auto. intros LL.
  destruct (K1 LL) as (d2 & s & r & q & E2 & RL & S2 & C & M1 & _ & _ & _ & NC & NA' & TG).
  exists d2, s, r, q. split; auto. split; auto. split; auto. split; auto. split; auto.
  apply edges_ok_spec; [rewrite (rl_ncross _ _ _ _ _ RL); auto|]. split; [eapply rl_ends_recorded; eauto|].
  eapply rl_goes_through; eauto.
Qed.

(** five separate curls in a diagram with room for five crossings: there is room for four components *)
Definition curls5 : pd := mkPd 5 0 []
  [mkEdge 0 0 0 1; mkEdge 0 3 0 2; mkEdge 1 0 1 1; mkEdge 1 3 1 2; mkEdge 2 0 2 1; mkEdge 2 3 2 2;
   mkEdge 3 0 3 1; mkEdge 3 3 3 2; mkEdge 4 0 4 1; mkEdge 4 3 4 2]
  [mkCross 0 0 1 1 Pos; mkCross 2 2 3 3 Pos; mkCross 4 4 5 5 Pos; mkCross 6 6 7 7 Pos; mkCross 8 8 9 9 Pos] [] [].
Theorem regenerate_comps_overflow_refuted :
  pd_cross_ok curls5 = Ok true /\ pd_edges_ok curls5 = Ok true /\ ncross curls5 <= p_maxv curls5 /\
  pd_regenerate_comps curls5 = UB.
Proof. split; [reflexivity|]. split; [reflexivity|]. split; [cbn; lia|reflexivity]. Qed.

Example trefoil_strands : strand_partition trefoil [[0; 1; 2; 3; 4; 5]] /\ 1 <= MAXCOMPONENTS trefoil.
Proof.
  split; [|cbn; lia]. apply (comps_partition trefoil). split; [reflexivity|]. split.
  - intros c [<-|[]]. split; [discriminate|]. apply (comps_ok_exact trefoil); [cbn; lia|reflexivity|reflexivity|cbn; auto].
  - repeat constructor.
Qed.
(** a trefoil numbered backwards from the middle, with its crossings sorted *)
Definition backward_trefoil : pd := mkPd 3 0 []
  [mkEdge 0 0 1 0; mkEdge 1 2 2 0; mkEdge 2 2 0 1; mkEdge 0 3 1 1; mkEdge 1 3 2 3; mkEdge 2 1 0 2]
  (p_cross trefoil) [] [].
Example regenerate_comps_backward : pd_edges_ok backward_trefoil = Ok true /\ exists d',
  pd_regenerate_comps backward_trefoil = Ok d' /\ p_cross d' <> p_cross trefoil /\ map cp_edge (p_comp d') = [[0; 1; 2; 3; 4; 5]].
Proof. split; [reflexivity|]. eexists. split; [reflexivity|]. split; [discriminate|reflexivity]. Qed.
Example regenerate_comps_hopf : numbered_along hopf /\ tags_in_order hopf /\ crossings_canonical hopf /\
  pd_regenerate_comps hopf = Ok hopf.
Proof.
  split; [split; [reflexivity|split]|split; [|split; [|reflexivity]]].
  - intros c [<-|[<-|[]]]; (split; [discriminate|]); apply (comps_ok_exact hopf); try reflexivity; cbn; auto; lia.
  - constructor; [constructor; constructor|]. constructor; [|constructor]. right. split; auto. right. apply lex_here. lia.
  - intros [|[|i]] c H; cbn in H; [injection H as <-; reflexivity|injection H as <-; reflexivity|destruct i; discriminate].
  - apply (regenerate_crossings_canonical hopf hopf); [| |reflexivity].
    + apply (edges_ok_spec hopf); [cbn; lia|reflexivity].
    + intros e E H. unfold edge_at in H. do 4 (destruct e as [|e]; [injection H as <-; discriminate|]). destruct e; discriminate.
Qed.

Print Assumptions strands_exist.
Print Assumptions regenerate_comps_correct.
Print Assumptions regenerate_comps_overflow.
Print Assumptions regenerate_comps_valid.
Print Assumptions regenerate_comps_many_refuted.
Print Assumptions regenerate_comps_idle.
Print Assumptions regenerate_comps_twice.
Print Assumptions regenerate_edges_comps.
Print Assumptions regenerate_comps_overflow_refuted.
