(** Properties C22 (alternation), C23 (over and under strands), C37 (linking numbers), C18 (copies). *)
From Coq Require Import List ZArith Lia Bool Arith Permutation.
From Verif Require Import Base Iterators Pd PdSpec PdProofs PdExamples Relabel RelabelProofs Strands Thm_Comps
  OverUnder OverUnderSpec OverUnderProofs AltProofs LinkProofs.
Import ListNotations.
Open Scope nat_scope.

Section Consistent.
Context (d : pd) (R : ends_recorded d) (G : goes_through d) (T : two_ended d).

(** * C23 *)

(** the places returned follow the sign convention, which determines them *)
Theorem strand_places : forall c s, sign_at d c s ->
  exists oi oo ui uo, pd_overstrand_pos d c = Ok (oi, oo) /\ pd_understrand_pos d c = Ok (ui, uo) /\
    over_under d c s oi oo ui uo.
Proof.
  intros c s (x & Hx & <-). destruct (internal_spec d R G T c x Hx) as (oi & oo & ui & uo & I & O).
  exists oi, oo, ui, uo. unfold pd_overstrand_pos, pd_understrand_pos. rewrite I. auto.
Qed.
Theorem strand_places_unique : forall c s oi oo ui uo oi' oo' ui' uo',
  over_under d c s oi oo ui uo -> over_under d c s oi' oo' ui' uo' ->
  oi = oi' /\ oo = oo' /\ ui = ui' /\ uo = uo'.
Proof. apply (overunder_unique d R T). Qed.

(** the edges returned are the four edges at the crossing, in two pairs that continue straight *)
Theorem strand_edges : forall c x, nth_error (p_cross d) c = Some x ->
  exists e f g h, pd_overstrand d c = Ok (e, f) /\ pd_understrand d c = Ok (g, h) /\
    continues d e f /\ continues d g h /\
    Permutation [e; f; g; h] [ce0 x; ce1 x; ce2 x; ce3 x] /\
    exists p q, over_at d c p /\ arrives d c p e /\ under_at d c q /\ arrives d c q g.
Proof.
  intros c x Hx. destruct (internal_spec d R G T c x Hx) as (oi & oo & ui & uo & I & O).
  unfold pd_overstrand, pd_understrand, pd_overstrand_pos, pd_understrand_pos. rewrite I. cbn [bind fst snd over_in over_out under_in under_out].
  replace (get (p_cross d) c) with (Ok x) by (symmetry; apply get_ok; auto). cbn [bind].
  destruct (over_under_range d R _ _ _ _ _ _ O) as (L1 & L2 & L3 & L4).
  pose proof (places_split d R _ _ _ _ _ _ O) as (N1 & N2 & N3 & N4 & N5 & N6 & _).
  assert (S : sign_at d c (csign x)) by (exists x; auto).
  pose proof O as ((e & Ae) & (f & Df) & (g & Ag) & (h & Dh) & E1 & E2 & _).
  assert (Q : forall p e, slot d c p e -> e = cedge x p) by (intros p y (_ & x' & Hx' & <-); congruence).
  pose proof (arrives_slot d R _ _ _ Ae) as Se. pose proof (departs_slot d R _ _ _ Df) as Sf.
  pose proof (arrives_slot d R _ _ _ Ag) as Sg. pose proof (departs_slot d R _ _ _ Dh) as Sh.
  apply Q in Se, Sf, Sg, Sh. subst e f g h.
  exists (cedge x oi), (cedge x oo), (cedge x ui), (cedge x uo). split; auto. split; auto.
  assert (CN : forall i o, o = (i + 2) mod 4 -> arrives d c i (cedge x i) -> continues d (cedge x i) (cedge x o)).
  { intros i o -> A. destruct (arrives_across d G _ _ _ A) as (y & D & CN). apply (departs_slot d R), Q in D. congruence. }
  split; [apply CN; auto|]. split; [apply CN; auto|]. split.
  - assert (PM : Permutation [oi; oo; ui; uo] [0; 1; 2; 3]).
    { apply NoDup_Permutation_bis; cbn; auto.
      - repeat constructor; cbn; intuition.
      - intros y Hy. cbn in Hy. assert (y < 4) by (intuition congruence). destruct (small4 y H) as [->|[->|[->| ->]]]; cbn; auto. }
    apply (Permutation_map (cedge x)) in PM. exact PM.
  - exists oi, ui. split; [exists (csign x), oi, oo, ui, uo; auto|]. split; auto. split; auto.
    exists (csign x), oi, oo, ui, uo; auto.
Qed.
End Consistent.

(** changing the sign of a crossing exchanges the two strands *)
Theorem crossing_change : forall d d' c x y, p_edge d' = p_edge d ->
  nth_error (p_cross d) c = Some x -> nth_error (p_cross d') c = Some y ->
  cross_edges y = cross_edges x -> csign x = Pos /\ csign y = Neg \/ csign x = Neg /\ csign y = Pos ->
  pd_overstrand d' c = pd_understrand d c /\ pd_understrand d' c = pd_overstrand d c.
Proof.
  intros d d' c x y HE Hx Hy HC HS.
  assert (CE : forall p, cedge y p = cedge x p).
  { intros p. unfold cross_edges in HC. injection HC as ? ? ? ?. destruct p as [|[|[|]]]; auto. }
  unfold pd_overstrand, pd_understrand, pd_overstrand_pos, pd_understrand_pos, pd_overunder_internal, incoming, get.
  rewrite Hx, Hy, HE. cbn [bind]. rewrite !CE.
  destruct (nth_error (p_edge d) (cedge x 0)); [|auto]. destruct (nth_error (p_edge d) (cedge x 1)); [|auto].
  cbn [bind]. destruct HS as [(-> & ->)|(-> & ->)]; destruct (_ && _), (_ && _); cbn [bind fst snd over_in over_out under_in under_out];
  rewrite !CE; auto.
Qed.

(** an invalid crossing number is not caught *)
Theorem strands_bad_index : forall d c, ncross d <= c -> pd_overstrand d c = UB /\ pd_understrand d c = UB.
Proof.
  intros d c H. unfold pd_overstrand, pd_understrand, pd_overstrand_pos, pd_understrand_pos, pd_overunder_internal, get.
  apply nth_error_None in H. rewrite H. auto.
Qed.

(** * C22 *)
Lemma signed_forallb : forall d, forallb (fun c => negb (orient_eqb (csign c) Unset)) (p_cross d) = true <-> all_signed d.
Proof.
  intros d. rewrite forallb_forall. split.
  - intros H c s (x & Hx & <-) Q. specialize (H x (nth_error_In _ _ Hx)). rewrite Q in H. discriminate.
  - intros H x Hx. apply In_nth_error in Hx as (c & Hc). specialize (H c (csign x)).
    destruct (csign x) eqn:E; auto. exfalso. apply H; [exists x; auto|auto].
Qed.

Section Components.
Context (d : pd) (R : ends_recorded d) (G : goes_through d) (T : two_ended d).
Context (P : strand_partition d (map cp_edge (p_comp d))).

Theorem is_alternating_correct : all_signed d ->
  exists b, pd_is_alternating d = Ok b /\ (b = true <-> alternates d).
Proof.
  intros A. unfold pd_is_alternating. rewrite (proj2 (signed_forallb d) A).
  set (Q := fun e => exists E, edge_at d e E /\
     (under_at d (e_tail E) (e_tailpos E) /\ over_at d (e_head E) (e_headpos E) \/
      over_at d (e_tail E) (e_tailpos E) /\ under_at d (e_head E) (e_headpos E))).
  destruct (all_ok_decides _ (edge_alternates d) Q (concat (map cp_edge (p_comp d)))) as (b & H & K).
  - intros e He. apply P in He. destruct (edge_at_ex d e He) as (E & HE).
    destruct (edge_alternates_spec d R G T e E HE) as (b & Hb & K). exists b. split; auto. rewrite K. unfold Q. split.
    + intros X. exists E. auto.
    + intros (E' & HE' & X). unfold edge_at in *. rewrite HE in HE'. injection HE' as <-. auto.
  - exists b. split; auto. rewrite K, (alternates_edges d R G T P). split.
    + intros X e E HE. destruct (X e) as (E' & HE' & Y).
      * apply P. eapply edge_at_lt; eauto.
      * unfold edge_at in *. rewrite HE in HE'. injection HE' as <-. auto.
    + intros X e He. apply P in He. destruct (edge_at_ex d e He) as (E & HE). exists E. split; auto. apply (X e E HE).
Qed.

Theorem is_alternating_unsigned : forall c, sign_at d c Unset -> pd_is_alternating d = Fail.
Proof.
  intros c S. unfold pd_is_alternating. destruct (forallb _ _) eqn:E; auto. apply signed_forallb in E.
  exfalso. apply (E c Unset); auto.
Qed.

(** an alternating component runs through an even number of edges *)
Theorem alternating_even : alternates d -> forall C, In C (p_comp d) -> Nat.even (length (cp_edge C)) = true.
Proof.
  intros A C HC. specialize (A C HC). set (l := cp_edge C) in *. destruct l as [|x0 l0] eqn:El; [reflexivity|].
  assert (NB : forall e, passes_over d e -> passes_under d e -> False).
  { intros e (E & HE & O) (E' & HE' & U). unfold edge_at in *. rewrite HE in HE'. injection HE' as <-.
    eapply (not_over_under d R T); eauto. }
  assert (D0 : forall i e, nth_error l i = Some e -> passes_over d e \/ passes_under d e).
  { intros i e He. destruct (nth_error l ((i + 1) mod length l)) as [f|] eqn:Hf.
    - unfold cyclically in A. subst l. rewrite <- El in A. destruct (A i e f He Hf) as [(? & _)|(? & _)]; auto.
    - apply nth_error_None in Hf. pose proof (Nat.mod_upper_bound (i + 1) (length l)).
      assert (length l <> 0) by (rewrite El; discriminate). lia. }
  assert (ST : forall i e f, nth_error l i = Some e -> nth_error l ((i + 1) mod length l) = Some f ->
    (passes_over d f <-> ~ passes_over d e)).
  { intros i e f He Hf. unfold cyclically in A. subst l. rewrite <- El in A. pose proof (NB e). pose proof (NB f).
    destruct (A i e f He Hf) as [(? & ?)|(? & ?)]; tauto. }
  assert (DEC : forall i e, nth_error l i = Some e -> passes_over d e \/ ~ passes_over d e).
  { intros i e He. destruct (D0 i e He); auto. right. intros O. eapply NB; eauto. }
  assert (H0 : nth_error l 0 = Some x0) by (rewrite El; reflexivity).
  assert (IT : forall i e, nth_error l i = Some e ->
    (passes_over d e <-> if Nat.even i then passes_over d x0 else ~ passes_over d x0)).
  { induction i as [|i IH]; intros e He.
    - rewrite H0 in He. injection He as <-. cbn. tauto.
    - assert (Li : S i < length l) by (apply nth_error_Some; congruence).
      destruct (nth_error l i) as [f|] eqn:Hf; [|apply nth_error_None in Hf; lia].
      specialize (IH f eq_refl). rewrite (ST i f e Hf).
      2:{ rewrite Nat.mod_small by lia. rewrite Nat.add_1_r. auto. }
      rewrite Nat.even_succ, <- Nat.negb_even. pose proof (DEC 0 x0 H0). destruct (Nat.even i); cbn; tauto. }
  rewrite <- El. assert (Ll : length l = S (length l0)) by (rewrite El; reflexivity).
  destruct (nth_error l (length l0)) as [z|] eqn:Hz; [|apply nth_error_None in Hz; lia].
  pose proof (IT _ _ Hz) as IZ. pose proof (ST _ z x0 Hz) as SZ.
  replace ((length l0 + 1) mod length l) with 0 in SZ.
  2:{ rewrite Ll, Nat.add_1_r. symmetry. apply Nat.mod_same. lia. }
  specialize (SZ H0). rewrite Ll, Nat.even_succ, <- Nat.negb_even. destruct (Nat.even (length l0)); auto.
  exfalso. pose proof (DEC 0 x0 H0). tauto.
Qed.

(** * C37 *)

Lemma sum_signs_zsum : all_signed d -> forall L, (forall c, In c L -> c < ncross d) ->
  zsum (map (fun c => lk_weight (sg d c)) L) = sum_signs d L.
Proof.
  intros A L. induction L as [|c L IH]; intros H; [reflexivity|]. cbn [map zsum fold_right sum_signs].
  fold (zsum (map (fun c => lk_weight (sg d c)) L)) (sum_signs d L). rewrite IH by (intros; apply H; cbn; auto). f_equal.
  unfold sign_of, sg. destruct (nth_error (p_cross d) c) as [x|] eqn:E.
  - rewrite (nth_error_nth _ _ _ E). assert (csign x <> Unset) by (apply (A c); exists x; auto).
    destruct (csign x); auto. congruence.
  - apply nth_error_None in E. specialize (H c). unfold ncross in H. cbn in H. lia.
Qed.
Lemma meets_lt : forall i j cr, meets d i j cr -> cr < ncross d.
Proof. intros i j cr (e & p & f & q & A & _). apply (arrives_slot d R), slot_lt in A. tauto. Qed.

(** half the sum of the signs of the crossings at which the two components meet *)
Theorem linking_number : forall i j L, all_signed d -> i < ncomps d -> j < ncomps d -> i <> j ->
  NoDup L -> (forall cr, In cr L <-> meets d i j cr) ->
  pd_linking_number d i j = Ok (Z.quot (sum_signs d L) 2).
Proof.
  intros i j L A Hi Hj N NL HL. unfold pd_linking_number.
  destruct (nth_error (p_comp d) i) as [C1|] eqn:H1; [|apply nth_error_None in H1; unfold ncomps in Hi; lia].
  destruct (nth_error (p_comp d) j) as [C2|] eqn:H2; [|apply nth_error_None in H2; unfold ncomps in Hj; lia].
  unfold get. rewrite H1, H2. cbn [bind]. rewrite (proj2 (signed_forallb d) A).
  rewrite (lk_worker_ok d R G T P _ i j L); auto. do 2 f_equal. apply sum_signs_zsum; auto.
  intros c Hc. apply HL in Hc. eapply meets_lt; eauto.
Qed.
Theorem unsigned_linking_number : forall i j L, i < ncomps d -> j < ncomps d -> i <> j ->
  NoDup L -> (forall cr, In cr L <-> meets d i j cr) ->
  pd_unsigned_linking_number d i j = Ok (Z.of_nat (length L / 2)).
Proof.
  intros i j L Hi Hj N NL HL. unfold pd_unsigned_linking_number. rewrite (lk_worker_ok d R G T P _ i j L); auto.
  f_equal. replace (zsum _) with (Z.of_nat (length L)).
  - rewrite Z.quot_div_nonneg by lia. symmetry. apply Nat2Z.inj_div.
  - clear. induction L as [|c L IH]; auto. cbn [length map zsum fold_right]. fold (zsum (map (fun _ : nat => 1%Z) L)). rewrite <- IH. lia.
Qed.
(** of a component with itself: the sum of the signs of its self-crossings *)
Theorem self_linking : forall i L, all_signed d -> i < ncomps d ->
  NoDup L -> (forall cr, In cr L <-> meets d i i cr) ->
  pd_linking_number d i i = Ok (sum_signs d L).
Proof.
  intros i L A Hi NL HL. unfold pd_linking_number.
  destruct (nth_error (p_comp d) i) as [C1|] eqn:H1; [|apply nth_error_None in H1; unfold ncomps in Hi; lia].
  unfold get. rewrite H1. cbn [bind]. rewrite (proj2 (signed_forallb d) A).
  rewrite (lk_self d R G T P _ i L); auto. f_equal. apply sum_signs_zsum; auto.
  intros c Hc. apply HL in Hc. eapply meets_lt; eauto.
Qed.

Theorem linking_symmetric : forall i j, i < ncomps d -> j < ncomps d ->
  pd_linking_number d i j = pd_linking_number d j i.
Proof.
  intros i j Hi Hj. destruct (Nat.eq_dec i j) as [->|N]; auto. unfold pd_linking_number.
  destruct (nth_error (p_comp d) i) as [C1|] eqn:H1; [|apply nth_error_None in H1; unfold ncomps in Hi; lia].
  destruct (nth_error (p_comp d) j) as [C2|] eqn:H2; [|apply nth_error_None in H2; unfold ncomps in Hj; lia].
  unfold get. rewrite H1, H2. cbn [bind]. destruct (forallb _ _); auto.
  set (L := map (hd d) (filter (otherb d j) (cp_edge C1))).
  rewrite (lk_worker_ok d R G T P _ i j L), (lk_worker_ok d R G T P _ j i L); auto.
  - eapply met_once; eauto.
  - intros cr. unfold L. rewrite (meets_in d R G T P i j C1 cr H1). split; apply meets_sym.
  - eapply met_once; eauto.
  - intros cr. apply meets_in; auto.
Qed.
End Components.

(** without signs the linking number is refused *)
Theorem linking_unsigned : forall d i j c, i < ncomps d -> j < ncomps d -> sign_at d c Unset ->
  pd_linking_number d i j = Fail.
Proof.
  intros d i j c Hi Hj S. unfold pd_linking_number.
  destruct (nth_error (p_comp d) i) as [C1|] eqn:H1; [|apply nth_error_None in H1; unfold ncomps in Hi; lia].
  destruct (nth_error (p_comp d) j) as [C2|] eqn:H2; [|apply nth_error_None in H2; unfold ncomps in Hj; lia].
  unfold get. rewrite H1, H2. cbn [bind]. destruct (forallb _ _) eqn:E; auto. apply signed_forallb in E.
  exfalso. apply (E c Unset); auto.
Qed.

(** * C18 *)

(** the copy is the same diagram with the least capacity that fits; it exists whenever there is
    room for the components and the faces *)
Theorem copy_same : forall d, 0 < ncross d -> nedges d <= 2 * ncross d + 1 ->
  (forall C, In C (p_comp d) -> cp_edge C <> []) ->
  ncomps d <= ncross d / 2 + 2 -> nfaces d <= ncross d + 2 ->
  exists a, pd_copy d = Ok a /\ p_uid a = p_uid d /\ p_hash a = p_hash d /\ p_edge a = p_edge d /\
    p_cross a = p_cross d /\ p_comp a = p_comp d /\ p_face a = p_face d /\
    p_maxv a = Nat.max 2 (ncross d).
Proof.
  intros d H0 HE HC Hc Hf. unfold pd_copy, pd_copy_newsize. destruct (Nat.eqb_spec (ncross d) 0); [lia|].
  rewrite Nat.ltb_irrefl.
  assert (M : maxverts_of (ncross d) = Nat.max 2 (ncross d)) by (unfold maxverts_of; destruct (Nat.eqb_spec (ncross d) 1); lia).
  assert (MC : map copy_comp (p_comp d) = p_comp d).
  { rewrite <- (map_id (p_comp d)) at 2. apply map_ext_in. intros [[|x l] t] HI; [|reflexivity]. exfalso. eapply HC; eauto. }
  rewrite M, MC. unfold MAXEDGES, MAXCOMPONENTS, MAXFACES. cbn [p_maxv].
  assert (ncross d / 2 <= Nat.max 2 (ncross d) / 2) by (apply Nat.div_le_mono; lia).
  destruct (Nat.leb_spec (ncross d) (Nat.max 2 (ncross d))); [|lia].
  destruct (Nat.leb_spec (nedges d) (2 * Nat.max 2 (ncross d) + 1)); [|lia].
  destruct (Nat.leb_spec (ncomps d) (Nat.max 2 (ncross d) / 2 + 2)); [|lia].
  destruct (Nat.leb_spec (nfaces d) (Nat.max 2 (ncross d) + 2)); [|lia].
  eexists. split; [reflexivity|]. cbn. auto 10.
Qed.
(** with more components than that the copy is refused, whatever the capacity of the original *)
Theorem copy_many_components : forall d, 1 < ncross d -> nedges d = 2 * ncross d ->
  ncross d / 2 + 2 < ncomps d -> pd_copy d = Fail.
Proof.
  intros d H0 HE HC. unfold pd_copy, pd_copy_newsize. destruct (Nat.eqb_spec (ncross d) 0); [lia|].
  rewrite Nat.ltb_irrefl. unfold maxverts_of. destruct (Nat.eqb_spec (ncross d) 1); [lia|].
  unfold MAXEDGES, MAXCOMPONENTS, MAXFACES. cbn [p_maxv]. rewrite Nat.leb_refl.
  destruct (Nat.leb_spec (nedges d) (2 * ncross d + 1)); [|lia].
  destruct (Nat.leb_spec (ncomps d) (ncross d / 2 + 2)); [lia|]. reflexivity.
Qed.
(** tag, uid and hash of a diagram without crossings are not copied *)
Definition unknot_B : pd := mkPd 2 17 [33] [mkEdge 0 4 0 4] [] [mkComp [0] 66%Z] [[(0, Pos)]; [(0, Neg)]].
Theorem copy_unknot_refuted : pd_ok unknot_B = Ok true /\
  exists a, pd_copy unknot_B = Ok a /\ p_uid a <> p_uid unknot_B /\ p_hash a <> p_hash unknot_B /\
    p_comp a <> p_comp unknot_B.
Proof.
  split; [reflexivity|]. eexists. split; [vm_compute; reflexivity|].
  cbn [p_uid p_hash p_comp unknot_B]. repeat split; discriminate.
Qed.
Theorem copy_no_crossings : forall d e, ncross d = 0 -> ncross e = 0 -> pd_copy d = pd_copy e.
Proof. intros d e Hd He. unfold pd_copy, pd_copy_newsize. rewrite Hd, He. reflexivity. Qed.

(** * The hypotheses can be met *)
Example trefoil_alternating : pd_is_alternating trefoil = Ok true. Proof. reflexivity. Qed.
Example hopf_linking : pd_linking_number hopf 0 1 = Ok 1%Z /\ pd_unsigned_linking_number hopf 1 0 = Ok 1%Z.
Proof. split; reflexivity. Qed.
Example trefoil_writhe : pd_linking_number trefoil 0 0 = Ok 3%Z. Proof. reflexivity. Qed.
Example trefoil_strands : pd_overstrand trefoil 0 = Ok (2, 3) /\ pd_understrand trefoil 0 = Ok (5, 0).
Proof. split; reflexivity. Qed.
Example trefoil_copy : pd_copy trefoil = Ok trefoil. Proof. reflexivity. Qed.
Lemma valid_partition : forall d, 0 < ncross d -> pd_edges_ok d = Ok true -> pd_comps_ok d = Ok true ->
  (forall C, In C (p_comp d) -> cp_edge C <> []) -> strand_partition d (map cp_edge (p_comp d)).
Proof.
  intros d Hn EO CO NE. apply edges_ok_spec in EO as (R & G); auto. apply comps_ok_spec in CO; auto.
  destruct CO as (_ & C1 & C2 & _). split; [|rewrite C1; split; [apply seq_NoDup|intros e; rewrite in_seq; lia]].
  intros c Hc. apply in_map_iff in Hc as (C & <- & HC). auto.
Qed.
Example hopf_hyps : ends_recorded hopf /\ goes_through hopf /\ two_ended hopf /\
  strand_partition hopf (map cp_edge (p_comp hopf)) /\ all_signed hopf.
Proof.
  assert (EO : pd_edges_ok hopf = Ok true) by reflexivity.
  apply edges_ok_spec in EO as (R & G); [|cbn; lia].
  split; auto. split; auto. split; [|split].
  - intros e E HE. unfold edge_at in HE. do 4 (destruct e as [|e]; [injection HE as <-; discriminate|]). destruct e; discriminate.
  - apply valid_partition; [cbn; lia|reflexivity|reflexivity|].
    intros C [<-|[<-|[]]]; discriminate.
  - intros c s (x & Hx & <-). do 2 (destruct c as [|c]; [injection Hx as <-; discriminate|]). destruct c; discriminate.
Qed.

Print Assumptions strand_places.
Print Assumptions strand_places_unique.
Print Assumptions strand_edges.
Print Assumptions crossing_change.
Print Assumptions strands_bad_index.
Print Assumptions is_alternating_correct.
Print Assumptions is_alternating_unsigned.
Print Assumptions alternating_even.
Print Assumptions linking_number.
Print Assumptions unsigned_linking_number.
Print Assumptions self_linking.
Print Assumptions linking_symmetric.
Print Assumptions linking_unsigned.
Print Assumptions copy_same.
Print Assumptions copy_many_components.
Print Assumptions copy_unknot_refuted.
Print Assumptions copy_no_crossings.
