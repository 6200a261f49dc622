(** C63: the crossing codes that are handed to the program that computes HOMFLY polynomials. *)
From Coq Require Import List NArith ZArith Lia Bool Arith.
From Verif Require Import Base ListAux Iterators Pd PdSpec PdProofs Relabel Strands PdCompsProofs Thm_Pd DeloopSpec Thm_LoopDel
  OverUnderSpec Thm_Bigon TextIO CCode CCodeSpec CCodeProofs CCodeRead CCodeCheck CCodeFaith.
Import ListNotations.
Open Scope nat_scope.

(** ** writing *)
(** Every signed diagram has exactly one crossing code, and that code is written. *)
Theorem ccode_written : forall d, ends_recorded d -> goes_through d -> two_ended d -> all_signed d ->
  0 < ncross d -> (N.of_nat (ncross d) < 8388608)%N ->
  exists l, describes d l /\ pdcode_to_ccode d = Ok (code_text l) /\ forall l', describes d l' -> l' = l.
Proof.
  intros d R G T SG Hn FEW. destruct (written d R G T SG FEW Hn) as (l & D & E). exists l. split; auto. split; auto.
  intros l' D'. eapply describes_fun; eauto.
Qed.
(** Two diagrams have the same code exactly when they differ only in the names of their edges and in the places where
    their crossings start. *)
Theorem ccode_faithful : forall d d', ends_recorded d -> goes_through d -> two_ended d -> all_signed d ->
  ends_recorded d' -> goes_through d' -> two_ended d' -> all_signed d' ->
  0 < ncross d -> 0 < ncross d' -> (N.of_nat (ncross d) < 8388608)%N -> ncross d' = ncross d ->
  (exists l, describes d l /\ describes d' l) <-> (exists rho pi, relabelled d d' (fun c => c) rho pi).
Proof.
  intros d d' R G T SG R' G' T' SG' Hn Hn' FEW EN. split.
  - intros (l & D & D'). exact (same_code_relabels d d' R G T SG R' G' T' SG' l D D').
  - intros (rho & pi & RL). destruct (written d R G T SG FEW Hn) as (l & D & E). exists l. split; auto. exact (relabels_same_code d d' R rho pi RL l D).
Qed.
(** the same for the texts *)
Theorem ccode_text_faithful : forall d d', ends_recorded d -> goes_through d -> two_ended d -> all_signed d ->
  ends_recorded d' -> goes_through d' -> two_ended d' -> all_signed d' ->
  2 <= ncross d <= XCNT -> 2 <= ncross d' <= XCNT ->
  pdcode_to_ccode d = pdcode_to_ccode d' <-> (exists rho pi, relabelled d d' (fun c => c) rho pi).
Proof.
  intros d d' R G T SG R' G' T' SG' Hn Hn'.
  assert (F : (N.of_nat (ncross d) < 8388608)%N) by (unfold XCNT in *; lia).
  assert (F' : (N.of_nat (ncross d') < 8388608)%N) by (unfold XCNT in *; lia).
  destruct (written d R G T SG F ltac:(lia)) as (l & D & E). destruct (written d' R' G' T' SG' F' ltac:(lia)) as (l' & D' & E'). split.
  - intros Q. rewrite E, E' in Q. injection Q as Q.
    assert (B : forall d l, ends_recorded d -> describes d l -> 2 <= ncross d <= XCNT -> lmpoly_read (code_text l) = Ok (Read (stored l))).
    { clear. intros d l R (LN & D) Hn. apply read_back; [lia|]. intros m x I. apply In_nth_error in I as (c & M). destruct (D c m M) as (_ & W). rewrite LN. eapply wired_lt; eauto. }
    pose proof (B d l R D Hn) as B1. pose proof (B d' l' R' D' Hn') as B2. rewrite Q, B2 in B1. injection B1 as B3 B4 B5.
    assert (LL : l' = l).
    { assert (L : length l' = length l) by auto. clear - L B4 B5. revert l L B4 B5. induction l' as [|m l' IH]; intros [|n l] L B4 B5; try discriminate; auto.
      cbn [map flat_map] in *. injection B4 as Q4 B4. injection L as L.
      assert (L8 : forall m, length (line_bytes m) = 8) by (intros [? [] [] [] []]; reflexivity).
      apply app_eq_app in B5 as (z & [(Z1 & Z2)|(Z1 & Z2)]);
        (assert (z = []) by (apply length_zero_iff_nil; apply (f_equal (@length nat)) in Z1; rewrite app_length, !L8 in Z1; lia); subst z; rewrite app_nil_r in Z1; cbn [app] in Z2).
      all: f_equal; [|apply IH; auto].
      all: destruct m as [s [a1 a2] [b1 b2] [c1 c2] [e1 e2]], n as [s' [a1' a2'] [b1' b2'] [c1' c2'] [e1' e2']]; cbn in Z1.
      all: unfold end_bytes in Z1; cbn in Z1.
      all: injection Z1 as A1 A2 B1 B2 C1 C2 E1 E2.
      all: destruct a2, a2'; cbn in A2; try discriminate; destruct b2, b2'; cbn in B2; try discriminate; destruct c2, c2'; cbn in C2; try discriminate; destruct e2, e2'; cbn in E2; try discriminate.
      all: destruct s, s'; cbn in Q4; try discriminate; congruence. }
    subst l'. eapply same_code_relabels; eauto.
  - intros (rho & pi & RL). pose proof (relabels_same_code d d' R rho pi RL l D) as D2.
    rewrite E, E'. do 2 f_equal. eapply describes_fun; eauto.
Qed.

(** ** reading *)
(** The code of a signed diagram with 2 to 249 crossings is read back as it was written, and the consistency check
    succeeds and counts the strands. *)
Theorem ccode_accepted : forall d L, ends_recorded d -> goes_through d -> two_ended d -> all_signed d ->
  2 <= ncross d < XCNT -> strand_partition d L ->
  exists t l k, describes d l /\ pdcode_to_ccode d = Ok t /\ lmpoly_read t = Ok (Read k) /\
    c_num k = ncross d /\
    (forall c m, nth_error l c = Some m -> sign_byte k c = Ok (if m_positive m then 6 else 2) /\
       forall x, byte k c (2 * letter_index x) = Ok (fst (m_to m x)) /\ byte k c (2 * letter_index x + 1) = Ok (2 * letter_index (snd (m_to m x)))) /\
    conchk k = Ok (1 - Z.of_nat (length L))%Z.
Proof.
  intros d L R G T SG Hn SP.
  assert (F : (N.of_nat (ncross d) < 8388608)%N) by (unfold XCNT in *; lia).
  destruct (written d R G T SG F ltac:(lia)) as (l & D & E). exists (code_text l), l, (stored l). split; auto. split; auto.
  pose proof D as (LN & DD). split; [|split; [|split]].
  - apply read_back; [lia|]. intros m x I. apply In_nth_error in I as (c & M). destruct (DD c m M) as (_ & W). rewrite LN. eapply wired_lt; eauto.
  - exact LN.
  - intros c m M. assert (Hc : c < XCNT) by (assert (c < length l) by (apply nth_error_Some; congruence); lia). split.
    + rewrite (sign_ok l c m M Hc). reflexivity.
    + intros x. destruct (bytes_ok l c m x M Hc) as (B1 & B2). split; auto. rewrite <- B2. destruct x; reflexivity.
  - apply check_ok with (d := d); auto; lia.
Qed.
(** With one crossing the answer is given at once. *)
Theorem ccode_one_crossing : forall d, ends_recorded d -> goes_through d -> two_ended d -> all_signed d -> ncross d = 1 ->
  exists t, pdcode_to_ccode d = Ok t /\ lmpoly_read t = Ok OneCrossing.
Proof.
  intros d R G T SG Hn. destruct (written d R G T SG ltac:(rewrite Hn; lia) ltac:(lia)) as (l & D & E). exists (code_text l). split; auto.
  apply read_one. destruct D. congruence.
Qed.
(** With more than 250 crossings the code is refused. *)
Theorem ccode_too_many : forall d, ends_recorded d -> goes_through d -> two_ended d -> all_signed d ->
  XCNT < ncross d -> (N.of_nat (ncross d) < 8388608)%N ->
  exists t, pdcode_to_ccode d = Ok t /\ lmpoly_read t = Ok Refused.
Proof.
  intros d R G T SG Hn F. destruct (written d R G T SG F ltac:(lia)) as (l & D & E). exists (code_text l). split; auto.
  destruct D as (LN & DD). apply refuse_many; [lia|]. intros m x I. apply In_nth_error in I as (c & M). destruct (DD c m M) as (_ & W).
  pose proof (wired_lt d R _ _ _ _ (W x)). lia.
Qed.
(** Without crossings there is no buffer to write to. *)
Theorem ccode_empty : forall d, ncross d = 0 -> pdcode_to_ccode d = UB.
Proof. intros d E. unfold pdcode_to_ccode. rewrite E. reflexivity. Qed.

(** ** with exactly 250 crossings the reader succeeds and the check writes beyond its array *)
Definition ring (n : nat) (s : orient) : pd := mkPd n 0 [32]
  (flat_map (fun i => [mkEdge i 0 ((i + n - 1) mod n) 3; mkEdge i 1 ((i + n - 1) mod n) 2]) (seq 0 n))
  (map (fun i => mkCross (2 * i) (2 * i + 1) (2 * ((i + 1) mod n) + 1) (2 * ((i + 1) mod n)) s) (seq 0 n))
  [] [].
Lemma ring_signed : forall n s, s <> Unset -> all_signed (ring n s).
Proof.
  intros n s Hs c t (x & X & <-). apply nth_error_In in X. apply in_map_iff in X as (i & <- & _). exact Hs.
Qed.
Lemma ring_two : forall n s, two_ended (ring n s).
Proof.
  intros n s e E HE. apply nth_error_In in HE. apply in_flat_map in HE as (i & _ & [<-|[<-|[]]]); discriminate.
Qed.
Theorem check_overflow_refuted :
  ~ (forall d, ends_recorded d -> goes_through d -> two_ended d -> all_signed d -> 2 <= ncross d ->
       forall t k, pdcode_to_ccode d = Ok t -> lmpoly_read t = Ok (Read k) -> exists z, conchk k = Ok z).
Proof.
  intros H. set (d := ring 250 Pos).
  assert (EO : pd_edges_ok d = Ok true) by (vm_compute; reflexivity).
  assert (NC : ncross d = 250) by (vm_compute; reflexivity).
  assert (RG : ends_recorded d /\ goes_through d) by (apply edges_ok_spec; auto; rewrite NC; lia).
  destruct RG as (R & G). assert (T : two_ended d) by apply ring_two. assert (SG : all_signed d) by (apply ring_signed; discriminate).
  assert (F : (N.of_nat (ncross d) < 8388608)%N) by (rewrite NC; lia).
  destruct (written d R G T SG F ltac:(lia)) as (l & D & E). pose proof D as (LN & DD).
  assert (B : lmpoly_read (code_text l) = Ok (Read (stored l))).
  { apply read_back; [unfold XCNT; lia|]. intros m x I. apply In_nth_error in I as (c & M). destruct (DD c m M) as (_ & W). rewrite LN. eapply wired_lt; eauto. }
  destruct (H d R G T SG ltac:(lia) _ _ E B) as (z & Q). unfold conchk in Q. change (c_num (stored l)) with (length l) in Q. rewrite LN, NC in Q. discriminate.
Qed.

(** ** the code of an unsigned diagram describes no choice of signs, and is accepted all the same *)
(** the trefoil with a loop, with any signs *)
Definition curly (s0 s1 s2 s3 : orient) : pd := mkPd 5 0 [32]
  (p_edge curly_trefoil) [mkCross 0 2 7 3 s0; mkCross 0 5 1 6 s1; mkCross 1 7 2 6 s2; mkCross 3 5 4 4 s3] (p_comp curly_trefoil) (p_face curly_trefoil).
Lemma curly_fine : forall s0 s1 s2 s3, ends_recorded (curly s0 s1 s2 s3) /\ goes_through (curly s0 s1 s2 s3) /\ two_ended (curly s0 s1 s2 s3).
Proof.
  intros s0 s1 s2 s3. assert (EO : pd_edges_ok (curly s0 s1 s2 s3) = Ok true) by reflexivity.
  apply edges_ok_spec in EO; [|cbn; lia]. destruct EO as (R & G). split; auto. split; auto.
  intros e E HE. unfold edge_at in HE. do 8 (destruct e as [|e]; [injection HE as <-; discriminate|]). destruct e; discriminate.
Qed.
Theorem ccode_unsigned_refuted :
  pd_ok (curly Unset Unset Unset Unset) = Ok true /\
  exists t k z, pdcode_to_ccode (curly Unset Unset Unset Unset) = Ok t /\
    (forall s0 s1 s2 s3 l, describes (curly s0 s1 s2 s3) l -> t <> code_text l) /\
    lmpoly_read t = Ok (Read k) /\ conchk k = Ok z.
Proof.
  split; [reflexivity|]. eexists. eexists. eexists. split; [vm_compute; reflexivity|]. split; [|split; [vm_compute; reflexivity|vm_compute; reflexivity]].
  intros s0 s1 s2 s3 l D Q. destruct (curly_fine s0 s1 s2 s3) as (R & G & T).
  assert (SN : forall c s, sign_at (curly s0 s1 s2 s3) c s -> s <> Unset).
  { intros c s (x & X & S). assert (Hc : c < ncross (curly s0 s1 s2 s3)) by (unfold ncross; apply nth_error_Some; congruence).
    destruct (line_of _ l D c Hc) as (m & _ & (x' & X' & S') & _). assert (x' = x) by congruence. subst x'. rewrite <- S, S'. destruct (m_positive m); discriminate. }
  assert (F : (N.of_nat (ncross (curly s0 s1 s2 s3)) < 8388608)%N) by (cbn; lia).
  destruct (written _ R G T SN F ltac:(cbn; lia)) as (l' & D' & E).
  assert (l' = l) by (eapply describes_fun; eauto). subst l'. rewrite <- Q in E. clear Q D D'.
  assert (S0 : s0 <> Unset) by (apply (SN 0); eexists; split; reflexivity).
  assert (S1 : s1 <> Unset) by (apply (SN 1); eexists; split; reflexivity).
  assert (S2 : s2 <> Unset) by (apply (SN 2); eexists; split; reflexivity).
  assert (S3 : s3 <> Unset) by (apply (SN 3); eexists; split; reflexivity).
  destruct s0, s1, s2, s3; try congruence; vm_compute in E; discriminate.
Qed.

(** ** a concrete case *)
Example three_code : exists l, describes (three Pos Pos Pos) l /\ pdcode_to_ccode (three Pos Pos Pos) = Ok (code_text l) /\
  exists k, lmpoly_read (code_text l) = Ok (Read k) /\ conchk k = Ok 0%Z.
Proof.
  destruct (Thm_Bigon.three_workable Pos Pos Pos) as [_ _ R G T (CE & _) _ _ _ _ _]. 
  assert (SG : all_signed (three Pos Pos Pos)).
  { intros c s (x & X & <-). do 3 (destruct c as [|c]; [injection X as <-; discriminate|]). destruct c; discriminate. }
  destruct (ccode_written _ R G T SG ltac:(cbn; lia) ltac:(cbn; lia)) as (l & D & E & _). exists l. split; auto. split; auto.
  clear D. generalize dependent (code_text l). intros t E. vm_compute in E. apply ok_inj in E. subst t. eexists. split; vm_compute; reflexivity.
Qed.

Print Assumptions ccode_written.
Print Assumptions ccode_faithful.
Print Assumptions ccode_text_faithful.
Print Assumptions ccode_accepted.
Print Assumptions ccode_one_crossing.
Print Assumptions ccode_too_many.
Print Assumptions ccode_empty.
Print Assumptions check_overflow_refuted.
Print Assumptions ccode_unsigned_refuted.
