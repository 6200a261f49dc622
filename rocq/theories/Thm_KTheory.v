(** C65: codes of the KnotTheory package. *)
From Coq Require Import List NArith ZArith Lia Bool Arith.
From Verif Require Import Base ListAux Iterators Pd PdSpec PdProofs PdExamples Relabel RelabelProofs RegenSpec RegenProofs Carry OverUnder OverUnderSpec OverUnderProofs Thm_OverUnder DeloopProofs Thm_Ops PdRegen
  PdCross PdOps Thm_Pd TextIO Build KTheory KTheoryText KTheorySpec KTheoryProofs KTheoryRegen.
From Coq Require String.
Import String.StringSyntax ListNotations.
Open Scope nat_scope.
Open Scope res_scope.

Lemma slot_is : forall d c p e f, slot d c p e -> slot d c p f -> e = f.
Proof. intros d c p e f (_ & x & Hx & <-) (_ & y & Hy & <-). congruence. Qed.
Lemma code_is : forall d, ends_recorded d -> goes_through d -> two_ended d -> all_signed d -> forall vs, kt_code d vs <-> vs = codes d.
Proof.
  intros d R G T AS.
  assert (CX : forall c v, c < ncross d -> kt_crossing d c v <-> v = code_at d c).
  { intros c v Hc. destruct (nth_error (p_cross d) c) as [x|] eqn:Hx; [|apply nth_error_None in Hx; unfold ncross in Hc; lia].
    assert (SA : sign_at d c (csign x)) by (exists x; auto). destruct (strand_places d R G T c _ SA) as (oi & oo & ui & uo & _ & E & OU).
    destruct (at_crossing d R G T AS c x Hx) as (E' & Lu & _). rewrite E in E'. injection E' as Eu _. rewrite <- Eu in Lu.
    assert (SL : forall p, p < 4 -> slot d c p (cedge x p)) by (intros p Hp; split; auto; exists x; auto). unfold code_at. rewrite (nth_error_nth _ _ no_cross Hx), <- Eu, Nat.add_0_r, (Nat.mod_small ui 4 Lu). split.
    - destruct v as (((i, j), k), l). intros (s & oi' & oo' & ui' & uo' & SA' & OU' & (e1 & S1 & ->) & (e2 & S2 & ->) & (e3 & S3 & ->) & (e4 & S4 & ->)).
      assert (s = csign x) by (destruct SA' as (y & Hy & <-); congruence). subst s. destruct (strand_places_unique d R T _ _ _ _ _ _ _ _ _ _ OU OU') as (_ & _ & <- & _).
      rewrite (slot_is _ _ _ _ _ S1 (SL _ Lu)), (slot_is _ _ _ _ _ S2 (SL _ (mod4_lt _))), (slot_is _ _ _ _ _ S3 (SL _ (mod4_lt _))), (slot_is _ _ _ _ _ S4 (SL _ (mod4_lt _))). reflexivity.
    - intros ->. exists (csign x), oi, oo, ui, uo. split; auto. split; auto. repeat split; eexists; (split; [apply SL; auto; apply mod4_lt|reflexivity]). }
  intros vs. split.
  - intros (L & H). apply nth_ext with (d := (0, 0, 0, 0)%N) (d' := (0, 0, 0, 0)%N).
    + unfold codes. rewrite map_length, seq_length. auto.
    + intros c Hc. destruct (nth_error vs c) as [v|] eqn:Hv; [|apply nth_error_None in Hv; lia]. rewrite (nth_error_nth _ _ _ Hv). apply H in Hv. rewrite L in Hc. apply CX in Hv; auto. rewrite Hv. symmetry.
      apply nth_error_nth. unfold codes. apply map_nth_error. rewrite (nth_error_nth' _ 0) by (rewrite seq_length; auto). rewrite seq_nth; auto.
  - intros ->. split; [unfold codes; rewrite map_length, seq_length; auto|]. intros c v Hv. change (@nth_error four (map (code_at d) (seq 0 (ncross d))) c = Some v) in Hv.
    assert (Hc : c < length (map (code_at d) (seq 0 (ncross d)))) by (apply nth_error_Some; congruence). rewrite map_length, seq_length in Hc.
    apply CX; auto. erewrite (map_nth_error (code_at d)) in Hv; [injection Hv as <-; reflexivity|]. rewrite (nth_error_nth' _ 0) by (rewrite seq_length; auto). rewrite seq_nth; auto.
Qed.

(** ** writing *)
(** Every signed diagram has exactly one code, and that code is written. *)
Theorem kt_code_written : forall d, ends_recorded d -> goes_through d -> two_ended d -> all_signed d ->
  exists vs, kt_code d vs /\ pd_write_KnotTheory d = Ok (kt_text vs) /\ forall vs', kt_code d vs' -> vs' = vs.
Proof.
  intros d R G T AS. exists (codes d). split; [apply code_is; auto|]. split; [|intros vs'; apply code_is; auto].
  destruct (Nat.eq_dec (ncross d) 0) as [Z|NZ].
  - unfold pd_write_KnotTheory, codes. rewrite Z. reflexivity.
  - apply kt_written; auto; lia.
Qed.

(** ** reading *)
(** The code of a diagram whose components all have three or more edges is read as that diagram. *)
Theorem kt_code_read : forall d vs rest, tidy d -> all_signed d -> (forall C, In C (p_comp d) -> 3 <= length (cp_edge C)) ->
  (N.of_nat (ncross d) <= 9990)%N -> ncomps d <= (ncross d + 2) / 2 + 2 -> ncomps d <= 64 -> kt_code d vs ->
  pd_read_KnotTheory (kt_text vs ++ rest) =
    Ok (Some (mkPd (ncross d + 2) 0 (p_hash d) (p_edge d) (p_cross d) (p_comp d) (p_face d)), 10 :: rest).
Proof.
  intros d vs rest TD AS L3 NB LL L64 KC. pose proof TD as [Hn _ [R G T CC NA _ _ _ _ _] _ _]. apply code_is in KC; auto. subst vs. unfold pd_read_KnotTheory.
  assert (LC : length (codes d) = ncross d) by (unfold codes; rewrite map_length, seq_length; auto).
  rewrite scan_text.
  - cbn [bind]. rewrite (built d TD AS L3 NB LL L64). reflexivity.
  - apply Forall_forall. intros v Hv. apply in_map_iff in Hv as (c & <- & Hc). apply in_seq in Hc.
    destruct (nth_error (p_cross d) c) as [x|] eqn:Hx; [|apply nth_error_None in Hx; unfold ncross in *; lia].
    assert (SL : forall p, (N.of_nat (cedge x (p mod 4) + 1) <= ulong_max)%N).
    { intros p. assert (S : slot d c (p mod 4) (cedge x (p mod 4))) by (split; [apply mod4_lt|exists x; auto]). apply (edges_small d R T) in S; auto. unfold ulong_max. lia. }
    unfold code_at. rewrite (nth_error_nth _ _ no_cross Hx). repeat split; apply SL.
  - intros Q. rewrite Q in LC. cbn in LC. lia.
  - rewrite LC. exact NB.
Qed.
(** What is written is read back as the same diagram, in a record for two more crossings, and reading stops at the end of the line. *)
Theorem kt_round_trip : forall d rest, tidy d -> all_signed d -> (forall C, In C (p_comp d) -> 3 <= length (cp_edge C)) ->
  (N.of_nat (ncross d) <= 9990)%N -> ncomps d <= (ncross d + 2) / 2 + 2 -> ncomps d <= 64 ->
  exists t, pd_write_KnotTheory d = Ok t /\
    pd_read_KnotTheory (t ++ rest) = Ok (Some (mkPd (ncross d + 2) 0 (p_hash d) (p_edge d) (p_cross d) (p_comp d) (p_face d)), 10 :: rest).
Proof.
  intros d rest TD AS L3 NB LL L64. pose proof TD as [Hn _ [R G T CC NA _ _ _ _ _] _ _].
  destruct (kt_code_written d R G T AS) as (vs & KC & E & _). exists (kt_text vs). split; auto. apply kt_code_read; auto.
Qed.
Lemma kt_build_valid : forall vs d, kt_build vs = Ok (Some d) -> pd_ok d = Ok true /\ all_signed d.
Proof.
  intros vs d B. unfold kt_build in B. apply bind_ok in B as (d0 & _ & B). apply bind_ok in B as (st & _ & B). apply bind_ok in B as (st2 & _ & B). apply bind_ok in B as (e & _ & B).
  destruct (forallb _ (p_cross e)) eqn:FB; [|discriminate B]. apply bind_ok in B as (b & OK & B). destruct b; [|discriminate B].
  apply ok_inj in B. injection B as <-. split; auto. intros c s0 (x & Hx & <-) Q. rewrite forallb_forall in FB. specialize (FB x (nth_error_In _ _ Hx)). rewrite Q in FB. discriminate FB.
Qed.
Lemma read_built : forall (sc : res (option (list four * text))) (bd : list four -> res (option pd)) d rest,
  (do o <- sc; match o with None => Ok (None, []) | Some (vs, rest) => do r <- bd vs; Ok (r, rest) end) = Ok (Some d, rest) -> exists vs, bd vs = Ok (Some d).
Proof.
  intros sc bd d rest H. apply bind_ok in H as (o & _ & H). destruct o as [(vs, r)|]; [|discriminate H]. exists vs.
  apply bind_ok in H as (o & B & H). apply ok_inj in H. apply pair_equal_spec in H as (-> & _). exact B.
Qed.
Lemma kt_read_is : forall s, pd_read_KnotTheory s = (do o <- kt_scan s; match o with None => Ok (None, []) | Some (vs, rest) => do r <- kt_build vs; Ok (r, rest) end).
Proof. intros s. unfold pd_read_KnotTheory. reflexivity. Qed.
(** Whatever text is read, a diagram that is returned passes the checks and has all its signs. *)
Theorem kt_read_valid : forall s d rest, pd_read_KnotTheory s = Ok (Some d, rest) -> pd_ok d = Ok true /\ all_signed d.
Proof. intros s d rest H. rewrite kt_read_is in H. destruct (read_built (kt_scan s) kt_build d rest H) as (vs & B). exact (kt_build_valid vs d B). Qed.

(** ** where reading goes wrong *)
(** Components of two edges are told from their surroundings by a list of cases, and the Hopf link of linking number 1 comes back as its
    mirror image of linking number -1. *)
Theorem kt_two_edges_refuted : exists d t d', pd_build_simple_chain 2 = Ok d /\ all_signed d /\ pd_write_KnotTheory d = Ok t /\
  pd_read_KnotTheory t = Ok (Some d', [10]) /\ pd_linking_number d 0 1 = Ok 1%Z /\ pd_linking_number d' 0 1 = Ok (-1)%Z.
Proof.
  do 3 eexists. split; [vm_compute; reflexivity|]. split; [|split; [vm_compute; reflexivity|split; [vm_compute; reflexivity|split; vm_compute; reflexivity]]].
  intros c s (x & Hx & <-). cbn in Hx. repeat (destruct c as [|c]; [injection Hx as <-; discriminate|cbn in Hx]). destruct c; discriminate.
Qed.
(** The code of the diagram without crossings, which is what is written for it, is not read. *)
Theorem kt_no_crossings_refuted : pd_write_KnotTheory (mkPd 2 0 [32] [] [] [] []) = Ok (kt_text []) /\ pd_read_KnotTheory (kt_text []) = Ok (None, []).
Proof. split; vm_compute; reflexivity. Qed.
(** A number that is too large makes the program write outside of the array of edges instead of rejecting the text. *)
Theorem kt_stray_number_refuted : pd_read_KnotTheory (txt "PD[X[1,8,2,2]]") = UB.
Proof. vm_compute. reflexivity. Qed.

(** ** examples *)
Example trefoil_round : exists d, pd_regenerate trefoil = Ok d /\ tidy d /\ all_signed d /\ (forall C, In C (p_comp d) -> 3 <= length (cp_edge C)) /\
  ncomps d <= (ncross d + 2) / 2 + 2 /\ pd_write_KnotTheory d = Ok (txt "PD[X[6,4,1,3],X[4,2,5,1],X[2,6,3,5]]" ++ [10]).
Proof.
  destruct tidy_example as (d & E & TD & _ & AS). exists d. split; auto. split; auto. split; auto. vm_compute in E. injection E as <-. split; [|split; [cbn; lia|vm_compute; reflexivity]].
  intros C HC. cbn in HC. repeat destruct HC as [<-|HC]; [..|destruct HC]; cbn; lia.
Qed.
(** a link of two components with four edges each *)
Example torus_round : exists d, pd_build_torus_knot 2 4 = Ok d /\ ncomps d = 2 /\ pd_linking_number d 0 1 = Ok 2%Z /\
  pd_write_KnotTheory d = Ok (txt "PD[X[5,2,6,1],X[4,5,1,8],X[2,7,3,6],X[7,4,8,3]]" ++ [10]) /\
  pd_read_KnotTheory (txt "PD[X[5,2,6,1],X[4,5,1,8],X[2,7,3,6],X[7,4,8,3]]" ++ [10; 65]) = Ok (Some (mkPd 6 0 (p_hash d) (p_edge d) (p_cross d) (p_comp d) (p_face d)), [10; 65]).
Proof. eexists. split; [vm_compute; reflexivity|]. repeat split; vm_compute; reflexivity. Qed.
(** spaces and line ends are allowed between the parts *)
Example spaced : exists d, pd_read_KnotTheory (txt " PD [ X[ 1, 5, 2, 4 ], X[3,1,4,6], X[5,3,6,2]]") = Ok (Some d, []) /\ ncross d = 3 /\ forall c s, sign_at d c s -> s = Pos.
Proof.
  eexists. split; [vm_compute; reflexivity|]. split; [reflexivity|]. intros c s (x & Hx & <-). cbn in Hx. repeat (destruct c as [|c]; [injection Hx as <-; reflexivity|cbn in Hx]). destruct c; discriminate.
Qed.

Print Assumptions kt_code_written.
Print Assumptions kt_code_read.
Print Assumptions kt_round_trip.
Print Assumptions kt_read_valid.
Print Assumptions kt_two_edges_refuted.
Print Assumptions kt_no_crossings_refuted.
Print Assumptions kt_stray_number_refuted.
