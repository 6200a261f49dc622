(** Faces as cycles of places. *)
From Coq Require Import List ZArith Lia Bool Arith Permutation Relations.
From Verif Require Import Base Iterators ListAux Pd PdSpec PdProofs Relabel RelabelProofs Strands CycleSurgery PdFaces PdFacesProofs LinkProofs Planar RegenSpec
  Thm_Faces PlanarProofs Thm_Planar MoveProofs DeloopSpec DeloopProofs RemoveSpec CutProofs RemoveProofs.
From Verif Require DartMap.
Import ListNotations.
Open Scope nat_scope.

Lemma ends_sym : forall d s t, ends d s t -> ends d t s.
Proof. intros d s t (e & E & HE & [(A & B)|(A & B)]); exists e, E; auto. Qed.
Lemma ends_dart : forall d s t, ends d s t <-> exists a, is_dart d a /\ dto d (flip a) = s /\ dto d a = t.
Proof.
  intros d s t. split.
  - intros (e & E & HE & [(-> & ->)|(-> & ->)]); [exists (e, Pos)|exists (e, Neg)]; (split; [split; [eapply edge_at_lt; eauto|auto]|]); unfold dto, flip; cbn [fst snd]; unfold edge_at in HE;
      rewrite HE; auto.
  - intros ((e, o) & (L & O) & <- & <-). cbn [fst snd] in *. destruct (edge_at_ex d e L) as (E & HE). exists e, E. split; auto. unfold dto, flip. cbn [fst snd].
    unfold edge_at in HE. rewrite HE. destruct O as [-> | ->]; auto.
Qed.
Section Places.
Context (d : pd) (R : ends_recorded d) (T : two_ended d).
Lemma dto_place : forall a, is_dart d a -> place d (dto d a).
Proof. intros a Ha. pose proof (dto_slot d a R Ha) as S. apply slot_lt in S. exact S. Qed.
Lemma ends_fun : forall s t u, ends d s t -> ends d s u -> t = u.
Proof.
  intros s t u H K. apply ends_dart in H, K. destruct H as (a & Da & A1 & <-). destruct K as (b & Db & B1 & <-). f_equal.
  assert (flip a = flip b) as Q by (apply (dto_inj d R T); try (apply is_dart_flip; auto); congruence). rewrite <- (flip_flip a), <- (flip_flip b). congruence.
Qed.
Lemma ends_irr : forall s, ~ ends d s s.
Proof. intros s (e & E & HE & [(A & B)|(A & B)]); apply (T e E HE); congruence. Qed.
Lemma ends_place : forall s t, ends d s t -> place d s /\ place d t.
Proof. intros s t H. apply ends_dart in H. destruct H as (a & Da & <- & <-). split; apply dto_place; auto. apply is_dart_flip; auto. Qed.
Lemma ends_total : forall s, place d s -> exists t, ends d s t /\ place d t.
Proof.
  intros (v, p) (Hv & Hp). destruct (dto_surj d v p R T Hv Hp) as (a & Da & E). exists (dto d (flip a)). split; [|apply dto_place, is_dart_flip; auto].
  apply ends_sym, ends_dart. exists a. split; auto. 
Qed.
Lemma lturn_place : forall s, place d s -> place d (lturn s).
Proof. intros (v, p) (Hv & Hp). split; auto. apply Nat.mod_upper_bound. lia. Qed.
Definition at_place (s : nat * nat) : dart := arr d (fst s) (snd s).
Lemma at_place_spec : forall s, place d s -> is_dart d (at_place s) /\ dto d (at_place s) = s.
Proof. intros (v, p) (Hv & Hp). apply (arr_spec d R T v p Hv Hp). Qed.
Lemma at_place_dto : forall a, is_dart d a -> at_place (dto d a) = a.
Proof. intros a Ha. apply (arr_dto d R T a Ha). Qed.
Lemma faces_places : forall fs, face_partition d fs -> cpart (fun s t => ends d (lturn s) t) (place d) (map (map (dto d)) fs).
Proof.
  intros fs HF. apply (cpart_map _ _ (left_turn d) _ (dto d) (is_dart d) (place d) fs HF).
  - intros a b Da Db L. apply DartMap.left_turn_dto in L. destruct L as (_ & _ & _ & E). apply ends_dart. exists b. auto.
  - intros a b. apply dto_inj; auto.
  - intro s. split; [|intros (a & Da & ->); apply dto_place; auto]. intro Hs. destruct (at_place_spec s Hs) as (D & E). exists (at_place s). auto.
Qed.
Lemma places_faces : forall L, cpart (fun s t => ends d (lturn s) t) (place d) L -> face_partition d (map (map at_place) L).
Proof.
  intros L HL. apply (cpart_map _ _ _ (left_turn d) at_place (place d) (is_dart d) L HL).
  - intros s t Ps Pt E. destruct (at_place_spec s Ps) as (D1 & E1). destruct (at_place_spec t Pt) as (D2 & E2). apply DartMap.left_turn_dto.
    split; auto. split; auto. rewrite E1. split; [apply Ps|]. apply ends_dart in E. destruct E as (b & Db & B1 & B2).
    assert (at_place t = b) as -> by (rewrite <- B2; apply at_place_dto; auto). exact B1.
  - intros s t Ps Pt E. destruct (at_place_spec s Ps) as (_ & <-). destruct (at_place_spec t Pt) as (_ & <-). congruence.
  - intro a. split; [|intros (s & Ps & ->); apply at_place_spec; auto]. intro Da. exists (dto d a). split; [apply dto_place; auto|]. symmetry. apply at_place_dto; auto.
Qed.
Lemma planar_of_count : forall fs, connected d -> face_partition d fs -> length fs = ncross d + 2 -> planar d.
Proof.
  intros fs CN FP NF. exists fs. split; auto. split; auto. apply Forall_forall. intros F HF.
  assert (CN' : connected (with_faces d fs)) by exact CN. 
  pose proof (face_edges_distinct (with_faces d fs) R T FP NF CN' F HF) as ND.
  rewrite <- (map_length fst F), <- (seq_length (nedges d) 0). apply NoDup_incl_length; auto. intros x Hx. apply in_map_iff in Hx. destruct Hx as (a & <- & Ha).
  destruct FP as (_ & _ & P3). assert (is_dart d a) as (L & _) by (apply P3, in_concat; eauto). apply in_seq. lia.
Qed.
End Places.
