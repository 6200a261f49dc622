(** The faces at the corners of a bigon. *)
From Coq Require Import List ZArith Lia Bool Arith Permutation Relations.
From Verif Require Import Base Iterators ListAux Pd PdSpec PdProofs Relabel RelabelProofs Strands CycleSurgery PdFaces PdFacesProofs LinkProofs Planar RegenSpec
  Thm_Faces PlanarProofs Thm_Planar MoveProofs DeloopSpec DeloopProofs DeloopComps RemoveSpec CutProofs RemoveProofs FacePlaces Exchange BigonSite Bigon Compact Deloop BigonFrame BigonJoin SplitProofs.
Import ListNotations.
Open Scope nat_scope.

Lemma last_face_none : forall e o fs i r, (forall f, In f fs -> ~ In (e, o) f) -> last_face e o i fs r = r.
Proof.
  induction fs as [|f fs IH]; intros i r H; [reflexivity|]. cbn [last_face]. assert (has_dart e o f = false) as ->.
  { unfold has_dart. destruct (existsb _ f) eqn:E; auto. apply existsb_exists in E. destruct E as ((x, y) & I & Q). cbn [fst snd] in Q.
    apply andb_true_iff in Q as (Q1 & Q2). apply Nat.eqb_eq in Q1. subst x. assert (y = o) as -> by (destruct y, o; auto; discriminate).
    exfalso. apply (H f); simpl; auto. }
  apply IH. intros; apply H; simpl; auto.
Qed.
Lemma last_face_found : forall e o fs i r, NoDup (concat fs) -> In (e, o) (concat fs) ->
  exists F f, last_face e o i fs r = Some (i + F) /\ nth_error fs F = Some f /\ In (e, o) f.
Proof.
  induction fs as [|f fs IH]; intros i r N I; [destruct I|]. cbn [concat] in N, I. cbn [last_face].
  destruct (in_dec (fun a b : dart => ltac:(repeat decide equality)) (e, o) f) as [If|Nf].
  - exists 0, f. split; [|auto]. assert (has_dart e o f = true) as ->.
    { unfold has_dart. apply existsb_exists. exists (e, o). split; auto. cbn [fst snd]. rewrite Nat.eqb_refl. destruct o; reflexivity. }
    rewrite last_face_none; [f_equal; lia|]. intros g Ig Q. destruct (SplitProofs.NoDup_app_inv _ _ _ N) as (_ & _ & D). apply (D (e, o) If). apply in_concat. eauto.
  - apply in_app_iff in I. destruct I as [I|I]; [tauto|]. destruct (IH (S i) (if has_dart e o f then Some i else r)) as (F & g & E & H & Ig); auto.
    { destruct (SplitProofs.NoDup_app_inv _ _ _ N) as (_ & N' & _). exact N'. }
    exists (S F), g. split; [rewrite E; f_equal; lia|auto].
Qed.

Section Corners.
Context (d : pd) (R : ends_recorded d) (G : goes_through d) (T : two_ended d) (FP : face_partition d (p_face d)) (NF : nfaces d = ncross d + 2) (CN : connected d) (N2 : 2 < ncross d).

(** the place [s] is one of those at which face number [F] arrives *)
Definition lies (F : nat) (s : nat * nat) : Prop := exists f, nth_error (cyc d) F = Some f /\ In s f.
Lemma lies_fun : forall F F' s, lies F s -> lies F' s -> F = F'.
Proof.
  intros F F' s (f & Hf & If) (g & Hg & Ig). destruct (cyc_part d R T FP) as (_ & N & _). exact (IsoEdges.blocks_disjoint _ (cyc d) F F' f g s N Hf Hg If Ig).
Qed.
Lemma lies_next : forall F s t, lies F s -> ends d (lturn s) t -> lies F t.
Proof. intros F s t (f & Hf & If) E. exists f. split; auto. eapply cyc_next; eauto. eapply nth_error_In; eauto. Qed.
Lemma lies_sides : forall F s t, lies F s -> lies F t -> ends d s t -> False.
Proof. intros F s t (f & Hf & If) (g & Hg & Ig) E. rewrite Hf in Hg. injection Hg as <-. apply (two_sides d R T FP NF CN f s t); auto. eapply nth_error_In; eauto. Qed.
Lemma lies_ex : forall s, place d s -> exists F, lies F s.
Proof. intros s P. destruct (cyc_in d R T FP s P) as (f & Hf & I). apply In_nth_error in Hf. destruct Hf as (F & HF). exists F, f. auto. Qed.
Lemma faces_of_edge : forall e E, edge_at d e E -> exists p n, pd_face_and_pos d e = Ok (p, n) /\ lies p (head_slot E) /\ lies n (tail_slot E).
Proof.
  intros e E HE. destruct FP as (_ & N & C). pose proof (edge_at_lt _ _ _ HE) as L. unfold pd_face_and_pos.
  destruct (last_face_found e Pos (p_face d) 0 None N) as (F & f & E1 & HF & If); [apply C; split; auto|].
  destruct (last_face_found e Neg (p_face d) 0 None N) as (F' & g & E2 & HF' & Ig); [apply C; split; auto|].
  rewrite E1, E2. cbn [Deloop.index bind]. exists F, F'. split; [reflexivity|]. unfold lies, cyc. unfold edge_at in HE. split.
  - exists (map (dto d) f). split; [apply map_nth_error; auto|]. replace (head_slot E) with (dto d (e, Pos)) by (unfold dto; cbn [fst snd]; rewrite HE; reflexivity). apply in_map. auto.
  - exists (map (dto d) g). split; [apply map_nth_error; auto|]. replace (tail_slot E) with (dto d (e, Neg)) by (unfold dto; cbn [fst snd]; rewrite HE; reflexivity). apply in_map. auto.
Qed.

Context (c0 c1 : nat) (A0 A1 B0 B1 A2 A3 B2 B3 : nat * nat) (hand : bool).
Context (A0c : fst A0 = c0) (S : if hand then site d c0 c1 A0 A1 B0 B1 A2 A3 B2 B3 else site d c0 c1 B0 B1 A0 A1 B2 B3 A2 A3).
Context (a0 a1 a2 b0 b1 b2 : nat) (EA0 EA1 EA2 EB0 EB1 EB2 : edge) (same : bool).
Context (HA0 : edge_at d a0 EA0) (HA1 : edge_at d a1 EA1) (HA2 : edge_at d a2 EA2) (HB0 : edge_at d b0 EB0) (HB1 : edge_at d b1 EB1) (HB2 : edge_at d b2 EB2).
Context (hA0 : head_slot EA0 = A0) (tA1 : tail_slot EA1 = A1) (hA1 : head_slot EA1 = A3) (tA2 : tail_slot EA2 = A2).
Context (hB0 : head_slot EB0 = if same then B0 else B2) (tB1 : tail_slot EB1 = if same then B1 else B3)
        (hB1 : head_slot EB1 = if same then B3 else B1) (tB2 : tail_slot EB2 = if same then B2 else B0).
Notation s := (st c0 c1 a0 a1 a2 b0 b1 b2).

Lemma lturn_back : forall v p n, p < 4 -> snd n < 4 -> lturn n = (v, p) -> n = (v, (p + 1) mod 4).
Proof.
  intros v p (w, q) Hp Hq E. unfold lturn in E. cbn [fst snd] in *. apply pair_eq in E as (-> & E). f_equal.
  destruct q as [|[|[|[|?]]]], p as [|[|[|[|?]]]]; cbn in *; lia.
Qed.
Lemma edge_next : forall x, nth_error (p_cross d) c0 = Some x -> cedge x ((e_headpos EA0 + 1) mod 4) = if hand then (if same then b0 else b2) else b1.
Proof.
  intros x Hx. pose proof R as (_ & Rr). destruct (Rr _ _ HA0) as (Sh & _). apply slot_lt in Sh. destruct Sh as (_ & Hp).
  assert (EQ : A0 = (c0, e_headpos EA0)) by (rewrite <- A0c, <- hA0; reflexivity).
  assert (GN : forall n, In n [A0; A1; B0; B1; A2; A3; B2; B3] -> snd n < 4) by (intros n Hn; apply (fr_gone d c0 c1 A0 A1 B0 B1 A2 A3 B2 B3 hand S n); exact Hn).
  assert (SL : forall e E n, edge_at d e E -> (head_slot E = n \/ tail_slot E = n) -> n = (c0, (e_headpos EA0 + 1) mod 4) -> cedge x ((e_headpos EA0 + 1) mod 4) = e).
  { intros e E n HE [Q|Q] ->; destruct (Rr _ _ HE) as (S1 & S2); [unfold head_slot in Q|unfold tail_slot in Q]; apply pair_eq in Q as (Q1 & Q2); rewrite Q1, Q2 in *;
      [destruct S1 as (_ & y & Hy & K)|destruct S2 as (_ & y & Hy & K)]; congruence. }
  destruct hand; pose proof (st_turn _ _ _ _ _ _ _ _ _ _ _ S) as TU.
  - assert (Q : B0 = (c0, (e_headpos EA0 + 1) mod 4)) by (apply lturn_back; auto; [apply GN; simpl; tauto|rewrite <- EQ; tauto]).
    destruct same; [apply (SL b0 EB0 B0)|apply (SL b2 EB2 B0)]; auto.
  - assert (Q : B1 = (c0, (e_headpos EA0 + 1) mod 4)) by (apply lturn_back; auto; [apply GN; simpl; tauto|rewrite <- EQ; tauto]).
    apply (SL b1 EB1 B1); auto. destruct same; auto.
Qed.

Lemma corners : exists F1 F2, bigon_corners d s = Ok (F1, F2) /\ lies F1 (if hand then B0 else A0) /\ lies F2 (if hand then A2 else B2).
Proof.
  destruct (faces_of_edge _ _ HA1) as (pA & nA & EfA & LpA & LnA). destruct (faces_of_edge _ _ HB1) as (pB & nB & EfB & LpB & LnB).
  destruct (faces_of_edge _ _ HA0) as (p0 & n0 & Ef0 & Lp0 & Ln0). destruct (faces_of_edge _ _ HA2) as (p2 & n2 & Ef2 & Lp2 & Ln2).
  destruct (fr_ne d c0 c1 A0 A1 B0 B1 A2 A3 B2 B3 hand S) as (NE & Lc0 & Lc1). destruct (nth_error (p_cross d) c0) as [x|] eqn:Hx; [|apply nth_error_None in Hx; unfold ncross in Lc0; lia].
  pose proof (edge_next x Hx) as EN. unfold bigon_corners. cbn [st Bigon.a0 Bigon.a1 Bigon.a2 Bigon.b0 Bigon.b1 Bigon.b2 s_c0 s_c1]. unfold edge_at in HA0.
  rewrite EfA, EfB. cbn [bind]. rewrite (proj2 (get_ok _ _ _ _) Hx). cbn [bind]. rewrite (proj2 (get_ok _ _ _ _) HA0). cbn [bind]. rewrite EN, Ef0, Ef2.
  rewrite hA1 in LpA. rewrite tA1 in LnA. rewrite hB1 in LpB. rewrite tB1 in LnB. rewrite hA0 in Lp0. rewrite tA2 in Ln2.
  pose proof (fr_eA d c0 c1 A0 A1 B0 B1 A2 A3 B2 B3 hand S) as eA. pose proof (fr_eB d c0 c1 A0 A1 B0 B1 A2 A3 B2 B3 hand S) as eB.
  pose proof (fr_four d c0 c1 A0 A1 B0 B1 A2 A3 B2 B3 hand S a1 a2 b1 b2 EA1 EA2 EB0 EB1 EB2 same HA1 HA2 HB1 HB2 tA1 tA2 hB0 tB1 hB1 tB2) as F4.
  pose proof (fr_four' d c0 c1 A0 A1 B0 B1 A2 A3 B2 B3 hand S a0 a1 b0 b1 EA0 EA1 EB0 EB1 EB2 same HA0 HA1 HB0 HB1 hA0 hA1 hB0 tB1 hB1 tB2) as F4'.
  rewrite !NoDup_cons_iff in F4, F4'. cbn [In] in F4, F4'.
  assert (e0 : ends d A0 (tail_slot EA0)) by (exists a0, EA0; split; auto). assert (e2 : ends d A2 (head_slot EA2)) by (exists a2, EA2; split; auto).
  destruct hand; pose proof (st_turn _ _ _ _ _ _ _ _ _ _ _ S) as (t1 & t2 & t3 & t4 & t5 & t6 & t7 & t8).
  - assert (Q : lies pA B1) by (eapply lies_next; [exact LpA|rewrite t7; apply ends_sym; exact eB]).
    exists n0, n2. split; [|split; [|exact Ln2]].
    + destruct same.
      * rewrite (lies_fun _ _ _ Q LnB), Nat.eqb_refl. cbn [orb bind]. rewrite Nat.eqb_refl. reflexivity.
      * destruct (Nat.eqb_spec pA nB) as [X|_]; [exfalso; subst nB; apply (lies_sides pA B1 B3); auto|].
        destruct (Nat.eqb_spec pB nA) as [X|_]; [exfalso; subst nA; apply (lies_sides pA A1 A3); auto; rewrite (lies_fun _ _ _ Q LpB); auto|].
        rewrite (lies_fun _ _ _ Q LpB), Nat.eqb_refl. cbn [orb bind]. rewrite Nat.eqb_refl. reflexivity.
    + assert (PB : place d B0).
      { apply ends_place in e0; auto. destruct e0 as ((P1 & P2) & _). rewrite <- t4 in P1, P2. split; [exact P1|].
        apply (fr_gone d c0 c1 A0 A1 B0 B1 A2 A3 B2 B3 true S). cbn [In]. tauto. }
      destruct (lies_ex B0 PB) as (F & LF). assert (lies F (tail_slot EA0)) as K by (eapply lies_next; [exact LF|rewrite t4; exact e0]).
      rewrite (lies_fun _ _ _ Ln0 K). exact LF.
  - exists p0, p2. split; [|split; [exact Lp0|]].
    + assert (N1 : b1 =? b0 = false) by (apply Nat.eqb_neq; intuition congruence). assert (N3 : b1 =? b2 = false) by (apply Nat.eqb_neq; intuition congruence).
      destruct same.
      * assert (Q : lies pB A1) by (eapply lies_next; [exact LpB|rewrite t7; apply ends_sym; exact eA]).
        rewrite (lies_fun _ _ _ Q LnA), Nat.eqb_refl, orb_true_r. cbn [orb bind]. rewrite N1. reflexivity.
      * assert (Q : lies nB A1) by (eapply lies_next; [exact LnB|rewrite t7; apply ends_sym; exact eA]).
        destruct (Nat.eqb_spec pA nB) as [X|_]; [exfalso; subst nB; apply (lies_sides pA A1 A3); auto|].
        destruct (Nat.eqb_spec pB nA) as [X|_]; [exfalso; subst nA; apply (lies_sides pB B1 B3); auto; rewrite <- (lies_fun _ _ _ Q LnA); auto|].
        rewrite (lies_fun _ _ _ Q LnA), Nat.eqb_refl, orb_true_r. cbn [orb bind]. rewrite N3. reflexivity.
    + assert (PB : place d B2).
      { apply ends_place in e2; auto. destruct e2 as ((P1 & P2) & _). rewrite <- t5 in P1, P2. split; [exact P1|].
        apply (fr_gone d c0 c1 A0 A1 B0 B1 A2 A3 B2 B3 false S). cbn [In]. tauto. }
      destruct (lies_ex B2 PB) as (F & LF). assert (lies F (head_slot EA2)) as K by (eapply lies_next; [exact LF|rewrite t5; exact e2]).
      rewrite (lies_fun _ _ _ Lp2 K). exact LF.
Qed.
End Corners.
