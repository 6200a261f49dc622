(** The six edges at a bigon, and what the move does with them. *)
From Coq Require Import List ZArith Lia Bool Arith Permutation Relations.
From Verif Require Import Base Iterators ListAux Pd PdSpec PdProofs Relabel RelabelProofs Strands CycleSurgery PdFaces PdFacesProofs LinkProofs Planar RegenSpec
  Thm_Faces PlanarProofs Thm_Planar MoveProofs DeloopSpec DeloopProofs DeloopComps RemoveSpec CutProofs RemoveProofs FacePlaces Exchange BigonSite Bigon Compact Thm_Compact.
Import ListNotations.
Open Scope nat_scope.

Section Frame.
Context (d : pd) (R : ends_recorded d) (G : goes_through d) (T : two_ended d) (FP : face_partition d (p_face d)) (NF : nfaces d = ncross d + 2) (CN : connected d) (N2 : 2 < ncross d).
Context (c0 c1 : nat) (A0 A1 B0 B1 A2 A3 B2 B3 : nat * nat) (hand : bool).
Context (S : if hand then site d c0 c1 A0 A1 B0 B1 A2 A3 B2 B3 else site d c0 c1 B0 B1 A0 A1 B2 B3 A2 A3).
Notation eight := [A0; A1; B0; B1; A2; A3; B2; B3].
Notation eight' := [B0; B1; A0; A1; B2; B3; A2; A3].
Ltac here := cbn [In]; tauto.

Lemma fr_perm : Permutation eight' eight.
Proof.
  change (Permutation (([B0; B1] ++ [A0; A1]) ++ ([B2; B3] ++ [A2; A3])) (([A0; A1] ++ [B0; B1]) ++ ([A2; A3] ++ [B2; B3]))).
  apply Permutation_app; apply Permutation_app_comm.
Qed.
Lemma fr_ne : c0 <> c1 /\ c0 < ncross d /\ c1 < ncross d.
Proof. destruct hand; destruct (st_lt _ _ _ _ _ _ _ _ _ _ _ S); pose proof (st_ne _ _ _ _ _ _ _ _ _ _ _ S); auto. Qed.
Lemma fr_gone : forall s, In s eight <-> In (fst s) [c0; c1] /\ snd s < 4.
Proof.
  intro s. destruct hand; [apply (st_gone _ _ _ _ _ _ _ _ _ _ _ S)|]. rewrite <- (st_gone _ _ _ _ _ _ _ _ _ _ _ S). here.
Qed.
Lemma fr_nodup : NoDup eight.
Proof. destruct hand; pose proof (st_nodup _ _ _ _ _ _ _ _ _ _ _ S) as N; auto. eapply Permutation_NoDup; [apply fr_perm|exact N]. Qed.
Lemma fr_opp : opposite A0 = A1 /\ opposite A1 = A0 /\ opposite B0 = B1 /\ opposite B1 = B0 /\ opposite A2 = A3 /\ opposite A3 = A2 /\ opposite B2 = B3 /\ opposite B3 = B2.
Proof. destruct hand; pose proof (st_opp _ _ _ _ _ _ _ _ _ _ _ S); tauto. Qed.
Lemma fr_eA : ends d A1 A3.
Proof. destruct hand; [apply (st_eA _ _ _ _ _ _ _ _ _ _ _ S)|apply (st_eB _ _ _ _ _ _ _ _ _ _ _ S)]. Qed.
Lemma fr_eB : ends d B1 B3.
Proof. destruct hand; [apply (st_eB _ _ _ _ _ _ _ _ _ _ _ S)|apply (st_eA _ _ _ _ _ _ _ _ _ _ _ S)]. Qed.
Context (corner : forall f, In f (cyc d) -> In (if hand then B0 else A0) f -> In (if hand then A2 else B2) f -> False).
Lemma fr_corner : if hand then forall f, In f (cyc d) -> In B0 f -> In A2 f -> False else forall f, In f (cyc d) -> In A0 f -> In B2 f -> False.
Proof. destruct hand; exact corner. Qed.
Lemma fr_outer : forall s t, In s [A0; B0; A2; B2] -> ends d s t -> In (fst t) [c0; c1] ->
  s = A0 /\ t = B0 \/ s = B0 /\ t = A0 \/ s = A2 /\ t = B2 \/ s = B2 /\ t = A2.
Proof.
  intros s t Hs E Ht. destruct hand.
  - eapply (outer_end d R T FP NF CN _ _ _ _ _ _ _ _ _ _ S); eauto.
  - destruct (outer_end d R T FP NF CN _ _ _ _ _ _ _ _ _ _ S corner s t) as [Q|[Q|[Q|Q]]]; auto; cbn [In] in *; tauto.
Qed.
Lemma fr_not_both : ends d A0 B0 -> ends d A2 B2 -> False.
Proof.
  intros E1 E2. destruct hand.
  - eapply (not_both d R T NF CN N2 _ _ _ _ _ _ _ _ _ _ S); eauto.
  - eapply (not_both d R T NF CN N2 _ _ _ _ _ _ _ _ _ _ S); eauto; apply ends_sym; auto.
Qed.
Lemma fr_connected : forall o kc ke, crossings_removed d o [c0; c1] kc (fun _ => 0) ke -> ends_recorded o ->
  (forall w, w < ncross o -> exists v, v < ncross d /\ ~ In v [c0; c1] /\ kc v = w) -> connected o.
Proof. intros o kc ke H Ro ON. destruct hand; eapply (site_connected d R T FP NF CN N2 _ _ _ _ _ _ _ _ _ _ S corner); eauto. Qed.
Lemma fr_planar : forall o kc, ends_recorded o -> two_ended o -> connected o -> ncross d = ncross o + 2 ->
  (forall L, cpart (fun s t => pruns d [c0; c1] (lturn s) t) (fun s => place d s /\ ~ In (fst s) [c0; c1]) L -> cpart (fun s t => ends o (lturn s) t) (place o) (map (map (pmap kc)) L)) -> planar o.
Proof. intros o kc Ro To Co NC RC. destruct hand; eapply (site_planar d R T FP NF CN N2 _ _ _ _ _ _ _ _ _ _ S corner); eauto. Qed.

(** ** the edges *)
Context (a0 a1 a2 b0 b1 b2 : nat) (EA0 EA1 EA2 EB0 EB1 EB2 : edge) (same : bool).
Context (HA0 : edge_at d a0 EA0) (HA1 : edge_at d a1 EA1) (HA2 : edge_at d a2 EA2) (HB0 : edge_at d b0 EB0) (HB1 : edge_at d b1 EB1) (HB2 : edge_at d b2 EB2).
Context (hA0 : head_slot EA0 = A0) (tA1 : tail_slot EA1 = A1) (hA1 : head_slot EA1 = A3) (tA2 : tail_slot EA2 = A2).
Context (hB0 : head_slot EB0 = if same then B0 else B2) (tB1 : tail_slot EB1 = if same then B1 else B3)
        (hB1 : head_slot EB1 = if same then B3 else B1) (tB2 : tail_slot EB2 = if same then B2 else B0).

Lemma same_tail : forall x X y Y, edge_at d x X -> edge_at d y Y -> tail_slot X = tail_slot Y -> x = y.
Proof.
  intros x X y Y HX HY E. pose proof R as (_ & Rr). destruct (Rr _ _ HX) as (_ & S1). destruct (Rr _ _ HY) as (_ & S2).
  unfold tail_slot in E. apply pair_eq in E as (E1 & E2). rewrite E1, E2 in S1. exact (slot_fun _ _ _ _ _ S1 S2).
Qed.
Lemma same_head : forall x X y Y, edge_at d x X -> edge_at d y Y -> head_slot X = head_slot Y -> x = y.
Proof.
  intros x X y Y HX HY E. pose proof R as (_ & Rr). destruct (Rr _ _ HX) as (S1 & _). destruct (Rr _ _ HY) as (S2 & _).
  unfold head_slot in E. apply pair_eq in E as (E1 & E2). rewrite E1, E2 in S1. exact (slot_fun _ _ _ _ _ S1 S2).
Qed.
Ltac diff := let ND := fresh in pose proof fr_nodup as ND; rewrite !NoDup_cons_iff in ND; cbn [In] in ND; intuition congruence.
Lemma fr_tails : forall x X, edge_at d x X -> (In (e_tail X) [c0; c1] <-> In x [a1; a2; b1; b2]).
Proof.
  intros x X HX. assert (GA : forall z, In z eight -> In (fst z) [c0; c1]) by (intros z Hz; apply fr_gone; auto). split.
  - intro I. pose proof R as (_ & Rr). destruct (Rr _ _ HX) as (_ & Sx). apply slot_lt in Sx. assert (Q : In (tail_slot X) eight) by (apply fr_gone; split; [exact I|apply Sx]).
    assert (ND : forall z Z, edge_at d z Z -> head_slot Z = tail_slot X -> False) by (intros z Z HZ E; apply (slots_differ d R T x X z Z HX HZ E)).
    cbn [In] in Q |- *. destruct same; destruct Q as [Q|[Q|[Q|[Q|[Q|[Q|[Q|[Q|[]]]]]]]]];
      try (exfalso; first [apply (ND a0 EA0 HA0); congruence|apply (ND a1 EA1 HA1); congruence|apply (ND b0 EB0 HB0); congruence|apply (ND b1 EB1 HB1); congruence]);
      first [left; apply (same_tail a1 EA1 x X); auto; congruence|right; left; apply (same_tail a2 EA2 x X); auto; congruence
            |right; right; left; apply (same_tail b1 EB1 x X); auto; congruence|right; right; right; left; apply (same_tail b2 EB2 x X); auto; congruence].
  - cbn [In]. unfold edge_at in *. change (e_tail X) with (fst (tail_slot X)). intros [<-|[<-|[<-|[<-|[]]]]]; rewrite HX in *.
    + injection HA1 as <-. rewrite tA1. apply GA. here.
    + injection HA2 as <-. rewrite tA2. apply GA. here.
    + injection HB1 as <-. rewrite tB1. apply GA. destruct same; here.
    + injection HB2 as <-. rewrite tB2. apply GA. destruct same; here.
Qed.
Lemma fr_heads : forall x X, edge_at d x X -> (In (e_head X) [c0; c1] <-> In x [a0; a1; b0; b1]).
Proof.
  intros x X HX. assert (GA : forall z, In z eight -> In (fst z) [c0; c1]) by (intros z Hz; apply fr_gone; auto). split.
  - intro I. pose proof R as (_ & Rr). destruct (Rr _ _ HX) as (Sx & _). apply slot_lt in Sx. assert (Q : In (head_slot X) eight) by (apply fr_gone; split; [exact I|apply Sx]).
    assert (ND : forall z Z, edge_at d z Z -> tail_slot Z = head_slot X -> False) by (intros z Z HZ E; apply (slots_differ d R T z Z x X HZ HX); auto).
    cbn [In] in Q |- *. destruct same; destruct Q as [Q|[Q|[Q|[Q|[Q|[Q|[Q|[Q|[]]]]]]]]];
      try (exfalso; first [apply (ND a2 EA2 HA2); congruence|apply (ND a1 EA1 HA1); congruence|apply (ND b2 EB2 HB2); congruence|apply (ND b1 EB1 HB1); congruence]);
      first [left; apply (same_head a0 EA0 x X); auto; congruence|right; left; apply (same_head a1 EA1 x X); auto; congruence
            |right; right; left; apply (same_head b0 EB0 x X); auto; congruence|right; right; right; left; apply (same_head b1 EB1 x X); auto; congruence].
  - cbn [In]. unfold edge_at in *. change (e_head X) with (fst (head_slot X)). intros [<-|[<-|[<-|[<-|[]]]]]; rewrite HX in *.
    + injection HA0 as <-. rewrite hA0. apply GA. here.
    + injection HA1 as <-. rewrite hA1. apply GA. here.
    + injection HB0 as <-. rewrite hB0. apply GA. destruct same; here.
    + injection HB1 as <-. rewrite hB1. apply GA. destruct same; here.
Qed.
Lemma fr_four : NoDup [a1; a2; b1; b2].
Proof.
  assert (D : forall x X y Y, edge_at d x X -> edge_at d y Y -> tail_slot X <> tail_slot Y -> x <> y) by (intros x X y Y HX HY N ->; unfold edge_at in *; rewrite HX in HY; injection HY as <-; auto).
  rewrite !NoDup_cons_iff. cbn [In].
  assert (a1 <> a2) by (apply (D _ _ _ _ HA1 HA2); rewrite tA1, tA2; diff).
  assert (a1 <> b1) by (apply (D _ _ _ _ HA1 HB1); rewrite tA1, tB1; destruct same; diff).
  assert (a1 <> b2) by (apply (D _ _ _ _ HA1 HB2); rewrite tA1, tB2; destruct same; diff).
  assert (a2 <> b1) by (apply (D _ _ _ _ HA2 HB1); rewrite tA2, tB1; destruct same; diff).
  assert (a2 <> b2) by (apply (D _ _ _ _ HA2 HB2); rewrite tA2, tB2; destruct same; diff).
  assert (b1 <> b2) by (apply (D _ _ _ _ HB1 HB2); rewrite tB1, tB2; destruct same; diff).
  split; [intuition congruence|]. split; [intuition congruence|]. split; [intuition congruence|]. split; [tauto|constructor].
Qed.
Lemma fr_four' : NoDup [a0; a1; b0; b1].
Proof.
  assert (D : forall x X y Y, edge_at d x X -> edge_at d y Y -> head_slot X <> head_slot Y -> x <> y) by (intros x X y Y HX HY N ->; unfold edge_at in *; rewrite HX in HY; injection HY as <-; auto).
  rewrite !NoDup_cons_iff. cbn [In].
  assert (a0 <> a1) by (apply (D _ _ _ _ HA0 HA1); rewrite hA0, hA1; diff).
  assert (a0 <> b0) by (apply (D _ _ _ _ HA0 HB0); rewrite hA0, hB0; destruct same; diff).
  assert (a0 <> b1) by (apply (D _ _ _ _ HA0 HB1); rewrite hA0, hB1; destruct same; diff).
  assert (a1 <> b0) by (apply (D _ _ _ _ HA1 HB0); rewrite hA1, hB0; destruct same; diff).
  assert (a1 <> b1) by (apply (D _ _ _ _ HA1 HB1); rewrite hA1, hB1; destruct same; diff).
  assert (b0 <> b1) by (apply (D _ _ _ _ HB0 HB1); rewrite hB0, hB1; destruct same; diff).
  split; [intuition congruence|]. split; [intuition congruence|]. split; [intuition congruence|]. split; [tauto|constructor].
Qed.
Lemma slots_continue : forall x X y Y, edge_at d x X -> edge_at d y Y -> opposite (head_slot X) = tail_slot Y -> continues d x y.
Proof. intros x X y Y HX HY E. unfold opposite, head_slot, tail_slot in E. cbn [fst snd] in E. apply pair_eq in E as (E1 & E2). exists X, Y. auto. Qed.
Lemma fr_cont : continues d a0 a1 /\ continues d a1 a2 /\ continues d b0 b1 /\ continues d b1 b2.
Proof.
  destruct fr_opp as (o1 & o2 & o3 & o4 & o5 & o6 & o7 & o8). split; [|split; [|split]].
  - apply (slots_continue _ _ _ _ HA0 HA1). congruence.
  - apply (slots_continue _ _ _ _ HA1 HA2). congruence.
  - apply (slots_continue _ _ _ _ HB0 HB1). rewrite hB0, tB1. destruct same; congruence.
  - apply (slots_continue _ _ _ _ HB1 HB2). rewrite hB1, tB2. destruct same; congruence.
Qed.
(** which of the outer edges coincide *)
Lemma tail_gone_a0 : In (e_tail EA0) [c0; c1] -> a0 = b2 /\ tail_slot EA0 = B0.
Proof.
  intro I. assert (E : ends d A0 (tail_slot EA0)) by (exists a0, EA0; split; auto).
  destruct (fr_outer A0 (tail_slot EA0) ltac:(here) E I) as [(_ & Q)|[(Q & _)|[(Q & _)|(Q & _)]]]; try (exfalso; diff). split; auto.
  destruct same.
  - exfalso. apply (slots_differ d R T a0 EA0 b0 EB0 HA0 HB0). congruence.
  - apply (same_tail _ _ _ _ HA0 HB2). congruence.
Qed.
Lemma head_gone_a2 : In (e_head EA2) [c0; c1] -> a2 = b0 /\ head_slot EA2 = B2.
Proof.
  intro I. assert (E : ends d A2 (head_slot EA2)) by (exists a2, EA2; split; auto).
  destruct (fr_outer A2 (head_slot EA2) ltac:(here) E I) as [(Q & _)|[(Q & _)|[(_ & Q)|(Q & _)]]]; try (exfalso; diff). split; auto.
  destruct same.
  - exfalso. apply (slots_differ d R T b2 EB2 a2 EA2 HB2 HA2). congruence.
  - apply (same_head _ _ _ _ HA2 HB0). congruence.
Qed.
Lemma tail_gone_b0 : In (e_tail EB0) [c0; c1] -> b0 = a2.
Proof.
  intro I. assert (E : ends d (if same then B0 else B2) (tail_slot EB0)) by (exists b0, EB0; split; auto).
  destruct (fr_outer (if same then B0 else B2) (tail_slot EB0) ltac:(destruct same; here) E I) as [(Q1 & Q)|[(Q1 & Q)|[(Q1 & Q)|(Q1 & Q)]]]; destruct same; try (exfalso; diff).
  - exfalso. apply (slots_differ d R T b0 EB0 a0 EA0 HB0 HA0). congruence.
  - apply (same_tail _ _ _ _ HB0 HA2). congruence.
Qed.
Lemma head_gone_b2 : In (e_head EB2) [c0; c1] -> b2 = a0.
Proof.
  intro I. assert (E : ends d (if same then B2 else B0) (head_slot EB2)) by (exists b2, EB2; split; auto).
  destruct (fr_outer (if same then B2 else B0) (head_slot EB2) ltac:(destruct same; here) E I) as [(Q1 & Q)|[(Q1 & Q)|[(Q1 & Q)|(Q1 & Q)]]]; destruct same; try (exfalso; diff).
  - apply (same_head _ _ _ _ HB2 HA0). congruence.
  - exfalso. apply (slots_differ d R T a2 EA2 b2 EB2 HA2 HB2). congruence.
Qed.
Lemma not_both_edges : a2 = b0 -> a0 = b2 -> False.
Proof.
  intros E1 E2. assert (I2 : In (e_head EA2) [c0; c1]) by (apply (fr_heads a2 EA2 HA2); rewrite E1; here).
  assert (I0 : In (e_tail EA0) [c0; c1]) by (apply (fr_tails a0 EA0 HA0); rewrite E2; here).
  destruct (tail_gone_a0 I0) as (_ & Q0). destruct (head_gone_a2 I2) as (_ & Q2). apply fr_not_both; [exists a0, EA0|exists a2, EA2]; split; auto.
Qed.
Definition st : strands := mkStrands c0 c1 a0 a1 a2 b0 b1 b2.

(** every seam leads through the bigon; every strand that enters is sewn on *)
Ltac rec_of H := unfold edge_at in *.
Lemma in_a1 : In (e_head EA0) [c0; c1] /\ In (e_head EA1) [c0; c1] /\ In (e_head EB0) [c0; c1] /\ In (e_head EB1) [c0; c1].
Proof. split; [|split; [|split]]; [apply (fr_heads a0)|apply (fr_heads a1)|apply (fr_heads b0)|apply (fr_heads b1)]; auto; here. Qed.
Lemma lead_a : leads d [c0; c1] a0 a2 /\ leads d [c0; c1] a1 a2.
Proof.
  destruct fr_cont as (C1 & C2 & C3 & C4). destruct in_a1 as (I0 & I1 & J0 & J1). assert (K : leads d [c0; c1] a1 a2) by (eapply leads_step; eauto).
  split; auto. eapply leads_trans; [eapply leads_step; [exact HA0| |]; eauto|auto].
Qed.
Lemma lead_b : leads d [c0; c1] b0 b2 /\ leads d [c0; c1] b1 b2.
Proof.
  destruct fr_cont as (C1 & C2 & C3 & C4). destruct in_a1 as (I0 & I1 & J0 & J1). assert (K : leads d [c0; c1] b1 b2) by (eapply leads_step; eauto).
  split; auto. eapply leads_trans; [eapply leads_step; [exact HB0| |]; eauto|auto].
Qed.
Lemma fr_cases :
  (bigon_seams st = [(a0, b2)] /\ b0 = a2 /\ ~ In (e_tail EA0) [c0; c1] /\ ~ In (e_head EB2) [c0; c1]) \/
  (bigon_seams st = [(b0, a2)] /\ b2 = a0 /\ ~ In (e_tail EB0) [c0; c1] /\ ~ In (e_head EA2) [c0; c1]) \/
  (bigon_seams st = [(a0, a2); (b0, b2)] /\ ~ In (e_tail EA0) [c0; c1] /\ ~ In (e_head EA2) [c0; c1] /\ ~ In (e_tail EB0) [c0; c1] /\ ~ In (e_head EB2) [c0; c1]).
Proof.
  unfold bigon_seams, st. cbn [Bigon.a0 Bigon.a2 Bigon.b0 Bigon.b2]. destruct (Nat.eqb_spec b0 a2) as [E|E].
  - left. split; auto. split; auto. split; intro I; apply not_both_edges; auto; [apply tail_gone_a0 in I; tauto|symmetry; apply head_gone_b2; auto].
  - right. destruct (Nat.eqb_spec b2 a0) as [E'|E'].
    + left. split; auto. split; auto. split; intro I; apply E; [apply tail_gone_b0; auto|symmetry; apply head_gone_a2; auto].
    + right. split; auto. split; [intro I; apply tail_gone_a0 in I; destruct I; congruence|]. split; [intro I; apply head_gone_a2 in I; destruct I; congruence|].
      split; intro I; [apply E, tail_gone_b0; auto|apply E', head_gone_b2; auto].
Qed.
Lemma fr_SE : forall x y, In (x, y) (bigon_seams st) -> exists X Y, edge_at d x X /\ edge_at d y Y /\ ~ In (e_tail X) [c0; c1] /\ In (e_head X) [c0; c1] /\ leads d [c0; c1] x y /\ ~ In (e_head Y) [c0; c1].
Proof.
  intros x y I. destruct in_a1 as (I0 & I1 & J0 & J1). destruct lead_a as (La & _). destruct lead_b as (Lb & _).
  destruct fr_cases as [(ES & E & K1 & K2)|[(ES & E & K1 & K2)|(ES & K1 & K2 & K3 & K4)]]; rewrite ES in I; cbn [In] in I.
  - destruct I as [I|[]]. injection I as <- <-. exists EA0, EB2. repeat (split; auto). eapply leads_trans; [exact La|]. rewrite <- E. exact Lb.
  - destruct I as [I|[]]. injection I as <- <-. exists EB0, EA2. repeat (split; auto). eapply leads_trans; [exact Lb|]. rewrite E. exact La.
  - destruct I as [I|[I|[]]]; injection I as <- <-; [exists EA0, EA2|exists EB0, EB2]; repeat (split; auto).
Qed.
Lemma fr_AL : forall x X, edge_at d x X -> ~ In (e_tail X) [c0; c1] -> In (e_head X) [c0; c1] -> exists y, In (x, y) (bigon_seams st).
Proof.
  intros x X HX KX GX. apply (fr_heads x X HX) in GX. assert (KX' : ~ In x [a1; a2; b1; b2]) by (intro Q; apply KX, (fr_tails x X HX); auto). cbn [In] in GX, KX'.
  destruct fr_cases as [(-> & E & K1 & K2)|[(-> & E & K1 & K2)|(-> & K1 & K2 & K3 & K4)]]; cbn [In]; destruct GX as [<-|[<-|[<-|[<-|[]]]]];
    first [eexists; left; reflexivity|eexists; right; left; reflexivity|exfalso; intuition congruence].
Qed.
Lemma fr_AB : forall y Y, edge_at d y Y -> In (e_tail Y) [c0; c1] -> ~ In (e_head Y) [c0; c1] -> exists x, In (x, y) (bigon_seams st).
Proof.
  intros x X HX GX KX. apply (fr_tails x X HX) in GX. assert (KX' : ~ In x [a0; a1; b0; b1]) by (intro Q; apply KX, (fr_heads x X HX); auto). cbn [In] in GX, KX'.
  destruct fr_cases as [(-> & E & K1 & K2)|[(-> & E & K1 & K2)|(-> & K1 & K2 & K3 & K4)]]; cbn [In]; destruct GX as [<-|[<-|[<-|[<-|[]]]]];
    first [eexists; left; reflexivity|eexists; right; left; reflexivity|exfalso; intuition congruence].
Qed.
Lemma fr_N : NoDup (map fst (bigon_seams st)) /\ NoDup (map snd (bigon_seams st)).
Proof.
  pose proof fr_four as N. pose proof fr_four' as N'. rewrite !NoDup_cons_iff in N, N'. cbn [In] in N, N'.
  destruct fr_cases as [(-> & _)|[(-> & _)|(-> & _)]]; cbn [map fst snd]; rewrite !NoDup_cons_iff; cbn [In]; repeat split; try constructor; intuition congruence.
Qed.
Lemma fr_LF : forall x y y' Y Y', leads d [c0; c1] x y -> leads d [c0; c1] x y' -> edge_at d y Y -> edge_at d y' Y' -> ~ In (e_head Y) [c0; c1] -> ~ In (e_head Y') [c0; c1] -> y = y'.
Proof. intros. eapply leads_end; eauto. Qed.
Lemma fr_BK : forall y Y, edge_at d y Y -> ~ In (e_head Y) [c0; c1] -> exists x X, edge_at d x X /\ ~ In (e_tail X) [c0; c1] /\ leads d [c0; c1] x y.
Proof.
  intros y Y HY KY. destruct (in_dec Nat.eq_dec (e_tail Y) [c0; c1]) as [I|N].
  - destruct (fr_AB y Y HY I KY) as (x & Ix). destruct (fr_SE x y Ix) as (X & Y' & HX & _ & KX & _ & L & _). eauto.
  - exists y, Y. split; auto. split; auto. apply leads_here.
Qed.
Lemma fr_SV : forall x X, edge_at d x X -> In (e_tail X) [c0; c1] -> exists z Z, leads d [c0; c1] x z /\ edge_at d z Z /\ ~ In (e_head Z) [c0; c1].
Proof.
  intros x X HX GX. apply (fr_tails x X HX) in GX. destruct lead_a as (La & La'). destruct lead_b as (Lb & Lb').
  assert (EX : exists z Z, (forall x, x = a2 -> leads d [c0; c1] x z) /\ edge_at d z Z /\ ~ In (e_head Z) [c0; c1]).
  { destruct fr_cases as [(_ & E & K1 & K2)|[(_ & E & K1 & K2)|(_ & K1 & K2 & K3 & K4)]].
    - exists b2, EB2. split; auto. intros ? ->. rewrite <- E. exact Lb.
    - exists a2, EA2. split; auto. intros ? ->. apply leads_here.
    - exists a2, EA2. split; auto. intros ? ->. apply leads_here. }
  assert (EX' : exists z Z, (forall x, x = b2 -> leads d [c0; c1] x z) /\ edge_at d z Z /\ ~ In (e_head Z) [c0; c1]).
  { destruct fr_cases as [(_ & E & K1 & K2)|[(_ & E & K1 & K2)|(_ & K1 & K2 & K3 & K4)]].
    - exists b2, EB2. split; auto. intros ? ->. apply leads_here.
    - exists a2, EA2. split; auto. intros ? ->. rewrite E. exact La.
    - exists b2, EB2. split; auto. intros ? ->. apply leads_here. }
  destruct EX as (z & Z & L1 & HZ & KZ). destruct EX' as (w & W & L2 & HW & KW). cbn [In] in GX. destruct GX as [<-|[<-|[<-|[<-|[]]]]].
  - exists z, Z. split; auto. eapply leads_trans; [exact La'|auto].
  - exists z, Z. auto.
  - exists w, W. split; auto. eapply leads_trans; [exact Lb'|auto].
  - exists w, W. auto.
Qed.

(** the cut *)
Lemma fr_cut : exists o tbl kc ke, cut_out d [c0; c1] [a1; a2; b1; b2] (bigon_seams st) = Ok (o, tbl) /\ crossings_removed d o [c0; c1] kc (fun _ => 0) ke /\
  length tbl = nedges d /\ (forall x, x < nedges d -> nth x tbl None = if in_dec Nat.eq_dec x [a1; a2; b1; b2] then None else Some (ke x)) /\ p_maxv o = p_maxv d /\
  ends_recorded o /\ two_ended o /\ goes_through o /\ connected o /\ planar o /\
  (forall L, strand_partition d L -> strand_partition o (map (fun l => map ke (filter (stays [a1; a2; b1; b2]) l)) L)).
Proof.
  destruct fr_ne as (NE & L0 & L1). destruct fr_N as (NN1 & NN2).
  assert (NDc : NoDup [c0; c1]) by (rewrite !NoDup_cons_iff; cbn [In]; repeat split; try constructor; intuition congruence).
  assert (Hgc : forall v, In v [c0; c1] -> v < ncross d) by (intros v [<-|[<-|[]]]; auto).
  assert (Hge : forall x, In x [a1; a2; b1; b2] -> x < nedges d) by (intros x [<-|[<-|[<-|[<-|[]]]]]; eapply edge_at_lt; eauto).
  assert (GE : forall x X, edge_at d x X -> (In x [a1; a2; b1; b2] <-> In (e_tail X) [c0; c1])) by (intros x X HX; symmetry; apply fr_tails; auto).
  destruct (cut_out_ok d R T [c0; c1] [a1; a2; b1; b2] (bigon_seams st) NDc Hgc fr_four eq_refl Hge GE fr_SE fr_AL fr_AB NN1 NN2 fr_LF) as (o & tbl & EC & CR & Lt & Kt & Mo & Uo).
  exists o, tbl, (before [c0; c1]), (before [a1; a2; b1; b2]). split; auto. split; auto. split; auto. split; auto. split; auto.
  pose proof (cr_recorded _ _ _ _ _ _ CR) as Ro.
  pose proof (rem_two_ended d o [c0; c1] [a1; a2; b1; b2] _ _ CR R T fr_four eq_refl Hge GE) as To.
  pose proof (rem_through d o [c0; c1] [a1; a2; b1; b2] _ _ CR R G fr_four eq_refl Hge GE fr_BK) as Go.
  assert (Co : connected o) by (eapply fr_connected; eauto; eapply rem_cross_onto; eauto).
  split; auto. split; auto. split; auto. split; auto. split.
  - apply (fr_planar o (before [c0; c1])); auto; [rewrite (cr_ncross _ _ _ _ _ _ CR); reflexivity|]. intros L HL. eapply rem_cycles; eauto.
  - apply (rem_strands_all d o [c0; c1] [a1; a2; b1; b2] _ _ CR R fr_four eq_refl Hge GE fr_SV).
Qed.
End Frame.
