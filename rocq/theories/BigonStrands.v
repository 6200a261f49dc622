(** The strands found at the crossings of a bigon. *)
From Coq Require Import List ZArith Lia Bool Arith Permutation Relations.
From Verif Require Import Base Iterators ListAux Pd PdSpec PdProofs Relabel RelabelProofs Strands CycleSurgery PdFaces PdFacesProofs LinkProofs Planar RegenSpec
  Thm_Faces PlanarProofs Thm_Planar MoveProofs DeloopSpec DeloopProofs DeloopComps OverUnder OverUnderSpec OverUnderProofs RemoveSpec CutProofs RemoveProofs FacePlaces BigonSite Bigon BigonFrame.
Import ListNotations.
Open Scope nat_scope.

Section Straight.
Context (d : pd) (R : ends_recorded d) (G : goes_through d) (T : two_ended d).

Lemma next_edge_ok : forall x X y Y, edge_at d x X -> edge_at d y Y -> opposite (head_slot X) = tail_slot Y -> pd_next_edge d x = Ok y.
Proof.
  intros x X y Y HX HY E. pose proof R as (_ & Rr). destruct (Rr _ _ HX) as ((_ & c & Hc & _) & _). destruct (Rr _ _ HY) as (_ & _ & c' & Hc' & K).
  unfold opposite, head_slot, tail_slot in E. cbn [fst snd] in E. apply pair_eq in E as (E1 & E2). rewrite <- E1, <- E2 in *. rewrite Hc in Hc'. injection Hc' as <-.
  unfold edge_at in *. unfold pd_next_edge. rewrite (proj2 (get_ok _ _ _ _) HX). cbn [bind]. rewrite (proj2 (get_ok _ _ _ _) Hc). cbn [bind]. rewrite K.
  rewrite (proj2 (get_ok _ _ _ _) HY). cbn [bind]. rewrite <- E1, Nat.eqb_refl. reflexivity.
Qed.
Lemma prev_edge_ok : forall x X y Y, edge_at d x X -> edge_at d y Y -> head_slot X = opposite (tail_slot Y) -> pd_previous_edge d y = Ok x.
Proof.
  intros x X y Y HX HY E. pose proof R as (_ & Rr). destruct (Rr _ _ HX) as ((_ & c & Hc & K) & _). destruct (Rr _ _ HY) as (_ & _ & c' & Hc' & _).
  unfold opposite, head_slot, tail_slot in E. cbn [fst snd] in E. apply pair_eq in E as (E1 & E2). rewrite E1, E2 in *. rewrite Hc in Hc'. injection Hc' as <-.
  unfold edge_at in *. unfold pd_previous_edge. rewrite (proj2 (get_ok _ _ _ _) HY). cbn [bind]. rewrite (proj2 (get_ok _ _ _ _) Hc). cbn [bind]. rewrite K.
  rewrite (proj2 (get_ok _ _ _ _) HX). cbn [bind]. rewrite E1, Nat.eqb_refl. reflexivity.
Qed.
Lemma strands_at : forall c p q e f g h r, arrives d c p e -> departs d c ((p + 2) mod 4) f -> arrives d c q g -> departs d c ((q + 2) mod 4) h -> p <> q ->
  over_at d c r -> r = p \/ r = (p + 2) mod 4 -> pd_overstrand d c = Ok (e, f) /\ pd_understrand d c = Ok (g, h).
Proof.
  intros c p q e f g h r Ae Df Ag Dh N (s & oi & oo & ui & uo & Sg & OU & Hr) Hp. destruct Sg as (x & Hx & Sx).
  destruct (internal_spec d R G T c x Hx) as (oi' & oo' & ui' & uo' & I & OU'). rewrite Sx in OU'.
  destruct (overunder_unique d R T _ _ _ _ _ _ _ _ _ _ OU OU') as (<- & <- & <- & <-).
  pose proof OU as ((e1 & A1) & (e2 & A2) & (e3 & A3) & (e4 & A4) & E1 & E2 & E3). destruct (over_under_range d R _ _ _ _ _ _ OU) as (L1 & L2 & L3 & L4).
  pose proof (slot_lt _ _ _ _ (arrives_slot d R _ _ _ Ae)) as (Lc & Lp). pose proof (slot_lt _ _ _ _ (arrives_slot d R _ _ _ Ag)) as (_ & Lq).
  assert (m22 : forall a, a < 4 -> ((a + 2) mod 4 + 2) mod 4 = a) by (intros a Ha; destruct a as [|[|[|[|?]]]]; cbn; lia).
  assert (NB : forall z w y, arrives d c z w -> departs d c z y -> False) by (intros z w y; apply (OverUnderProofs.not_both d R T)).
  assert (p = oi) as Ep.
  { destruct Hr as [-> | ->], Hp as [Q|Q]; auto.
    - exfalso. apply (NB oi e1 f); auto. rewrite Q. auto.
    - exfalso. apply (NB p e e2); auto. rewrite <- Q. auto.
    - rewrite E1 in Q. clear -Q Lp L1. destruct oi as [|[|[|[|?]]]], p as [|[|[|[|?]]]]; cbn in *; lia. }
  assert (q = ui) as Eq.
  { assert (q <> oi) by congruence. assert (q <> oo) by (intros ->; apply (NB oo g e2); auto). assert (q <> uo) by (intros ->; apply (NB uo g e4); auto).
    clear - L1 Lq L3 L4 H H0 H1 E1 E2 E3 L2. destruct s, oi as [|[|[|[|?]]]], q as [|[|[|[|?]]]], ui as [|[|[|[|?]]]]; cbn in *; subst; cbn in *; try lia. }
  subst p q. rewrite <- E1 in Df. rewrite <- E2 in Dh.
  assert (Q : forall p e, slot d c p e -> e = cedge x p) by (intros p y (_ & x' & Hx' & <-); congruence).
  unfold pd_overstrand, pd_understrand, pd_overstrand_pos, pd_understrand_pos. rewrite I. cbn [bind fst snd over_in over_out under_in under_out].
  rewrite (proj2 (get_ok _ _ _ _) Hx). cbn [bind].
  rewrite (Q _ _ (arrives_slot d R _ _ _ Ae)), (Q _ _ (departs_slot d R _ _ _ Df)), (Q _ _ (arrives_slot d R _ _ _ Ag)), (Q _ _ (departs_slot d R _ _ _ Dh)). auto.
Qed.
End Straight.

Section BigonStrands.
Context (d : pd) (R : ends_recorded d) (G : goes_through d) (T : two_ended d) (FP : face_partition d (p_face d)) (NF : nfaces d = ncross d + 2) (CN : connected d) (N2 : 2 < ncross d).
Context (c0 c1 : nat) (A0 A1 B0 B1 A2 A3 B2 B3 : nat * nat) (hand : bool).
Context (S : if hand then site d c0 c1 A0 A1 B0 B1 A2 A3 B2 B3 else site d c0 c1 B0 B1 A0 A1 B2 B3 A2 A3).
Context (corner : forall f, In f (cyc d) -> In (if hand then B0 else A0) f -> In (if hand then A2 else B2) f -> False).
Context (K0 : fst A0 = c0 /\ fst A1 = c0 /\ fst B0 = c0 /\ fst B1 = c0) (K1 : fst A2 = c1 /\ fst A3 = c1 /\ fst B2 = c1 /\ fst B3 = c1).
Context (a0 a1 a2 b0 b1 b2 : nat) (EA0 EA1 EA2 EB0 EB1 EB2 : edge) (same : bool).
Context (HA0 : edge_at d a0 EA0) (HA1 : edge_at d a1 EA1) (HA2 : edge_at d a2 EA2) (HB0 : edge_at d b0 EB0) (HB1 : edge_at d b1 EB1) (HB2 : edge_at d b2 EB2).
Context (hA0 : head_slot EA0 = A0) (tA1 : tail_slot EA1 = A1) (hA1 : head_slot EA1 = A3) (tA2 : tail_slot EA2 = A2).
Context (hB0 : head_slot EB0 = if same then B0 else B2) (tB1 : tail_slot EB1 = if same then B1 else B3)
        (hB1 : head_slot EB1 = if same then B3 else B1) (tB2 : tail_slot EB2 = if same then B2 else B0).
Notation s := (st c0 c1 a0 a1 a2 b0 b1 b2).

Definition over0 : Prop := pd_overstrand d c0 = Ok (a0, a1) /\ pd_understrand d c0 = Ok (if same then (b0, b1) else (b1, b2)).
Definition over1 : Prop := pd_overstrand d c1 = Ok (a1, a2) /\ pd_understrand d c1 = Ok (if same then (b1, b2) else (b0, b1)).

Lemma opp_place : forall (u v : nat * nat), opposite u = v -> v = (fst u, (snd u + 2) mod 4).
Proof. intros u v <-. reflexivity. Qed.
Lemma over_0 : forall r, over_at d c0 r -> (c0, r) = A0 \/ (c0, r) = A1 -> over0.
Proof.
  intros r O Q. destruct K0 as (k0 & k1 & k2 & k3). destruct (fr_opp d c0 c1 A0 A1 B0 B1 A2 A3 B2 B3 hand S) as (o1 & o2 & o3 & o4 & o5 & o6 & o7 & o8).
  pose proof (fr_nodup d c0 c1 A0 A1 B0 B1 A2 A3 B2 B3 hand S) as ND. rewrite !NoDup_cons_iff in ND. cbn [In] in ND.
  assert (PA : A0 = (c0, snd A0)) by (rewrite <- k0; destruct A0; reflexivity). assert (PA1 : A1 = (c0, snd A1)) by (rewrite <- k1; destruct A1; reflexivity).
  assert (PB : B0 = (c0, snd B0)) by (rewrite <- k2; destruct B0; reflexivity). assert (PB1 : B1 = (c0, snd B1)) by (rewrite <- k3; destruct B1; reflexivity).
  apply opp_place in o1, o3, o4. rewrite k0 in o1. rewrite k2 in o3. rewrite k3 in o4. unfold over0.
  assert (Hr : r = snd A0 \/ r = (snd A0 + 2) mod 4).
  { destruct Q as [Q|Q]; [left; rewrite <- Q; reflexivity|right]. rewrite o1 in Q. apply pair_eq in Q. tauto. }
  destruct same.
  - apply (strands_at d R G T c0 (snd A0) (snd B0) a0 a1 b0 b1 r); auto.
    + exists EA0. split; auto. congruence.
    + exists EA1. split; auto. congruence.
    + exists EB0. split; auto. congruence.
    + exists EB1. split; auto. congruence.
    + intro E. rewrite E, <- PB in PA. intuition congruence.
  - apply (strands_at d R G T c0 (snd A0) (snd B1) a0 a1 b1 b2 r); auto.
    + exists EA0. split; auto. congruence.
    + exists EA1. split; auto. congruence.
    + exists EB1. split; auto. congruence.
    + exists EB2. split; auto. congruence.
    + intro E. rewrite E, <- PB1 in PA. intuition congruence.
Qed.
Lemma over_1 : forall r, over_at d c1 r -> (c1, r) = A2 \/ (c1, r) = A3 -> over1.
Proof.
  intros r O Q. destruct K1 as (k0 & k1 & k2 & k3). destruct (fr_opp d c0 c1 A0 A1 B0 B1 A2 A3 B2 B3 hand S) as (o1 & o2 & o3 & o4 & o5 & o6 & o7 & o8).
  pose proof (fr_nodup d c0 c1 A0 A1 B0 B1 A2 A3 B2 B3 hand S) as ND. rewrite !NoDup_cons_iff in ND. cbn [In] in ND.
  assert (PA : A2 = (c1, snd A2)) by (rewrite <- k0; destruct A2; reflexivity). assert (PA1 : A3 = (c1, snd A3)) by (rewrite <- k1; destruct A3; reflexivity).
  assert (PB : B2 = (c1, snd B2)) by (rewrite <- k2; destruct B2; reflexivity). assert (PB1 : B3 = (c1, snd B3)) by (rewrite <- k3; destruct B3; reflexivity).
  apply opp_place in o6, o7, o8. rewrite k1 in o6. rewrite k2 in o7. rewrite k3 in o8. unfold over1.
  assert (Hr : r = snd A3 \/ r = (snd A3 + 2) mod 4).
  { destruct Q as [Q|Q]; [right|left; rewrite <- Q; reflexivity]. rewrite o6 in Q. apply pair_eq in Q. tauto. }
  destruct same.
  - apply (strands_at d R G T c1 (snd A3) (snd B3) a1 a2 b1 b2 r); auto.
    + exists EA1. split; auto. congruence.
    + exists EA2. split; auto. congruence.
    + exists EB1. split; auto. congruence.
    + exists EB2. split; auto. congruence.
    + intro E. rewrite E, <- PB1 in PA1. intuition congruence.
  - apply (strands_at d R G T c1 (snd A3) (snd B2) a1 a2 b0 b1 r); auto.
    + exists EA1. split; auto. congruence.
    + exists EA2. split; auto. congruence.
    + exists EB0. split; auto. congruence.
    + exists EB1. split; auto. congruence.
    + intro E. rewrite E, <- PB in PA1. intuition congruence.
Qed.

Lemma steps : pd_next_edge d a1 = Ok a2 /\ pd_previous_edge d a1 = Ok a0 /\ pd_next_edge d b1 = Ok b2 /\ pd_previous_edge d b1 = Ok b0.
Proof.
  destruct (fr_opp d c0 c1 A0 A1 B0 B1 A2 A3 B2 B3 hand S) as (o1 & o2 & o3 & o4 & o5 & o6 & o7 & o8). split; [|split; [|split]].
  - apply (next_edge_ok d R a1 EA1 a2 EA2); auto. congruence.
  - apply (prev_edge_ok d R a0 EA0 a1 EA1); auto. congruence.
  - apply (next_edge_ok d R b1 EB1 b2 EB2); auto. rewrite hB1, tB2. destruct same; congruence.
  - apply (prev_edge_ok d R b0 EB0 b1 EB1); auto. rewrite hB0, tB1. destruct same; congruence.
Qed.
(** an outer edge at one of the crossings does not lead to the other one *)
Lemma far : (e_head EA2 =? c0) = false /\ (e_head EB2 =? (if same then c0 else c1)) = false.
Proof.
  destruct K0 as (k0 & k1 & k2 & k3). destruct K1 as (k4 & k5 & k6 & k7). destruct (fr_ne d c0 c1 A0 A1 B0 B1 A2 A3 B2 B3 hand S) as (NE & _).
  pose proof (fr_nodup d c0 c1 A0 A1 B0 B1 A2 A3 B2 B3 hand S) as ND. rewrite !NoDup_cons_iff in ND. cbn [In] in ND.
  pose proof (fr_outer d R T FP NF CN c0 c1 A0 A1 B0 B1 A2 A3 B2 B3 hand S corner) as FO. split; apply Nat.eqb_neq; intro Q.
  - assert (E : ends d A2 (head_slot EA2)) by (exists a2, EA2; split; auto).
    destruct (FO A2 (head_slot EA2)) as [(X & Y)|[(X & Y)|[(X & Y)|(X & Y)]]]; auto; try (cbn [In]; auto; fail); try (intuition congruence).
    unfold head_slot in Y. apply (f_equal fst) in Y. cbn [fst] in Y. congruence.
  - assert (E : ends d (if same then B2 else B0) (head_slot EB2)) by (exists b2, EB2; split; auto).
    destruct (FO (if same then B2 else B0) (head_slot EB2)) as [(X & Y)|[(X & Y)|[(X & Y)|(X & Y)]]]; auto.
    + destruct same; cbn [In]; auto.
    + cbn [head_slot fst]. destruct same; cbn [In]; auto.
    + destruct same; intuition congruence.
    + unfold head_slot in Y. apply (f_equal fst) in Y. cbn [fst] in Y. destruct same; [intuition congruence|congruence].
    + destruct same; intuition congruence.
    + unfold head_slot in Y. apply (f_equal fst) in Y. cbn [fst] in Y. destruct same; [congruence|intuition congruence].
Qed.
Lemma ends_at : e_head EA1 = c1 /\ e_tail EA1 = c0 /\ e_head EB1 = (if same then c1 else c0) /\ e_tail EB1 = if same then c0 else c1.
Proof.
  destruct K0 as (k0 & k1 & k2 & k3). destruct K1 as (k4 & k5 & k6 & k7).
  change (e_head EA1) with (fst (head_slot EA1)). change (e_tail EA1) with (fst (tail_slot EA1)). change (e_head EB1) with (fst (head_slot EB1)). change (e_tail EB1) with (fst (tail_slot EB1)).
  rewrite hA1, tA1, hB1, tB1. destruct same; auto.
Qed.
Ltac look := unfold edge_at in *;
  repeat first [rewrite (proj2 (get_ok _ _ _ _) HA0)|rewrite (proj2 (get_ok _ _ _ _) HA1)|rewrite (proj2 (get_ok _ _ _ _) HA2)
               |rewrite (proj2 (get_ok _ _ _ _) HB0)|rewrite (proj2 (get_ok _ _ _ _) HB1)|rewrite (proj2 (get_ok _ _ _ _) HB2)].

Lemma under_any_0 : over0 -> under_any d c0 c1 = Ok (b0, b1, b2).
Proof.
  intros (_ & U). destruct steps as (n1 & n2 & n3 & n4). destruct far as (f1 & f2). destruct ends_at as (e1 & e2 & e3 & e4). unfold under_any. rewrite U. destruct same; cbn [bind]; look; cbn [bind].
  - rewrite e3, Nat.eqb_refl, n3. reflexivity.
  - rewrite f2, e4, Nat.eqb_refl, n4. reflexivity.
Qed.
Lemma under_any_1 : over1 -> under_any d c1 c0 = Ok (b0, b1, b2).
Proof.
  intros (_ & U). destruct steps as (n1 & n2 & n3 & n4). destruct far as (f1 & f2). destruct ends_at as (e1 & e2 & e3 & e4). unfold under_any. rewrite U. destruct same; cbn [bind]; look; cbn [bind].
  - rewrite f2, e4, Nat.eqb_refl, n4. reflexivity.
  - rewrite e3, Nat.eqb_refl, n3. reflexivity.
Qed.
Lemma shadow_0 : over0 -> under_any d c0 c1 = Ok (b0, b1, b2) -> shadow_strands d c0 c1 = Ok s.
Proof.
  intros (O & _) U. destruct steps as (n1 & n2 & n3 & n4). destruct far as (f1 & f2). destruct ends_at as (e1 & e2 & e3 & e4).
  unfold shadow_strands. rewrite O. cbn [bind]. look. cbn [bind]. rewrite e1, Nat.eqb_refl, n1. cbn [bind]. rewrite U. reflexivity.
Qed.
Lemma shadow_1 : over1 -> under_any d c1 c0 = Ok (b0, b1, b2) -> shadow_strands d c1 c0 = Ok s.
Proof.
  intros (O & _) U. destruct steps as (n1 & n2 & n3 & n4). destruct far as (f1 & f2). destruct ends_at as (e1 & e2 & e3 & e4).
  unfold shadow_strands. rewrite O. cbn [bind]. look. cbn [bind]. rewrite f1. cbn [bind]. rewrite e2, Nat.eqb_refl, n2. cbn [bind]. rewrite U. reflexivity.
Qed.
Lemma signed_both : over0 -> over1 -> signed_strands d c0 c1 = Ok s /\ signed_strands d c1 c0 = Ok s.
Proof.
  intros (O0 & U0) (O1 & U1). destruct steps as (n1 & n2 & n3 & n4). destruct far as (f1 & f2). destruct ends_at as (e1 & e2 & e3 & e4).
  unfold signed_strands. rewrite O0, O1. cbn [bind snd fst]. look. cbn [bind]. rewrite f1, e1, Nat.eqb_refl. cbv beta iota. rewrite O0. cbn [bind]. look. cbn [bind].
  rewrite e1, Nat.eqb_refl. cbn [negb]. rewrite n1. cbn [bind]. rewrite O1. cbn [bind fst snd]. rewrite !Nat.eqb_refl. cbn [negb orb]. rewrite U0.
  destruct same; cbn [bind]; look; cbn [bind].
  - rewrite e3, Nat.eqb_refl, n3. cbn [bind]. rewrite U1. cbn [bind fst snd]. rewrite !Nat.eqb_refl. auto.
  - rewrite f2, e4, Nat.eqb_refl, n4. cbn [bind]. rewrite U1. cbn [bind fst snd]. rewrite !Nat.eqb_refl. auto.
Qed.

(** the other strand lies above *)
Definition under0 : Prop := pd_overstrand d c0 = Ok (if same then (b0, b1) else (b1, b2)).
Definition under1 : Prop := pd_overstrand d c1 = Ok (if same then (b1, b2) else (b0, b1)).
Lemma under_0 : forall r, over_at d c0 r -> (c0, r) = B0 \/ (c0, r) = B1 -> under0.
Proof.
  intros r O Q. destruct K0 as (k0 & k1 & k2 & k3). destruct (fr_opp d c0 c1 A0 A1 B0 B1 A2 A3 B2 B3 hand S) as (o1 & o2 & o3 & o4 & o5 & o6 & o7 & o8).
  pose proof (fr_nodup d c0 c1 A0 A1 B0 B1 A2 A3 B2 B3 hand S) as ND. rewrite !NoDup_cons_iff in ND. cbn [In] in ND.
  assert (PA : A0 = (c0, snd A0)) by (rewrite <- k0; destruct A0; reflexivity). assert (PA1 : A1 = (c0, snd A1)) by (rewrite <- k1; destruct A1; reflexivity).
  assert (PB : B0 = (c0, snd B0)) by (rewrite <- k2; destruct B0; reflexivity). assert (PB1 : B1 = (c0, snd B1)) by (rewrite <- k3; destruct B1; reflexivity).
  apply opp_place in o1, o3, o4. rewrite k0 in o1. rewrite k2 in o3. rewrite k3 in o4. unfold under0.
  destruct same.
  - apply (strands_at d R G T c0 (snd B0) (snd A0) b0 b1 a0 a1 r); auto.
    + exists EB0. split; auto. congruence.
    + exists EB1. split; auto. congruence.
    + exists EA0. split; auto. congruence.
    + exists EA1. split; auto. congruence.
    + intro E. rewrite <- E, <- PB in PA. intuition congruence.
    + destruct Q as [Q|Q]; [left; rewrite <- Q; reflexivity|right]. rewrite o3 in Q. apply pair_eq in Q. tauto.
  - apply (strands_at d R G T c0 (snd B1) (snd A0) b1 b2 a0 a1 r); auto.
    + exists EB1. split; auto. congruence.
    + exists EB2. split; auto. congruence.
    + exists EA0. split; auto. congruence.
    + exists EA1. split; auto. congruence.
    + intro E. rewrite <- E, <- PB1 in PA. intuition congruence.
    + destruct Q as [Q|Q]; [right|left; rewrite <- Q; reflexivity]. rewrite o4 in Q. apply pair_eq in Q. tauto.
Qed.
Lemma under_1 : forall r, over_at d c1 r -> (c1, r) = B2 \/ (c1, r) = B3 -> under1.
Proof.
  intros r O Q. destruct K1 as (k0 & k1 & k2 & k3). destruct (fr_opp d c0 c1 A0 A1 B0 B1 A2 A3 B2 B3 hand S) as (o1 & o2 & o3 & o4 & o5 & o6 & o7 & o8).
  pose proof (fr_nodup d c0 c1 A0 A1 B0 B1 A2 A3 B2 B3 hand S) as ND. rewrite !NoDup_cons_iff in ND. cbn [In] in ND.
  assert (PA : A2 = (c1, snd A2)) by (rewrite <- k0; destruct A2; reflexivity). assert (PA1 : A3 = (c1, snd A3)) by (rewrite <- k1; destruct A3; reflexivity).
  assert (PB : B2 = (c1, snd B2)) by (rewrite <- k2; destruct B2; reflexivity). assert (PB1 : B3 = (c1, snd B3)) by (rewrite <- k3; destruct B3; reflexivity).
  apply opp_place in o6, o7, o8. rewrite k1 in o6. rewrite k2 in o7. rewrite k3 in o8. unfold under1.
  destruct same.
  - apply (strands_at d R G T c1 (snd B3) (snd A3) b1 b2 a1 a2 r); auto.
    + exists EB1. split; auto. congruence.
    + exists EB2. split; auto. congruence.
    + exists EA1. split; auto. congruence.
    + exists EA2. split; auto. congruence.
    + intro E. rewrite <- E, <- PB1 in PA1. intuition congruence.
    + destruct Q as [Q|Q]; [right|left; rewrite <- Q; reflexivity]. rewrite o8 in Q. apply pair_eq in Q. tauto.
  - apply (strands_at d R G T c1 (snd B2) (snd A3) b0 b1 a1 a2 r); auto.
    + exists EB0. split; auto. congruence.
    + exists EB1. split; auto. congruence.
    + exists EA1. split; auto. congruence.
    + exists EA2. split; auto. congruence.
    + intro E. rewrite <- E, <- PB in PA1. intuition congruence.
    + destruct Q as [Q|Q]; [left; rewrite <- Q; reflexivity|right]. rewrite o7 in Q. apply pair_eq in Q. tauto.
Qed.
Lemma six : a1 <> b1 /\ a1 <> b0 /\ b1 <> a0.
Proof.
  pose proof (fr_four' d c0 c1 A0 A1 B0 B1 A2 A3 B2 B3 hand S a0 a1 b0 b1 EA0 EA1 EB0 EB1 EB2 same HA0 HA1 HB0 HB1 hA0 hA1 hB0 tB1 hB1 tB2) as F4.
  rewrite !NoDup_cons_iff in F4. cbn [In] in F4. intuition congruence.
Qed.
(** the strand over at the first crossing is under at the second: nothing is done *)
Lemma clasp_1 : over0 -> under1 -> signed_strands d c0 c1 = Fail /\ signed_strands d c1 c0 = Fail.
Proof.
  intros (O0 & _) U1. unfold under1 in U1. destruct steps as (n1 & n2 & n3 & n4). destruct far as (f1 & f2). destruct ends_at as (e1 & e2 & e3 & e4). destruct six as (x1 & x2 & x3).
  assert (Q : signed_strands d c0 c1 = Fail).
  { unfold signed_strands. rewrite O0. cbn [bind snd fst]. look. cbn [bind]. rewrite e1, Nat.eqb_refl. cbv beta iota. rewrite O0. cbn [bind]. look. cbn [bind].
    rewrite e1, Nat.eqb_refl. cbn [negb]. rewrite n1. cbn [bind]. rewrite U1. cbn [bind]. destruct same; cbn [fst snd].
    - destruct (Nat.eqb_spec a1 b1); [congruence|reflexivity].
    - destruct (Nat.eqb_spec a1 b0); [congruence|reflexivity]. }
  split; auto. unfold signed_strands in *. rewrite O0 in Q. cbn [bind snd fst] in Q. rewrite U1. cbn [bind]. revert Q. destruct same; cbn [snd fst]; look; cbn [bind].
  - rewrite f2, e1, Nat.eqb_refl. auto.
  - rewrite e3, Nat.eqb_refl. intros _. rewrite U1. cbn [bind]. look. cbn [bind]. rewrite e3, Nat.eqb_refl. cbn [negb]. rewrite n3. cbn [bind]. rewrite O0. cbn [bind fst snd].
    destruct (Nat.eqb_spec b1 a0); [congruence|reflexivity].
Qed.
Lemma clasp_0 : over1 -> under0 -> signed_strands d c0 c1 = Fail /\ signed_strands d c1 c0 = Fail.
Proof.
  intros (O1 & _) U0. unfold under0 in U0. destruct steps as (n1 & n2 & n3 & n4). destruct far as (f1 & f2). destruct ends_at as (e1 & e2 & e3 & e4). destruct six as (x1 & x2 & x3).
  unfold signed_strands. rewrite U0, O1. cbn [bind snd fst]. destruct same; cbn [fst snd]; look; cbn [bind]; rewrite f1, ?f2, ?e3, ?Nat.eqb_refl; cbv beta iota.
  - rewrite U0. cbn [bind]. look. cbn [bind]. rewrite e3, Nat.eqb_refl. cbn [negb]. rewrite n3. cbn [bind]. rewrite O1. cbn [bind fst snd].
    destruct (Nat.eqb_spec b1 a1); [congruence|auto].
  - rewrite U0, O1. cbn [bind]. look. cbn [bind]. rewrite f1, f2. auto.
Qed.
End BigonStrands.
