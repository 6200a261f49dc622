(** Lemmas about alternation. *)
From Coq Require Import List ZArith Lia Bool Arith Permutation.
From Verif Require Import Base Iterators Pd PdSpec PdProofs Relabel RelabelProofs Strands PdCompsProofs
  OverUnder OverUnderSpec OverUnderProofs.
Import ListNotations.
Open Scope nat_scope.

Section Diagram.
Context (d : pd) (R : ends_recorded d) (G : goes_through d) (T : two_ended d).

Lemma places_split : forall c s oi oo ui uo, over_under d c s oi oo ui uo ->
  oi <> oo /\ oi <> ui /\ oi <> uo /\ oo <> ui /\ oo <> uo /\ ui <> uo /\
  forall p, p < 4 -> p = oi \/ p = oo \/ p = ui \/ p = uo.
Proof.
  intros c s oi oo ui uo H. destruct (over_under_range d R _ _ _ _ _ _ H) as (L1 & L2 & L3 & L4).
  destruct H as (_ & _ & _ & _ & E1 & E2 & E3).
  assert (Hk : match s with Neg => 3 | _ => 1 end = 1 \/ match s with Neg => 3 | _ => 1 end = 3) by (destruct s; cbn; auto).
  set (k := match s with Neg => 3 | _ => 1 end) in *. clearbody k.
  destruct (small4 oi L1) as [->|[->|[->| ->]]]; destruct (small4 ui L3) as [->|[->|[->| ->]]];
  destruct Hk as [->| ->]; cbn in E1, E2; subst; cbn in E3; try discriminate;
  (repeat split; try lia).
Qed.
Lemma sign_at_fun : forall c s s', sign_at d c s -> sign_at d c s' -> s = s'.
Proof. intros c s s' (x & H & <-) (y & H' & <-). congruence. Qed.
Lemma sign_at_ex : forall c, c < ncross d -> exists x, nth_error (p_cross d) c = Some x /\ sign_at d c (csign x).
Proof.
  intros c Hc. destruct (nth_error (p_cross d) c) as [x|] eqn:E; [|apply nth_error_None in E; unfold ncross in Hc; lia].
  exists x. split; auto. exists x. auto.
Qed.
Lemma over_iff : forall c s oi oo ui uo p, sign_at d c s -> over_under d c s oi oo ui uo ->
  (over_at d c p <-> p = oi \/ p = oo).
Proof.
  intros c s oi oo ui uo p S O. split.
  - intros (s' & a & b & e & f & S' & O' & K). rewrite (sign_at_fun _ _ _ S' S) in O'.
    destruct (overunder_unique d R T _ _ _ _ _ _ _ _ _ _ O O') as (-> & -> & _). auto.
  - intros K. exists s, oi, oo, ui, uo. auto.
Qed.
Lemma under_iff : forall c s oi oo ui uo p, sign_at d c s -> over_under d c s oi oo ui uo ->
  (under_at d c p <-> p = ui \/ p = uo).
Proof.
  intros c s oi oo ui uo p S O. split.
  - intros (s' & a & b & e & f & S' & O' & K). rewrite (sign_at_fun _ _ _ S' S) in O'.
    destruct (overunder_unique d R T _ _ _ _ _ _ _ _ _ _ O O') as (_ & _ & -> & ->). auto.
  - intros K. exists s, oi, oo, ui, uo. auto.
Qed.
Lemma over_or_under : forall c p, c < ncross d -> p < 4 -> over_at d c p \/ under_at d c p.
Proof.
  intros c p Hc Hp. destruct (sign_at_ex c Hc) as (x & Hx & S).
  destruct (internal_spec d R G T c x Hx) as (oi & oo & ui & uo & _ & O).
  destruct (places_split _ _ _ _ _ _ O) as (_ & _ & _ & _ & _ & _ & P).
  rewrite (over_iff _ _ _ _ _ _ p S O), (under_iff _ _ _ _ _ _ p S O). destruct (P p Hp) as [|[|[|]]]; auto.
Qed.
Lemma not_over_under : forall c p, over_at d c p -> under_at d c p -> False.
Proof.
  intros c p (s & oi & oo & ui & uo & S & O & K) U.
  apply (under_iff _ _ _ _ _ _ p S O) in U. destruct (places_split _ _ _ _ _ _ O) as (? & ? & ? & ? & ? & ? & _).
  destruct K, U; congruence.
Qed.
(** the two places of a strand *)
Lemma over_across : forall c p q, q = (p + 2) mod 4 -> p < 4 -> (over_at d c p <-> over_at d c q).
Proof.
  intros c p q -> Hp.
  assert (forall p, p < 4 -> over_at d c p -> over_at d c ((p + 2) mod 4)).
  { intros a Ha (s & oi & oo & ui & uo & S & O & K). exists s, oi, oo, ui, uo. split; auto. split; auto.
    destruct (over_under_range d R _ _ _ _ _ _ O) as (L1 & _).
    destruct O as (_ & _ & _ & _ & E1 & _). destruct K as [->| ->]; auto. left. rewrite E1.
    destruct (small4 oi L1) as [->|[->|[->| ->]]]; reflexivity. }
  split; auto. intros K. apply H in K; [|apply mod4_lt].
  replace p with (((p + 2) mod 4 + 2) mod 4); auto. destruct (small4 p Hp) as [->|[->|[->| ->]]]; reflexivity.
Qed.

Local Ltac fin := repeat match goal with Q : _ <-> _ |- _ => rewrite Q; clear Q end; intuition congruence.
Lemma edge_alternates_spec : forall e E, edge_at d e E ->
  exists b, edge_alternates d e = Ok b /\
    (b = true <-> (under_at d (e_tail E) (e_tailpos E) /\ over_at d (e_head E) (e_headpos E) \/
                   over_at d (e_tail E) (e_tailpos E) /\ under_at d (e_head E) (e_headpos E))).
Proof.
  intros e E HE. destruct (proj2 R e E HE) as (SH & ST).
  destruct (slot_lt _ _ _ _ SH) as (Hh & Hhp). destruct (slot_lt _ _ _ _ ST) as (Ht & Htp).
  destruct (sign_at_ex _ Hh) as (xh & Hxh & Sh). destruct (sign_at_ex _ Ht) as (xt & Hxt & St).
  destruct (internal_spec d R G T _ _ Hxh) as (oi & oo & ui & uo & I & O).
  destruct (internal_spec d R G T _ _ Hxt) as (oi' & oo' & ui' & uo' & I' & O').
  assert (A : arrives d (e_head E) (e_headpos E) e) by (exists E; auto).
  assert (D : departs d (e_tail E) (e_tailpos E) e) by (exists E; auto).
  destruct (places_split _ _ _ _ _ _ O) as (N1 & N2 & N3 & N4 & N5 & N6 & P).
  destruct (places_split _ _ _ _ _ _ O') as (N1' & N2' & N3' & N4' & N5' & N6' & P').
  assert (PH : e_headpos E = oi \/ e_headpos E = ui).
  { destruct O as (_ & (f & D2) & _ & (g & D4) & _). destruct (P _ Hhp) as [K|[K|[K|K]]]; auto; exfalso;
    rewrite K in A; first [exact (not_both d R T _ _ _ _ A D2)|exact (not_both d R T _ _ _ _ A D4)]. }
  assert (PT : e_tailpos E = oo' \/ e_tailpos E = uo').
  { destruct O' as ((f & D2) & _ & (g & D4) & _). destruct (P' _ Htp) as [K|[K|[K|K]]]; auto; exfalso;
    rewrite K in D; first [exact (not_both d R T _ _ _ _ D2 D)|exact (not_both d R T _ _ _ _ D4 D)]. }
  pose proof (over_iff _ _ _ _ _ _ (e_headpos E) Sh O) as Q1. pose proof (under_iff _ _ _ _ _ _ (e_headpos E) Sh O) as Q2.
  pose proof (over_iff _ _ _ _ _ _ (e_tailpos E) St O') as Q3. pose proof (under_iff _ _ _ _ _ _ (e_tailpos E) St O') as Q4.
  clear - HE Q1 Q2 Q3 Q4 PH PT I I' N1 N2 N3 N4 N5 N6 N1' N2' N3' N4' N5' N6'.
  unfold edge_alternates. replace (get (p_edge d) e) with (Ok E) by (symmetry; apply get_ok; exact HE). cbn [bind].
  unfold pd_understrand_pos, pd_overstrand_pos. rewrite I, I'. cbn [bind under_in under_out over_in over_out fst snd].
  destruct (Nat.eqb_spec uo' (e_tailpos E)) as [Z1|Z1].
  - destruct (Nat.eqb_spec ui (e_headpos E)) as [Z2|Z2].
    + exists false. split; auto. split; [discriminate|]. fin.
    + destruct (Nat.eqb_spec oi (e_headpos E)) as [Z3|Z3]; cbn [negb]; [|exfalso; intuition congruence].
      exists true. split; auto. split; auto. fin.
  - destruct (Nat.eqb_spec oo' (e_tailpos E)) as [Z2|Z2]; [|exfalso; intuition congruence].
    destruct (Nat.eqb_spec oi (e_headpos E)) as [Z3|Z3].
    + exists false. split; auto. split; [discriminate|]. fin.
    + destruct (Nat.eqb_spec ui (e_headpos E)) as [Z4|Z4]; cbn [negb]; [|exfalso; intuition congruence].
      exists true. split; auto. split; auto. fin.
Qed.

Lemma all_ok_decides : forall A (f : A -> res bool) (Q : A -> Prop) l,
  (forall x, In x l -> exists b, f x = Ok b /\ (b = true <-> Q x)) ->
  exists b, all_ok f l = Ok b /\ (b = true <-> forall x, In x l -> Q x).
Proof.
  induction l as [|x l IH]; intros H; cbn [all_ok].
  - exists true. split; auto. split; auto. intros _ x [].
  - destruct (H x) as (b & -> & Hb); [cbn; auto|]. cbn [bind]. destruct b.
    + destruct IH as (b & -> & K); [intros; apply H; cbn; auto|]. exists b. split; auto. rewrite K. split.
      * intros L y [<-|Hy]; auto. apply Hb; auto.
      * intros L y Hy. apply L. cbn; auto.
    + exists false. split; auto. split; [discriminate|]. intros L. apply Hb, L. cbn; auto.
Qed.

(** alternation along the components, and edge by edge *)
Lemma alternates_edges : strand_partition d (map cp_edge (p_comp d)) ->
  (alternates d <-> forall e E, edge_at d e E ->
     under_at d (e_tail E) (e_tailpos E) /\ over_at d (e_head E) (e_headpos E) \/
     over_at d (e_tail E) (e_tailpos E) /\ under_at d (e_head E) (e_headpos E)).
Proof.
  intros (P1 & P2 & P3).
  (* passing at the head of a and leaving along b use the two places of one strand *)
  assert (X : forall a b A B, edge_at d a A -> edge_at d b B -> continues d a b ->
    (over_at d (e_head A) (e_headpos A) <-> over_at d (e_tail B) (e_tailpos B)) /\
    (under_at d (e_head A) (e_headpos A) <-> under_at d (e_tail B) (e_tailpos B))).
  { intros a b A B HA HB (A' & B' & HA' & HB' & K1 & K2). unfold edge_at in *.
    rewrite HA in HA'. injection HA' as <-. rewrite HB in HB'. injection HB' as <-.
    destruct (proj2 R a A HA) as (SH & _). apply slot_lt in SH as (L1 & L2). rewrite K1, K2.
    pose proof (over_across (e_head A) (e_headpos A) _ eq_refl L2) as Q. split; auto.
    pose proof (over_or_under (e_head A) (e_headpos A) L1 L2). 
    pose proof (over_or_under (e_head A) ((e_headpos A + 2) mod 4) L1 (mod4_lt _)).
    pose proof (not_over_under (e_head A) (e_headpos A)). pose proof (not_over_under (e_head A) ((e_headpos A + 2) mod 4)).
    tauto. }
  unfold alternates, cyclically. split.
  - intros H b B HB.
    (* the edge before b *)
    assert (Hb : b < nedges d) by (eapply edge_at_lt; eauto).
    apply P3 in Hb. apply in_concat in Hb as (l & Hl & Hb). apply in_map_iff in Hl as (C & <- & HC).
    apply In_nth_error in Hb as (i & Hi).
    assert (Li : i < length (cp_edge C)) by (apply nth_error_Some; congruence).
    set (m := length (cp_edge C)) in *. set (j := (i + m - 1) mod m).
    assert (Hj : j < m) by (apply Nat.mod_upper_bound; lia).
    assert (Hji : (j + 1) mod m = i).
    { unfold j. rewrite Nat.add_mod_idemp_l by lia. replace (i + m - 1 + 1) with (i + 1 * m) by lia.
      rewrite Nat.mod_add by lia. apply Nat.mod_small; lia. }
    destruct (nth_error (cp_edge C) j) as [a|] eqn:Ha; [|apply nth_error_None in Ha; unfold m in *; lia].
    rewrite <- Hji in Hi. pose proof (H C HC j a b Ha Hi) as K.
    assert (CN : continues d a b). { apply (proj2 (P1 (cp_edge C) (in_map _ _ _ HC)) j); auto. }
    destruct (CN) as (A & B' & HA & HB' & _).
    destruct (X a b A B HA HB CN) as (X1 & X2).
    unfold passes_over, passes_under, edge_at in *. destruct K as [((A1 & Q1 & Q2) & (B1 & Q3 & Q4))|((A1 & Q1 & Q2) & (B1 & Q3 & Q4))];
      rewrite HA in Q1; injection Q1 as <-; rewrite HB in Q3; injection Q3 as <-; tauto.
  - intros H C HC i a b Ha Hb.
    assert (CN : continues d a b). { apply (proj2 (P1 (cp_edge C) (in_map _ _ _ HC)) i); auto. }
    destruct (CN) as (A & B & HA & HB & _).
    destruct (X a b A B HA HB CN) as (X1 & X2). pose proof (H b B HB).
    unfold passes_over, passes_under. destruct H0 as [(U & O)|(O & U)].
    + right. split; [exists A|exists B]; tauto.
    + left. split; [exists A|exists B]; tauto.
Qed.
End Diagram.
