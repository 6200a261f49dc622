(** Lemmas about strands at crossings. *)
From Coq Require Import List ZArith Lia Bool Arith Permutation.
From Verif Require Import Base Iterators Pd PdSpec PdProofs Relabel RelabelProofs Strands PdCompsProofs
  OverUnder OverUnderSpec.
Import ListNotations.
Open Scope nat_scope.

Section Diagram.
Context (d : pd) (R : ends_recorded d) (G : goes_through d) (T : two_ended d).

Lemma arrives_slot : forall c p e, arrives d c p e -> slot d c p e.
Proof. intros c p e (E & HE & H). destruct (proj2 R e E HE) as (S1 & _). injection H as <- <-. exact S1. Qed.
Lemma departs_slot : forall c p e, departs d c p e -> slot d c p e.
Proof. intros c p e (E & HE & H). destruct (proj2 R e E HE) as (_ & S2). injection H as <- <-. exact S2. Qed.
Lemma not_both : forall c p e f, arrives d c p e -> departs d c p f -> False.
Proof.
  intros c p e f A D. assert (e = f) by (eapply slot_fun; eauto using arrives_slot, departs_slot). subst f.
  destruct A as (E & HE & H1), D as (F & HF & H2). unfold edge_at in *. rewrite HE in HF. injection HF as <-.
  apply (T e E HE). congruence.
Qed.
Lemma arrives_fun : forall c p e f, arrives d c p e -> arrives d c p f -> e = f.
Proof. intros. eapply slot_fun; eauto using arrives_slot. Qed.
Lemma arrives_place : forall c p c' p' e, arrives d c p e -> arrives d c' p' e -> c = c' /\ p = p'.
Proof.
  intros c p c' p' e (E & HE & H) (F & HF & H'). unfold edge_at in *. rewrite HE in HF. injection HF as <-.
  rewrite H in H'. injection H' as -> ->. auto.
Qed.
Lemma either : forall c p, c < ncross d -> p < 4 -> exists e, slot d c p e /\ (arrives d c p e \/ departs d c p e).
Proof.
  intros c p Hc Hp. destruct (dto_surj d c p R T Hc Hp) as (a & Da & H).
  assert (H' : dart_to d a (c, p)) by (apply dart_to_dto; auto). destruct H' as (E & HE & K).
  exists (fst a). destruct K as [(_ & K)|(_ & K)].
  - assert (arrives d c p (fst a)) by (exists E; auto). split; auto. apply arrives_slot; auto.
  - assert (departs d c p (fst a)) by (exists E; auto). split; auto. apply departs_slot; auto.
Qed.
Lemma arrives_across : forall c p e, arrives d c p e ->
  exists f, departs d c ((p + 2) mod 4) f /\ continues d e f.
Proof.
  intros c p e (E & HE & H). destruct (proj1 (G e E HE)) as (f & F & HF & S & K). injection H as <- <-.
  exists f. split; [exists F; auto|]. exists E, F. unfold tail_slot in K. apply pair_equal_spec in K as (K1 & K2). auto.
Qed.
Lemma departs_across : forall c p e, departs d c p e ->
  exists f, arrives d c ((p + 2) mod 4) f /\ continues d f e.
Proof.
  intros c p e (E & HE & H). destruct (proj2 (G e E HE)) as (f & F & HF & S & K). unfold tail_slot in H.
  apply pair_equal_spec in H as (H1 & H2). rewrite H1, H2 in *.
  exists f. split; [exists F; auto|]. exists F, E. unfold head_slot in K. apply pair_equal_spec in K as (K1 & K2).
  split; auto. split; auto. split; [congruence|]. rewrite K2, H2.
  assert (p < 4). { destruct (proj2 R e E HE) as (_ & S2). apply slot_lt in S2. rewrite H2 in S2. lia. }
  destruct (small4 p H) as [->|[->|[->| ->]]]; reflexivity.
Qed.

Lemma incoming_arrives : forall c x p, nth_error (p_cross d) c = Some x -> p < 4 ->
  exists b, incoming d c x p = Ok b /\ (b = true <-> exists e, arrives d c p e) /\ (b = false <-> exists e, departs d c p e).
Proof.
  intros c x p Hx Hp.
  assert (Hc : c < ncross d) by (apply nth_error_Some; congruence).
  destruct (either c p Hc Hp) as (e & S & K).
  assert (e = cedge x p) by (destruct S as (_ & y & Hy & <-); congruence).
  assert (He : e < nedges d). { destruct K as [(E & HE & _)|(E & HE & _)]; eapply edge_at_lt; eauto. }
  destruct (edge_at_ex d e He) as (E & HE).
  assert (Hg : get (p_edge d) (cedge x p) = Ok E) by (apply get_ok; rewrite <- H; exact HE).
  unfold incoming. rewrite Hg. cbn [bind].
  exists ((e_head E =? c) && (e_headpos E =? p)). split; auto.
  assert (Q : (e_head E =? c) && (e_headpos E =? p) = true <-> arrives d c p e).
  { rewrite andb_true_iff, !Nat.eqb_eq. split.
    - intros (<- & <-). exists E. auto.
    - intros (E' & HE' & HH). unfold edge_at in *. rewrite HE in HE'. injection HE' as <-. injection HH as -> ->. auto. }
  set (b := (e_head E =? c) && (e_headpos E =? p)) in *. clearbody b.
  split; split.
  - intros B. exists e. apply Q, B.
  - intros (f & A). apply Q. destruct K as [K|K]; auto. exfalso. eapply not_both; eauto.
  - intros B. exists e. destruct K as [K|K]; auto. apply Q in K. congruence.
  - intros (f & D). destruct b; auto. assert (B := proj1 Q eq_refl). exfalso. eapply not_both; eauto.
Qed.

Definition cross_passes (in0 in1 : bool) (s : orient) : passes :=
  match in0, in1, s with
  | true, true, Neg => mkPasses 1 3 0 2
  | true, true, _ => mkPasses 0 2 1 3
  | true, false, Neg => mkPasses 0 2 3 1
  | true, false, _ => mkPasses 3 1 0 2
  | false, true, Neg => mkPasses 2 0 1 3
  | false, true, _ => mkPasses 1 3 2 0
  | false, false, Neg => mkPasses 3 1 2 0
  | false, false, _ => mkPasses 2 0 3 1
  end.
Lemma across_arrives : forall c p, p < 4 -> (exists e, departs d c p e) -> exists e, arrives d c ((p + 2) mod 4) e.
Proof. intros c p Hp (e & D). destruct (departs_across c p e D) as (f & A & _). eauto. Qed.
Lemma across_departs : forall c p, p < 4 -> (exists e, arrives d c p e) -> exists e, departs d c ((p + 2) mod 4) e.
Proof. intros c p Hp (e & D). destruct (arrives_across c p e D) as (f & A & _). eauto. Qed.

Lemma over_under_range : forall c s oi oo ui uo, over_under d c s oi oo ui uo -> oi < 4 /\ oo < 4 /\ ui < 4 /\ uo < 4.
Proof.
  intros c s oi oo ui uo ((e1 & A1) & (e2 & A2) & (e3 & A3) & (e4 & A4) & _).
  apply arrives_slot, slot_lt in A1. apply arrives_slot, slot_lt in A3.
  apply departs_slot, slot_lt in A2. apply departs_slot, slot_lt in A4. lia.
Qed.

Lemma overunder_unique : forall c s oi oo ui uo oi' oo' ui' uo',
  over_under d c s oi oo ui uo -> over_under d c s oi' oo' ui' uo' ->
  oi = oi' /\ oo = oo' /\ ui = ui' /\ uo = uo'.
Proof.
  intros c s oi oo ui uo oi' oo' ui' uo' H H'.
  destruct (over_under_range _ _ _ _ _ _ H) as (L1 & L2 & L3 & L4).
  destruct (over_under_range _ _ _ _ _ _ H') as (L1' & L2' & L3' & L4').
  destruct H as ((e1 & A1) & (e2 & A2) & (e3 & A3) & (e4 & A4) & E1 & E2 & E3).
  destruct H' as ((f1 & B1) & (f2 & B2) & (f3 & B3) & (f4 & B4) & F1 & F2 & F3).
  assert (NB : forall p, (exists e, arrives d c p e) -> (exists e, departs d c p e) -> False).
  { intros p (e & A) (f & B). eapply not_both; eauto. }
  assert (N1 : oi <> oo') by (intros ->; apply (NB oo'); eauto).
  assert (N2 : oi <> uo') by (intros ->; apply (NB uo'); eauto).
  assert (N3 : ui <> oo') by (intros ->; apply (NB oo'); eauto).
  assert (N4 : ui <> uo') by (intros ->; apply (NB uo'); eauto).
  clear NB A1 A2 A3 A4 B1 B2 B3 B4.
  set (k := match s with Neg => 3 | _ => 1 end) in *.
  assert (Hk : k = 1 \/ k = 3) by (destruct s; cbn; auto). clearbody k.
  destruct (small4 oi L1) as [->|[->|[->| ->]]]; destruct (small4 oi' L1') as [->|[->|[->| ->]]];
  destruct (small4 ui L3) as [->|[->|[->| ->]]]; destruct (small4 ui' L3') as [->|[->|[->| ->]]];
  destruct Hk as [->| ->]; cbn in E1, E2, F1, F2; subst; cbn in E3, F3; try discriminate; try lia.
Qed.

Lemma internal_spec : forall c x, nth_error (p_cross d) c = Some x ->
  exists oi oo ui uo, pd_overunder_internal d c = Ok (mkPasses oi oo ui uo) /\ over_under d c (csign x) oi oo ui uo.
Proof.
  intros c x Hx. unfold pd_overunder_internal.
  replace (get (p_cross d) c) with (Ok x) by (symmetry; apply get_ok; auto). cbn [bind].
  destruct (incoming_arrives c x 0 Hx) as (b0 & -> & T0 & F0); [lia|].
  destruct (incoming_arrives c x 1 Hx) as (b1 & -> & T1 & F1); [lia|]. cbn [bind].
  pose proof (across_arrives c 0) as X0. pose proof (across_arrives c 1) as X1.
  pose proof (across_departs c 0) as Y0. pose proof (across_departs c 1) as Y1.
  cbn [Nat.add Nat.modulo Nat.divmod fst snd Nat.sub] in X0, X1, Y0, Y1.
  assert (H02 : b0 = true -> (exists e, arrives d c 0 e) /\ (exists e, departs d c 2 e)).
  { intros B. pose proof (proj1 T0 B). split; [exact H || (apply Y0; auto; lia)|exact H || (apply Y0; auto; lia)]. }
  assert (H20 : b0 = false -> (exists e, arrives d c 2 e) /\ (exists e, departs d c 0 e)).
  { intros B. pose proof (proj1 F0 B). split; [exact H || (apply X0; auto; lia)|exact H || (apply X0; auto; lia)]. }
  assert (H13 : b1 = true -> (exists e, arrives d c 1 e) /\ (exists e, departs d c 3 e)).
  { intros B. pose proof (proj1 T1 B). split; [exact H || (apply Y1; auto; lia)|exact H || (apply Y1; auto; lia)]. }
  assert (H31 : b1 = false -> (exists e, arrives d c 3 e) /\ (exists e, departs d c 1 e)).
  { intros B. pose proof (proj1 F1 B). split; [exact H || (apply X1; auto; lia)|exact H || (apply X1; auto; lia)]. }
  unfold over_under.
  destruct b0, b1, (csign x); do 4 eexists; (split; [reflexivity|]);
    repeat match goal with H : true = true -> _ |- _ => specialize (H eq_refl) | H : false = false -> _ |- _ => specialize (H eq_refl) end;
    intuition.
Qed.
End Diagram.
