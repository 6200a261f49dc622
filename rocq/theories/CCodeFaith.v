(** Crossing codes: two diagrams have the same code exactly when they differ in the names of their edges and in the places
    where their crossings start. *)
From Coq Require Import List NArith ZArith Lia Bool Arith.
From Verif Require Import Base ListAux Iterators Pd PdSpec PdProofs PdCross Relabel RelabelProofs DartMap DeloopProofs
  OverUnder OverUnderSpec OverUnderProofs AltProofs CCode CCodeSpec CCodeProofs CCodeRead CCodeCheck.
Import ListNotations.
Open Scope nat_scope.

Section Faith.
Context (d d' : pd) (R : ends_recorded d) (G : goes_through d) (T : two_ended d) (SG : all_signed d).
Context (R' : ends_recorded d') (G' : goes_through d') (T' : two_ended d') (SG' : all_signed d').

Lemma letter_at : forall c, c < ncross d -> exists p, at_letter d c La p /\ p < 4.
Proof.
  intros c Hc. destruct (nth_error (p_cross d) c) as [x|] eqn:X; [|apply nth_error_None in X; unfold ncross in Hc; lia].
  destruct (at_crossing d R G T SG c x X) as (oi & oo & ui & uo & _ & O & A & _). exists oo. split; auto. apply (over_under_range d R _ _ _ _ _ _ O).
Qed.
Lemma letter_turn : forall c p x q, at_letter d c La p -> at_letter d c x q -> q = (p + match x with La => 0 | Lb => 3 | Lc => 2 | Ld => 1 end) mod 4 /\ p < 4 /\ q < 4.
Proof.
  intros c p x q A (s & oi & oo & ui & uo & S & O & ->).
  assert (p = oo). { apply (at_letter_fun d R T c La); auto. exists s, oi, oo, ui, uo. auto. } subst p.
  destruct (over_under_range d R _ _ _ _ _ _ O) as (_ & L2 & _).
  split; [|split; auto; destruct x; auto; apply Nat.mod_upper_bound; lia]. destruct x; auto. rewrite Nat.add_0_r, Nat.mod_small; auto.
Qed.
End Faith.

Section Two.
Context (d d' : pd) (R : ends_recorded d) (G : goes_through d) (T : two_ended d) (SG : all_signed d).
Context (R' : ends_recorded d') (G' : goes_through d') (T' : two_ended d') (SG' : all_signed d').

Lemma same_code_relabels : forall l, describes d l -> describes d' l -> exists rho pi, relabelled d d' (fun c => c) rho pi.
Proof.
  intros l D D'.
  assert (NC : ncross d' = ncross d) by (destruct D, D'; congruence).
  assert (NE : nedges d' = nedges d) by (rewrite (proj1 R), (proj1 R'); lia).
  destruct (finite_choice (fun c r => r < 4 /\ forall x p p', at_letter d c x p -> at_letter d' c x p' -> p' = (p + 4 - r) mod 4) (ncross d)) as (rho & HR).
  { intros c Hc. destruct (letter_at d R G T SG c Hc) as (p & A & Lp). destruct (letter_at d' R' G' T' SG' c ltac:(lia)) as (p' & A' & Lp').
    exists ((p + 4 - p') mod 4). split; [apply Nat.mod_upper_bound; lia|]. intros x q q' B B'.
    destruct (letter_turn d R T c p x q A B) as (-> & _). destruct (letter_turn d' R' T' c p' x q' A' B') as (-> & _).
    destruct (small4 p Lp) as [->|[->|[->| ->]]], (small4 p' Lp') as [->|[->|[->| ->]]]; destruct x; reflexivity. }
  assert (EE : forall e, e < nedges d -> exists e', forall E, edge_at d e E -> exists E', edge_at d' e' E' /\
    head_slot E' = moved (fun c => c) rho (e_head E) (e_headpos E) /\ tail_slot E' = moved (fun c => c) rho (e_tail E) (e_tailpos E)).
  { intros e He. destruct (nth_error (p_edge d) e) as [E|] eqn:HE; [|apply nth_error_None in HE; unfold nedges in He; lia].
    destruct (letters_ok d R G T SG e E HE) as (h & t & _ & A & B).
    assert (W : wired d (e_tail E) t (e_head E) h). { exists e, (e_tailpos E), (e_headpos E). split; auto. split; auto. left. split; exists E; auto. }
    assert (Ht : e_tail E < ncross d) by (destruct (proj2 R e E HE) as (_ & Q); apply slot_lt in Q; lia).
    assert (Hh : e_head E < ncross d) by (destruct (proj2 R e E HE) as (Q & _); apply slot_lt in Q; lia).
    destruct (line_of d l D _ Ht) as (m & M & S & W1). destruct (line_of d' l D' (e_tail E) ltac:(lia)) as (m' & M' & S' & W2).
    assert (m' = m) by congruence. subst m'. destruct (wired_fun d R T _ _ _ _ _ _ (W1 t) W) as (Q1 & Q2). specialize (W2 t). rewrite Q1, Q2 in W2.
    destruct W2 as (e' & p & p' & B' & A' & K).
    assert (DL : out_letter m t) by (apply (departs_letter d R G T SG l D (e_tail E) m t (e_tailpos E) e M B); exists E; auto).
    destruct K as [(K1 & K2)|(K1 & K2)].
    - exists e'. intros E0 HE0. unfold edge_at in HE0. rewrite HE in HE0. injection HE0 as <-.
      destruct K1 as (E' & HE' & Q3). destruct K2 as (E2 & HE2 & Q4). unfold edge_at in *. rewrite HE' in HE2. injection HE2 as <-.
      exists E'. split; auto. rewrite Q3, Q4. unfold moved. destruct (HR _ Hh) as (_ & HR1). destruct (HR _ Ht) as (_ & HR2).
      rewrite <- (HR1 _ _ _ A A'), <- (HR2 _ _ _ B B'). auto.
    - exfalso. pose proof (arrives_letter d' R' G' T' SG' l D' _ _ _ _ _ M' B' K1) as AL.
      destruct DL as [->| ->], AL as [AL|AL]; destruct (m_positive m); discriminate. }
  destruct (finite_choice _ _ EE) as (pi & HP). clear EE.
  assert (LP : forall e E, edge_at d e E -> e < nedges d) by (intros e E HE; eapply edge_at_lt; eauto).
  assert (MV : forall c p q, c < ncross d -> p < 4 -> q < 4 -> (p + 4 - rho c) mod 4 = (q + 4 - rho c) mod 4 -> p = q).
  { intros c p q Hc Lp Lq E. destruct (HR c Hc) as (Lr & _).
    destruct (small4 p Lp) as [->|[->|[->| ->]]], (small4 q Lq) as [->|[->|[->| ->]]], (small4 _ Lr) as [Z|[Z|[Z|Z]]]; rewrite Z in E; cbn in E; auto; discriminate. }
  exists rho, pi. constructor; auto.
  - split; auto.
  - intros c Hc. apply HR; auto.
  - split.
    + intros e He. destruct (nth_error (p_edge d) e) as [E|] eqn:HE; [|apply nth_error_None in HE; unfold nedges in He; lia].
      destruct (HP e He E HE) as (E' & HE' & _). rewrite <- NE. eapply edge_at_lt; eauto.
    + intros e f He Hf Q. destruct (nth_error (p_edge d) e) as [E|] eqn:HE; [|apply nth_error_None in HE; unfold nedges in He; lia].
      destruct (nth_error (p_edge d) f) as [F|] eqn:HF; [|apply nth_error_None in HF; unfold nedges in Hf; lia].
      destruct (HP e He E HE) as (E' & HE' & Q1 & _). destruct (HP f Hf F HF) as (F' & HF' & Q2 & _). rewrite Q in HE'. unfold edge_at in *. rewrite HE' in HF'. injection HF' as <-.
      rewrite Q1 in Q2. unfold moved in Q2. apply pair_equal_spec in Q2 as (Q3 & Q4). rewrite <- Q3 in Q4.
      destruct (proj2 R e E HE) as (S1 & _). destruct (proj2 R f F HF) as (S2 & _).
      pose proof (slot_lt _ _ _ _ S1). pose proof (slot_lt _ _ _ _ S2).
      apply MV in Q4; try lia. rewrite Q3, Q4 in S1. eapply slot_fun; eauto.
  - intros c p e Sl.
    destruct (nth_error (p_edge d) e) as [E|] eqn:HE.
    2:{ exfalso. apply nth_error_None in HE. destruct (slot_lt _ _ _ _ Sl) as (Hc & Lp).
        destruct (nth_error (p_cross d) c) as [x|] eqn:X; [|apply nth_error_None in X; unfold ncross in Hc; lia].
        destruct (at_crossing d R G T SG c x X) as (oi & oo & ui & uo & _ & O & _). pose proof O as ((e1 & B1) & (e2 & B2) & (e3 & B3) & (e4 & B4) & _).
        destruct (places_split d R _ _ _ _ _ _ O) as (_ & _ & _ & _ & _ & _ & PS).
        destruct (PS p Lp) as [->|[->|[->| ->]]].
        - pose proof (slot_fun _ _ _ _ _ Sl (arrives_slot d R _ _ _ B1)) as Z. destruct B1 as (E1 & HE1 & _). rewrite <- Z in HE1. apply LP in HE1. unfold nedges in HE1. lia.
        - pose proof (slot_fun _ _ _ _ _ Sl (departs_slot d R _ _ _ B2)) as Z. destruct B2 as (E1 & HE1 & _). rewrite <- Z in HE1. apply LP in HE1. unfold nedges in HE1. lia.
        - pose proof (slot_fun _ _ _ _ _ Sl (arrives_slot d R _ _ _ B3)) as Z. destruct B3 as (E1 & HE1 & _). rewrite <- Z in HE1. apply LP in HE1. unfold nedges in HE1. lia.
        - pose proof (slot_fun _ _ _ _ _ Sl (departs_slot d R _ _ _ B4)) as Z. destruct B4 as (E1 & HE1 & _). rewrite <- Z in HE1. apply LP in HE1. unfold nedges in HE1. lia. }
    destruct (HP e (LP _ _ HE) E HE) as (E' & HE' & Q1 & Q2). destruct (proj2 R' _ _ HE') as (S1 & S2).
    destruct (slot_end d c p e E R T Sl HE) as [Q|Q]; unfold head_slot, tail_slot, moved in *; apply pair_equal_spec in Q as (-> & ->);
      cbn [snd]; [apply pair_equal_spec in Q1 as (Q4 & Q3)|apply pair_equal_spec in Q2 as (Q4 & Q3)]; rewrite Q4, Q3 in *; auto.
  - intros c s S. assert (Hc : c < ncross d) by (destruct S as (x & X & _); unfold ncross; apply nth_error_Some; congruence).
    destruct (line_of d l D c Hc) as (m & M & S1 & _). destruct (line_of d' l D' c ltac:(lia)) as (m' & M' & S2 & _).
    assert (m' = m) by congruence. subst m'. destruct S as (x & X & <-). destruct S1 as (x1 & X1 & S1). rewrite X in X1. injection X1 as <-. rewrite S1. auto.
  - intros e E HE. apply (HP e (LP _ _ HE) E HE).
Qed.

Lemma relabels_same_code : forall rho pi, relabelled d d' (fun c => c) rho pi -> forall l, describes d l -> describes d' l.
Proof.
  intros rho pi RL l (LN & D). pose proof (rl_rho _ _ _ _ _ RL) as LR.
  assert (DP : forall c p e, departs d c p e -> departs d' c ((p + 4 - rho c) mod 4) (pi e)).
  { intros c p e (E & HE & Q). destruct (rl_edge _ _ _ _ _ RL e E HE) as (E' & HE' & _ & Q2). exists E'. split; auto. unfold tail_slot in Q. apply pair_equal_spec in Q as (<- & <-). exact Q2. }
  assert (AR : forall c p e, arrives d c p e -> arrives d' c ((p + 4 - rho c) mod 4) (pi e)).
  { intros c p e (E & HE & Q). destruct (rl_edge _ _ _ _ _ RL e E HE) as (E' & HE' & Q2 & _). exists E'. split; auto. unfold head_slot in Q. apply pair_equal_spec in Q as (<- & <-). exact Q2. }
  assert (AL : forall c x p, at_letter d c x p -> at_letter d' c x ((p + 4 - rho c) mod 4)).
  { intros c x p (s & oi & oo & ui & uo & S & O & ->).
    assert (Hc : c < ncross d) by (destruct S as (y & Y & _); unfold ncross; apply nth_error_Some; congruence). specialize (LR c Hc).
    destruct (over_under_range d R _ _ _ _ _ _ O) as (L1 & L2 & L3 & L4).
    destruct O as ((e1 & B1) & (e2 & B2) & (e3 & B3) & (e4 & B4) & E1 & E2 & E3).
    exists s, ((oi + 4 - rho c) mod 4), ((oo + 4 - rho c) mod 4), ((ui + 4 - rho c) mod 4), ((uo + 4 - rho c) mod 4).
    split; [exact (rl_sign _ _ _ _ _ RL c s S)|]. split.
    - split; [exists (pi e1); auto|]. split; [exists (pi e2); auto|]. split; [exists (pi e3); auto|]. split; [exists (pi e4); auto|].
      clear - L1 L2 L3 L4 E1 E2 E3 LR. destruct (small4 _ LR) as [Z|[Z|[Z|Z]]]; rewrite Z; destruct (small4 oi L1) as [->|[->|[->| ->]]], (small4 ui L3) as [->|[->|[->| ->]]]; cbn in E1, E2; subst oo uo; destruct s; cbn in E3; try discriminate; cbn; auto.
    - clear - L2 LR. destruct (small4 _ LR) as [Z|[Z|[Z|Z]]]; rewrite Z; destruct (small4 oo L2) as [->|[->|[->| ->]]]; destruct x; reflexivity. }
  split; [rewrite (rl_ncross _ _ _ _ _ RL); auto|]. intros c m M. destruct (D c m M) as (S & W). split; [exact (rl_sign _ _ _ _ _ RL c _ S)|].
  intros x. destruct (W x) as (e & p & p' & A & B & K). eexists (pi e), _, _. split; [apply AL; exact A|]. split; [apply AL; exact B|].
  destruct K as [(K1 & K2)|(K1 & K2)]; [left|right]; auto.
Qed.
End Two.
