(** Alternation of diagrams that are given by the places that are joined, with positive crossings only. *)
From Coq Require Import List ZArith Lia Bool Arith.
From Verif Require Import Base ListAux Iterators Pd PdSpec PdProofs Relabel RelabelProofs Strands PdCompsProofs RegenSpec RegenProofs DeloopProofs
  OverUnder OverUnderSpec OverUnderProofs AltProofs Thm_OverUnder Build BuildSpec.
Import ListNotations.
Open Scope nat_scope.

Section Alt.
Context (d : pd) (R : ends_recorded d) (G : goes_through d) (T : two_ended d).
Context (P : strand_partition d (map cp_edge (p_comp d))).
Context (PS : forall c s, sign_at d c s -> s = Pos).

Definition arr_b (s : nat * nat) : bool := existsb (fun E => (e_head E =? fst s) && (e_headpos E =? snd s)) (p_edge d).
Lemma arr_b_spec : forall s, arr_b s = true <-> exists e, arrives d (fst s) (snd s) e.
Proof.
  intros (c, p). unfold arr_b, arrives, edge_at, head_slot. cbn [fst snd]. rewrite existsb_exists. split.
  - intros (E & I & Q). apply andb_true_iff in Q as (Q1 & Q2). apply Nat.eqb_eq in Q1, Q2. apply In_nth_error in I as (e & He). exists e, E. split; [exact He|rewrite Q1, Q2; reflexivity].
  - intros (e & E & He & Q). injection Q as <- <-. exists E. split; [eapply nth_error_In; eauto|]. rewrite !Nat.eqb_refl. auto.
Qed.
Lemma dep_b_spec : forall s, fst s < ncross d -> snd s < 4 -> arr_b s = false <-> exists e, departs d (fst s) (snd s) e.
Proof.
  intros s Hc Hp. destruct (arr_b s) eqn:E.
  - apply arr_b_spec in E as (e & A). split; [discriminate|]. intros (f & D). exfalso. eapply OverUnderProofs.not_both; eauto.
  - split; auto. intros _. destruct (either d R T _ _ Hc Hp) as (e & _ & [A|D]); [|eauto]. assert (K : arr_b s = true) by (apply arr_b_spec; eauto). congruence.
Qed.
Lemma arr_across : forall c p, c < ncross d -> p < 4 -> arr_b (c, (p + 2) mod 4) = negb (arr_b (c, p)).
Proof.
  intros c p Hc Hp. pose proof (mod4_lt (p + 2)) as Hp2. destruct (arr_b (c, p)) eqn:E; cbn [negb].
  - apply arr_b_spec in E as (e & A). destruct (arrives_across d G _ _ _ A) as (f & D & _). apply dep_b_spec; eauto.
  - apply dep_b_spec in E as (e & D); auto. destruct (departs_across d R G _ _ _ D) as (f & A & _). apply arr_b_spec. eauto.
Qed.
Lemma wire_ends : forall s t, wire d s t -> exists e E, edge_at d e E /\ (s = head_slot E /\ t = tail_slot E \/ s = tail_slot E /\ t = head_slot E).
Proof.
  intros s t (N & e & S1 & S2). destruct (slot_edge d _ _ _ R T S1) as (E & HE). exists e, E. split; auto.
  pose proof (slot_end d _ _ _ E R T S1 HE) as Q1. pose proof (slot_end d _ _ _ E R T S2 HE) as Q2. rewrite <- !surjective_pairing in *.
  destruct Q1, Q2; auto; exfalso; apply N; congruence.
Qed.
Lemma arr_wire : forall s t, wire d s t -> arr_b s = negb (arr_b t).
Proof.
  intros s t W. destruct (wire_ends s t W) as (e & E & HE & K). destruct (proj2 R e E HE) as (S1 & S2). apply slot_lt in S1, S2.
  assert (A1 : arr_b (head_slot E) = true) by (apply arr_b_spec; exists e, E; split; [exact HE|apply surjective_pairing]).
  assert (A2 : arr_b (tail_slot E) = false) by (apply dep_b_spec; [apply S2|apply S2|]; exists e, E; split; [exact HE|apply surjective_pairing]).
  destruct K as [(-> & ->)|(-> & ->)]; rewrite A1, A2; reflexivity.
Qed.
Definition over_b (s : nat * nat) : bool := eqb (arr_b s) (arr_b (fst s, (snd s + 1) mod 4)).
Lemma over_b_spec : forall c p, c < ncross d -> p < 4 -> (over_b (c, p) = true <-> over_at d c p) /\ (over_b (c, p) = false <-> under_at d c p).
Proof.
  intros c p Hc Hp. destruct (nth_error (p_cross d) c) as [x|] eqn:Hx; [|apply nth_error_None in Hx; unfold ncross in Hc; lia].
  assert (SG : sign_at d c (csign x)) by (exists x; auto). pose proof (PS _ _ SG) as Sx. rewrite Sx in SG.
  destruct (strand_places d R G T c Pos SG) as (oi & oo & ui & uo & _ & _ & O). pose proof O as (A1 & A2 & A3 & A4 & Q1 & Q2 & Q3).
  destruct (over_under_range d R _ _ _ _ _ _ O) as (L1 & L2 & L3 & L4).
  assert (B1 : arr_b (c, oi) = true) by (apply arr_b_spec; auto). assert (B3 : arr_b (c, ui) = true) by (apply arr_b_spec; auto).
  assert (B2 : arr_b (c, oo) = false) by (apply dep_b_spec; auto). assert (B4 : arr_b (c, uo) = false) by (apply dep_b_spec; auto).
  assert (OV : over_at d c p <-> p = oi \/ p = oo).
  { split; [|intros K; exists Pos, oi, oo, ui, uo; auto]. intros (s & oi' & oo' & ui' & uo' & S' & O' & K). rewrite (PS _ _ S') in O'. destruct (overunder_unique d R T _ _ _ _ _ _ _ _ _ _ O O') as (-> & -> & -> & ->). auto. }
  assert (UN : under_at d c p <-> p = ui \/ p = uo).
  { split; [|intros K; exists Pos, oi, oo, ui, uo; auto]. intros (s & oi' & oo' & ui' & uo' & S' & O' & K). rewrite (PS _ _ S') in O'. destruct (overunder_unique d R T _ _ _ _ _ _ _ _ _ _ O O') as (-> & -> & -> & ->). auto. }
  rewrite OV, UN. unfold over_b. cbn [fst snd].
  rewrite Q2, Q1 in Q3. subst oo uo.
  destruct (small4 oi L1) as [->|[->|[->| ->]]], (small4 ui L3) as [->|[->|[->| ->]]]; cbn in Q3; try discriminate;
    destruct (small4 p Hp) as [->|[->|[->| ->]]]; cbn [Nat.modulo Nat.divmod Nat.add Nat.sub fst snd] in *; rewrite ?B1, ?B2, ?B3, ?B4; cbn [eqb]; split; split; intros; try lia; try discriminate; auto.
Qed.
Lemma alternates_wires : alternates d <-> forall s t, wire d s t -> over_b s = negb (over_b t).
Proof.
  rewrite (alternates_edges d R G T P). split.
  - intros H s t W. destruct (wire_ends s t W) as (e & E & HE & K). specialize (H e E HE). destruct (proj2 R e E HE) as (S1 & S2). apply slot_lt in S1, S2.
    destruct (over_b_spec _ _ (proj1 S1) (proj2 S1)) as (O1 & U1). destruct (over_b_spec _ _ (proj1 S2) (proj2 S2)) as (O2 & U2). fold (head_slot E) in O1, U1. fold (tail_slot E) in O2, U2.
    destruct H as [(X & Y)|(X & Y)]; [apply U2 in X; apply O1 in Y|apply O2 in X; apply U1 in Y]; destruct K as [(-> & ->)|(-> & ->)]; rewrite X, Y; reflexivity.
  - intros H e E HE. destruct (proj2 R e E HE) as (S1 & S2). assert (W : wire d (tail_slot E) (head_slot E)).
    { split; [intros Q; apply (T e E HE); auto|]. exists e. auto. }
    specialize (H _ _ W). apply slot_lt in S1, S2. destruct (over_b_spec _ _ (proj1 S1) (proj2 S1)) as (O1 & U1). destruct (over_b_spec _ _ (proj1 S2) (proj2 S2)) as (O2 & U2). fold (head_slot E) in O1, U1. fold (tail_slot E) in O2, U2.
    destruct (over_b (head_slot E)) eqn:B1, (over_b (tail_slot E)) eqn:B2; try discriminate; [left|right]; split; tauto.
Qed.

(** ** with the places renamed *)
Context (n : nat) (w : list ((nat * nat) * (nat * nat))) (SH : shaped d n w).
Context (CV : forall c p, c < n -> p < 4 -> exists t, In ((c, p), t) w \/ In (t, (c, p)) w).
Context (WP : forall s t, In (s, t) w -> (fst s < n /\ snd s < 4) /\ (fst t < n /\ snd t < 4)).

Lemma wire_unique : forall s t t', wire d s t -> wire d s t' -> t = t'.
Proof.
  intros s t t' W W'. destruct (wire_ends s t W) as (e & E & HE & K). destruct (wire_ends s t' W') as (e' & E' & HE' & K').
  assert (Q : e = e').
  { destruct W as (_ & f & S1 & _). destruct (proj2 R e E HE) as (H1 & H2). destruct (proj2 R e' E' HE') as (H1' & H2').
    assert (A : slot d (fst s) (snd s) e) by (destruct K as [(-> & _)|(-> & _)]; [exact H1|exact H2]).
    assert (A' : slot d (fst s) (snd s) e') by (destruct K' as [(-> & _)|(-> & _)]; [exact H1'|exact H2']). eapply slot_fun; eauto. }
  subst e'. unfold edge_at in *. rewrite HE in HE'. injection HE' as <-. pose proof (T e E HE) as N. destruct K as [(? & ?)|(? & ?)], K' as [(? & ?)|(? & ?)]; congruence.
Qed.
Lemma wire_sym : forall s t, wire d s t -> wire d t s.
Proof. intros s t (N & e & S1 & S2). split; eauto. Qed.
Definition ov (D : nat -> nat -> bool) (s : nat * nat) : bool := eqb (D (fst s) (snd s)) (D (fst s) ((snd s + 1) mod 4)).
Lemma alternates_shape : exists D : nat -> nat -> bool,
  (forall s t, In (s, t) w -> D (fst s) (snd s) = negb (D (fst t) (snd t))) /\
  (forall c p, c < n -> p < 4 -> D c ((p + 2) mod 4) = negb (D c p)) /\
  (alternates d <-> forall s t, In (s, t) w -> ov D s = negb (ov D t)).
Proof.
  destruct SH as (Nx & sg & r & B & Hr & W).
  exists (fun c p => arr_b (moved sg r c p)).
  assert (MP : forall c p k, c < n -> p < 4 -> snd (moved sg r c ((p + k) mod 4)) = (snd (moved sg r c p) + k) mod 4).
  { intros c p k Hc Hp. cbn [moved snd]. specialize (Hr c Hc). rewrite <- (Nat.add_mod_idemp_r p k) by lia. rewrite <- (Nat.add_mod_idemp_r _ k) by lia. pose proof (mod4_lt k) as Hk. revert Hk. generalize (k mod 4). intros k' Hk.
    destruct (small4 p Hp) as [->|[->|[->| ->]]], (small4 _ Hr) as [Z|[Z|[Z|Z]]], (small4 k' Hk) as [->|[->|[->| ->]]]; rewrite Z; reflexivity. }
  assert (OV : forall s, fst s < n -> snd s < 4 -> ov (fun c p => arr_b (moved sg r c p)) s = over_b (moved sg r (fst s) (snd s))).
  { intros (c, p) Hc Hp. cbn [fst snd] in *. unfold ov, over_b. cbn [fst snd]. f_equal. f_equal. rewrite (surjective_pairing (moved sg r c ((p + 1) mod 4))). rewrite MP by auto. reflexivity. }
  split; [|split].
  - intros s t I. apply arr_wire. apply W. auto.
  - intros c p Hc Hp. rewrite (surjective_pairing (moved sg r c ((p + 2) mod 4))). rewrite MP by auto. rewrite (arr_across (fst (moved sg r c ((p + 2) mod 4)))); [reflexivity| |apply mod4_lt]. rewrite Nx. cbn. apply B; auto.
  - rewrite alternates_wires. split.
    + intros H s t I. destruct (WP s t I) as (Ps & Pt). rewrite !OV by tauto. apply H, W. auto.
    + intros H s t Wst. destruct Wst as (N & e & S1 & S2). pose proof (slot_lt _ _ _ _ S1) as (Lc & Lp). rewrite Nx in Lc.
      assert (X : exists v, fst v < n /\ snd v < 4 /\ moved sg r (fst v) (snd v) = s).
      { assert (I : In (fst s) (map sg (seq 0 n))).
        { assert (ND : NoDup (map sg (seq 0 n))) by (apply NoDup_map_inj; [intros x y Ix Iy Q; apply in_seq in Ix, Iy; apply B; auto; lia|apply seq_NoDup]).
          apply (NoDup_length_incl ND (l' := seq 0 n)); [rewrite map_length; lia| |apply in_seq; lia].
          intros x Ix. apply in_map_iff in Ix as (y & <- & Iy). apply in_seq in Iy. apply in_seq. pose proof (proj1 B y ltac:(lia)). lia. }
        apply in_map_iff in I as (c & Q & I). apply in_seq in I. exists (c, (snd s + r c) mod 4). cbn [fst snd]. split; [lia|]. split; [apply mod4_lt|]. destruct s as (a, b). cbn [fst snd] in *. unfold moved. rewrite Q. f_equal.
        specialize (Hr c ltac:(lia)). destruct (small4 b Lp) as [->|[->|[->| ->]]], (small4 _ Hr) as [Z|[Z|[Z|Z]]]; rewrite Z; reflexivity. }
      destruct X as ((c, p) & Hc & Hp & <-). cbn [fst snd] in *. destruct (CV c p Hc Hp) as (u & I).
      assert (WU : wire d (moved sg r c p) (moved sg r (fst u) (snd u))) by (destruct I as [I|I]; specialize (W _ _ I); cbn [fst snd] in W; auto using wire_sym).
      assert (WT : wire d (moved sg r c p) t) by (split; eauto). pose proof (wire_unique _ _ _ WT WU) as ->.
      assert (PU : fst u < n /\ snd u < 4) by (destruct I as [I|I]; destruct (WP _ _ I); auto).
      pose proof (OV (c, p) Hc Hp) as O1. cbn [fst snd] in O1. rewrite <- (OV u), <- O1 by tauto. destruct I as [I|I]; specialize (H _ _ I); rewrite H; [auto|rewrite negb_involutive; auto].
Qed.
End Alt.
