(** A connected planar diagram has at most one component more than half its number of crossings. *)
From Coq Require Import List ZArith Lia Bool Arith Permutation Relations.
From Verif Require Import Base Iterators Pd PdSpec PdProofs Strands PdComps PdCompsProofs OverUnder OverUnderSpec OverUnderProofs LinkProofs
  Planar PlanarProofs Thm_Faces Thm_Planar DeloopProofs.
Import ListNotations.
Open Scope nat_scope.

Section Few.
Context (d : pd) (R : ends_recorded d) (G : goes_through d) (T : two_ended d).
Context (P : strand_partition d (map cp_edge (p_comp d))) (FP : face_partition d (p_face d)).
Context (NF : nfaces d = ncross d + 2) (CN : connected d) (Hn : 0 < ncross d).

Definition inS (S : list nat) (e : nat) : bool := existsb (fun i => onb d i e) S.
Definition mixed (S : list nat) (x : crossing) : bool := existsb (fun p => existsb (fun q => inS S (cedge x p) && negb (inS S (cedge x q))) (seq 0 4)) (seq 0 4).

Lemma slot_arrives : forall c p e i, slot d c p e -> on_comp d e i -> exists p' e', arrives d c p' e' /\ on_comp d e' i.
Proof.
  intros c p e i Sl O. pose proof (slot_lt _ _ _ _ Sl) as (Hc & Hp). destruct (either d R T c p Hc Hp) as (e' & Se & K).
  assert (e' = e) as -> by (eapply slot_fun; eauto). destruct K as [K|K]; [eauto|].
  destruct (departs_across d R G _ _ _ K) as (g & Ag & Cg). exists ((p + 2) mod 4), g. split; auto. apply (on_comp_continues d R G P _ _ _ Cg). exact O.
Qed.
Lemma comp_edge : forall i, i < ncomps d -> exists e, on_comp d e i /\ e < nedges d.
Proof.
  intros i Hi. destruct (nth_error (p_comp d) i) as [C|] eqn:HC; [|apply nth_error_None in HC; unfold ncomps in Hi; lia].
  destruct P as (P1 & _ & P3). destruct (P1 (cp_edge C)) as (NE & _); [apply in_map, (nth_error_In _ _ HC)|].
  destruct (cp_edge C) as [|e l] eqn:E; [congruence|]. exists e. split; [exists C; rewrite E; simpl; auto|]. apply P3, in_concat. exists (cp_edge C).
  split; [apply in_map, (nth_error_In _ _ HC)|rewrite E; simpl; auto].
Qed.
Lemma inS_spec : forall S e, e < nedges d -> (inS S e = true <-> exists i, In i S /\ on_comp d e i).
Proof.
  intros S e He. unfold inS. rewrite existsb_exists. split; intros (i & Hi & O); exists i; split; auto; apply (onb_spec d P i e He); auto.
Qed.
Lemma edge_slot : forall e, e < nedges d -> exists c p, slot d c p e.
Proof. intros e He. destruct (edge_at_ex d e He) as (E & HE). pose proof R as (_ & Rr). destruct (Rr _ _ HE) as (S1 & _). eauto. Qed.

Lemma mixing : forall S i0 j0, In i0 S -> (forall i, In i S -> i < ncomps d) -> j0 < ncomps d -> ~ In j0 S ->
  exists c i j, In i S /\ j < ncomps d /\ ~ In j S /\ meets d i j c.
Proof.
  intros S i0 j0 Hi0 HS Hj0 Nj0.
  assert (SL : forall c p e, slot d c p e -> e < nedges d).
  { intros c p e Sl. destruct (slot_edge d c p e R T Sl) as (E & HE). eapply edge_at_lt; eauto. }
  destruct (existsb (mixed S) (p_cross d)) eqn:B.
  - apply existsb_exists in B. destruct B as (x & Hx & M). apply In_nth_error in Hx. destruct Hx as (c & Hx). unfold mixed in M.
    apply existsb_exists in M. destruct M as (p & Ip & M). apply existsb_exists in M. destruct M as (q & Iq & M). apply in_seq in Ip, Iq.
    apply andb_true_iff in M. destruct M as (M1 & M2). apply negb_true_iff in M2.
    assert (S1 : slot d c p (cedge x p)) by (split; [lia|eauto]). assert (S2 : slot d c q (cedge x q)) by (split; [lia|eauto]).
    apply inS_spec in M1; [|eauto]. destruct M1 as (i & Ii & Oi).
    destruct (comp_pos_ok d P (cedge x q) (SL _ _ _ S2)) as (j & pos & _ & Oj).
    assert (Nj : ~ In j S).
    { intro I. assert (inS S (cedge x q) = true) by (apply inS_spec; eauto). congruence. }
    destruct (slot_arrives _ _ _ _ S1 Oi) as (p' & e' & A1 & O1). destruct (slot_arrives _ _ _ _ S2 Oj) as (q' & f' & A2 & O2).
    exists c, i, j. split; auto. split; [destruct Oj as (C & HC & _); apply nth_error_Some; congruence|]. split; auto.
    exists e', p', f', q'. split; auto. split; auto. split; auto. intros ->.
    apply (arrives_slot d R) in A1, A2. pose proof (slot_fun _ _ _ _ _ A1 A2) as ->. apply Nj. rewrite <- (on_comp_fun d P _ _ _ O1 O2). exact Ii.
  - exfalso.
    assert (Z : forall c p q e f, slot d c p e -> slot d c q f -> inS S e = true -> inS S f = true).
    { intros c p q e f (Hp & x & Hx & <-) (Hq & x' & Hx' & <-) I. rewrite Hx in Hx'. injection Hx' as <-.
      destruct (inS S (cedge x q)) eqn:Q; auto. exfalso. assert (existsb (mixed S) (p_cross d) = true); [|congruence].
      apply existsb_exists. exists x. split; [eapply nth_error_In; eauto|]. apply existsb_exists. exists p. split; [apply in_seq; lia|].
      apply existsb_exists. exists q. split; [apply in_seq; lia|]. rewrite I, Q. reflexivity. }
    assert (Y : forall c c', clos_refl_trans nat (joined d) c c' -> (exists p e, slot d c p e /\ inS S e = true) -> exists p e, slot d c' p e /\ inS S e = true).
    { intros c c' J. induction J as [u v (g & r & r' & S1 & S2)|u|u v w _ IH1 _ IH2]; auto. intros (p & e & Se & Ie). exists r', g. split; auto. eapply Z; [exact Se|exact S1|exact Ie]. }
    destruct (comp_edge i0 (HS _ Hi0)) as (e & Oe & Le). destruct (comp_edge j0 Hj0) as (f & Of & Lf).
    destruct (edge_slot e Le) as (c & p & Se). destruct (edge_slot f Lf) as (c' & q & Sf).
    destruct (Y c c') as (r & g & Sg & Ig).
    + apply CN; [apply slot_lt in Se|apply slot_lt in Sf]; tauto.
    + exists p, e. split; auto. apply inS_spec; eauto.
    + pose proof (Z _ _ _ _ _ Sg Sf Ig) as If. apply inS_spec in If; auto. destruct If as (i & Ii & Oi). apply Nj0. rewrite <- (on_comp_fun d P _ _ _ Oi Of). exact Ii.
Qed.

Lemma grow : forall k, 0 < k -> k <= ncomps d -> exists S X, length S = k /\ NoDup S /\ (forall i, In i S -> i < ncomps d) /\ NoDup X /\
  (forall c, In c X -> c < ncross d /\ exists i j, In i S /\ In j S /\ i <> j /\ meets d i j c) /\ 2 * (k - 1) <= length X.
Proof.
  induction k as [|k IH]; intros Hk Lk; [lia|]. destruct k as [|k].
  { exists [0], []. split; auto. split; [repeat constructor; simpl; auto|]. split; [intros i [<-|[]]; lia|]. split; [constructor|]. split; [intros c []|]. cbn. lia. }
  destruct (IH ltac:(lia) ltac:(lia)) as (S & X & LS & NS & BS & NX & HX & LX).
  assert (J0 : exists j, j < ncomps d /\ ~ In j S).
  { destruct (Forall_Exists_dec (fun j => In j S) (fun j => in_dec Nat.eq_dec j S) (seq 0 (ncomps d))) as [F|E].
    - exfalso. rewrite Forall_forall in F. assert (incl (seq 0 (ncomps d)) S) as I by (intros j Hj; apply F; auto).
      apply NoDup_incl_length in I; [|apply seq_NoDup]. rewrite seq_length in I. lia.
    - apply Exists_exists in E. destruct E as (j & Hj & N). apply in_seq in Hj. exists j. split; auto. lia. }
  destruct J0 as (j0 & Hj0 & Nj0). destruct S as [|i0 S']; [cbn in LS; lia|]. set (S := i0 :: S') in *.
  destruct (mixing S i0 j0 ltac:(simpl; auto) BS Hj0 Nj0) as (c & i & j & Ii & Lj & Nj & M).
  assert (Nij : i <> j) by (intros ->; auto).
  destruct (nth_error (p_comp d) i) as [C|] eqn:HC; [|apply nth_error_None in HC; pose proof (BS i Ii); unfold ncomps in *; lia].
  set (L := map (hd d) (filter (otherb d j) (cp_edge C))).
  assert (NL : NoDup L) by (unfold L; eapply met_once; eauto).
  assert (HL : forall cr, In cr L <-> meets d i j cr) by (intro cr; apply (meets_in d R G T P i j C cr HC)).
  destruct (crossings_even d R G T P FP NF CN i j L (BS i Ii) Nij NL HL) as (m & Hm).
  assert (Lp : 0 < length L).
  { apply HL in M. destruct L; [destruct M|cbn; lia]. }
  exists (j :: S), (L ++ X). split; [cbn [length]; lia|]. split; [constructor; auto|]. split; [intros k' [<-|K]; auto|]. split.
  - apply NoDup_app_intro; auto. intros y Hy Hy'. apply HL in Hy. destruct (HX y Hy') as (_ & a & b & Ia & Ib & _ & Mab).
    destruct Hy as (e & p & f & q & A1 & A2 & N & O1 & O2). destruct Mab as (e' & p' & f' & q' & B1 & B2 & N' & O1' & O2').
    (* the strand of j arrives at one of the two places *)
    assert (U : forall e p, arrives d y p e -> e = e' \/ e = f').
    { clear e p f q A1 A2 N O1 O2. intros e p A. pose proof (arrives_slot d R _ _ _ A) as Sa. pose proof (slot_lt _ _ _ _ Sa) as (Ly & Lp').
      pose proof (arrives_slot d R _ _ _ B1) as S1. pose proof (arrives_slot d R _ _ _ B2) as S2. apply slot_lt in S1 as (_ & L1). apply slot_lt in S2 as (_ & L2).
      assert (Q : forall p q e f, arrives d y p e -> arrives d y q f -> q <> (p + 2) mod 4).
      { intros p1 q1 e1 f1 A1 A2 ->. destruct (arrives_across d G _ _ _ A1) as (g & (E & HE & Tg) & _). destruct A2 as (F & HF & Hf).
        pose proof R as (_ & Rr). destruct (Rr _ _ HE) as (_ & Z1). destruct (Rr _ _ HF) as (Z2 & _). unfold head_slot, tail_slot in *.
        apply MoveProofs.pair_eq in Tg as (T1 & T2). apply MoveProofs.pair_eq in Hf as (H1 & H2). rewrite T1, T2 in Z1. rewrite H1, H2 in Z2.
        pose proof (slot_fun _ _ _ _ _ Z1 Z2) as ->. unfold edge_at in HE, HF. rewrite HE in HF. injection HF as <-.
        apply (T _ _ HE). unfold head_slot, tail_slot. congruence. }
      pose proof (Q _ _ _ _ A B1) as Q1. pose proof (Q _ _ _ _ A B2) as Q2. pose proof (Q _ _ _ _ B1 B2) as Q3.
      assert (p = p' \/ p = q') as [-> | ->].
      { clear -Lp' L1 L2 Q1 Q2 Q3 N'. destruct p as [|[|[|[|?]]]], p' as [|[|[|[|?]]]], q' as [|[|[|[|?]]]]; cbn in *; lia. }
      - left. apply (arrives_slot d R) in A, B1. eapply slot_fun; eauto.
      - right. apply (arrives_slot d R) in A, B2. eapply slot_fun; eauto. }
    destruct (U _ _ A2) as [-> | ->]; apply Nj; [rewrite (on_comp_fun d P _ _ _ O2 O1')|rewrite (on_comp_fun d P _ _ _ O2 O2')]; auto.
  - split.
    + intros y Hy. apply in_app_iff in Hy. destruct Hy as [Hy|Hy].
      * apply HL in Hy. split; [destruct Hy as (e & p & f & q & A1 & _); apply (arrives_slot d R), slot_lt in A1; tauto|]. exists i, j. simpl. auto.
      * destruct (HX y Hy) as (Ly & a & b & Ia & Ib & K). split; auto. exists a, b. simpl. auto.
    + rewrite app_length. lia.
Qed.

Theorem components_few : 2 * ncomps d <= ncross d + 2.
Proof.
  destruct (Nat.eq_dec (ncomps d) 0) as [Z|Z]; [lia|].
  destruct (grow (ncomps d) ltac:(lia) ltac:(lia)) as (S & X & _ & _ & _ & NX & HX & LX).
  assert (length X <= ncross d).
  { rewrite <- (seq_length (ncross d) 0). apply NoDup_incl_length; auto. intros c Hc. apply in_seq. destruct (HX c Hc). lia. }
  lia.
Qed.
End Few.
