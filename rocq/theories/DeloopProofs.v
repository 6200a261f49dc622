(** Proofs about the diagrams with a loop removed. *)
From Coq Require Import List ZArith Lia Bool Arith Permutation Relations.
From Verif Require Import Base Iterators ListAux Pd PdSpec PdProofs Relabel RelabelProofs Strands CycleSurgery PdFaces PdFacesProofs LinkProofs Planar RegenSpec
  Thm_Faces Thm_Planar MoveProofs DeloopSpec.
Import ListNotations.
Open Scope nat_scope.

Lemma slot_end : forall d v p x X, ends_recorded d -> two_ended d -> slot d v p x -> edge_at d x X -> (v, p) = head_slot X \/ (v, p) = tail_slot X.
Proof.
  intros d v p x X R T S HX. pose proof (slot_lt _ _ _ _ S) as (Hv & Hp).
  destruct (dto_surj d v p R T Hv Hp) as ((y, o) & D & V). pose proof (dto_slot d _ R D) as S3. rewrite V in S3.
  cbn [fst snd] in S3. pose proof (slot_fun _ _ _ _ _ S S3) as Q3. rewrite <- Q3 in V.
  unfold dto in V. cbn [fst snd] in V. unfold edge_at in HX. rewrite HX in V.
  destruct D as (_ & Ho). cbn [snd] in Ho. destruct Ho as [Ho|Ho]; rewrite Ho in V; auto.
Qed.
Lemma slot_edge : forall d v p x, ends_recorded d -> two_ended d -> slot d v p x -> exists X, edge_at d x X.
Proof.
  intros d v p x R T S. pose proof (slot_lt _ _ _ _ S) as (Hv & Hp).
  destruct (dto_surj d v p R T Hv Hp) as ((y, o) & D & V). pose proof (dto_slot d _ R D) as S3. rewrite V in S3.
  cbn [fst snd] in S3. pose proof (slot_fun _ _ _ _ _ S S3) as ->. apply edge_at_ex. apply D.
Qed.
(** an injection between sets of equal size *)
Lemma onto : forall n m (bad : list nat) (f : nat -> nat), NoDup bad -> (forall x, In x bad -> x < n) -> n = m + length bad ->
  (forall x, x < n -> ~ In x bad -> f x < m) -> (forall x y, x < n -> ~ In x bad -> y < n -> ~ In y bad -> f x = f y -> x = y) ->
  forall y, y < m -> exists x, x < n /\ ~ In x bad /\ f x = y.
Proof.
  intros n m bad f ND HB E FM FI y Hy.
  set (good := filter (fun x => if in_dec Nat.eq_dec x bad then false else true) (seq 0 n)).
  assert (Hg : forall x, In x good <-> x < n /\ ~ In x bad).
  { intro x. unfold good. rewrite filter_In, in_seq. destruct (in_dec Nat.eq_dec x bad); split; intros (A & B); split; auto; try lia; congruence. }
  assert (NG : NoDup good) by (apply NoDup_filter, seq_NoDup).
  assert (P : Permutation (bad ++ good) (seq 0 n)).
  { apply NoDup_Permutation.
    - assert (X : forall l m : list nat, NoDup l -> NoDup m -> (forall x, In x l -> ~ In x m) -> NoDup (l ++ m)).
      { clear. induction l as [|y l IH]; intros m H1 H2 H3; [exact H2|]. inversion H1; subst. cbn. constructor.
        - rewrite in_app_iff. intros [I|I]; [auto|]. apply (H3 y); simpl; auto.
        - apply IH; auto. intros x Hx. apply H3. simpl. auto. }
      apply X; auto. intros x Hx G. apply Hg in G. tauto.
    - apply seq_NoDup.
    - intro x. rewrite in_app_iff, Hg, in_seq. split; [intros [K|K]; [apply HB in K|]; lia|].
      intros K. destruct (in_dec Nat.eq_dec x bad); auto. right. split; auto. lia. }
  assert (LG : length good = m) by (apply Permutation_length in P; rewrite app_length, seq_length in P; lia).
  assert (I : incl (seq 0 m) (map f good)).
  { apply NoDup_length_incl.
    - apply NoDup_map_on; auto. intros a b Ha Hb. apply Hg in Ha, Hb. apply FI; tauto.
    - rewrite map_length, seq_length. lia.
    - intros z Hz. apply in_map_iff in Hz. destruct Hz as (x & <- & Hx). apply Hg in Hx. apply in_seq. destruct Hx as (Hx1 & Hx2). pose proof (FM x Hx1 Hx2). lia. }
  assert (J : In y (map f good)) by (apply I, in_seq; lia). apply in_map_iff in J. destruct J as (x & Q & Hx). apply Hg in Hx. exists x. tauto.
Qed.

(** the edges at c *)
Lemma loop_facts_gen : forall d c e0 e1 e2, ends_recorded d -> two_ended d -> loop_here d c e0 e1 e2 -> e0 <> e2 ->
  exists E0 E1 E2 p q, edge_at d e0 E0 /\ edge_at d e1 E1 /\ edge_at d e2 E2 /\ p < 4 /\ q < 4 /\
    head_slot E0 = (c, (q + 2) mod 4) /\ tail_slot E1 = (c, q) /\ head_slot E1 = (c, p) /\ tail_slot E2 = (c, (p + 2) mod 4) /\
    (p = (q + 1) mod 4 \/ q = (p + 1) mod 4) /\ e0 <> e1 /\ e1 <> e2 /\ c < ncross d /\
    (forall r x, slot d c r x -> (r = p \/ r = q) /\ x = e1 \/ r = (q + 2) mod 4 /\ x = e0 \/ r = (p + 2) mod 4 /\ x = e2) /\
    e_tail E0 <> c /\ e_head E2 <> c.
Proof.
  intros d c e0 e1 e2 R T LH N02. destruct LH as (E0 & E1 & E2 & p & q & H0 & H1 & H2 & Hp & Hq & A0 & A1 & B1 & A2 & Hpq).
  pose proof R as (_ & Rr). destruct (Rr _ _ H0) as (S0 & T0). destruct (Rr _ _ H1) as (S1 & T1). destruct (Rr _ _ H2) as (S2 & T2).
  assert (S0' := S0). assert (T1' := T1). assert (S1' := S1). assert (T2' := T2). unfold head_slot, tail_slot in A0, A1, B1, A2.
  apply pair_eq in A0 as (A0 & A0'). apply pair_eq in A1 as (A1 & A1'). apply pair_eq in B1 as (B1 & B1'). apply pair_eq in A2 as (A2 & A2').
  rewrite A0, A0' in S0. rewrite A1, A1' in T1. rewrite B1, B1' in S1. rewrite A2, A2' in T2.
  assert (N01 : e0 <> e1).
  { intros Q. subst e1. unfold edge_at in *. rewrite H0 in H1. injection H1 as <-. assert (p = (q + 2) mod 4) as QQ by congruence.
    clear -Hp Hq Hpq QQ. destruct p as [|[|[|[|?]]]], q as [|[|[|[|?]]]]; cbn in *; lia. }
  assert (N12 : e1 <> e2).
  { intros Q. subst e2. unfold edge_at in *. rewrite H2 in H1. injection H1 as <-. assert (q = (p + 2) mod 4) as QQ by congruence.
    clear -Hp Hq Hpq QQ. destruct p as [|[|[|[|?]]]], q as [|[|[|[|?]]]]; cbn in *; lia. }
  assert (AC : forall r x, slot d c r x -> (r = p \/ r = q) /\ x = e1 \/ r = (q + 2) mod 4 /\ x = e0 \/ r = (p + 2) mod 4 /\ x = e2).
  { intros r x S. pose proof (slot_lt _ _ _ _ S) as (_ & Hr).
    assert (r = p \/ r = q \/ r = (q + 2) mod 4 \/ r = (p + 2) mod 4) as Q.
    { clear -Hp Hq Hpq Hr. destruct p as [|[|[|[|?]]]], q as [|[|[|[|?]]]], r as [|[|[|[|?]]]]; cbn in *; lia. }
    destruct Q as [-> |[-> |[-> | ->]]].
    - left. split; auto. exact (slot_fun _ _ _ _ _ S S1).
    - left. split; auto. exact (slot_fun _ _ _ _ _ S T1).
    - right. left. split; auto. exact (slot_fun _ _ _ _ _ S S0).
    - right. right. split; auto. exact (slot_fun _ _ _ _ _ S T2). }
  exists E0, E1, E2, p, q. unfold head_slot, tail_slot. rewrite A0, A0', A1, A1', B1, B1', A2, A2'.
  do 10 (split; [auto|]). split; [auto|]. split; [auto|]. split; [apply slot_lt in S0; tauto|]. split; [exact AC|].
  split; intro Q.
  - rewrite Q in T0. destruct (AC _ _ T0) as [(_ & X)|[(X & _)|(_ & X)]]; try congruence. apply (T _ _ H0). unfold head_slot, tail_slot. congruence.
  - rewrite Q in S2. destruct (AC _ _ S2) as [(_ & X)|[(_ & X)|(X & _)]]; try congruence. apply (T _ _ H2). unfold head_slot, tail_slot. congruence.
Qed.

Section Cut.
Context (d o : pd) (c e0 e1 e2 : nat) (kc ke : nat -> nat) (H : loop_removed d o c e0 e1 e2 kc (fun _ => 0) ke).
Context (R : ends_recorded d) (G : goes_through d) (T : two_ended d).

Lemma still : forall v p, p < 4 -> moved kc (fun _ => 0) v p = (kc v, p).
Proof. intros v p Hp. unfold moved. f_equal. destruct p as [|[|[|[|?]]]]; cbn; lia. Qed.
Definition nm (x : nat) : nat := if x =? e2 then e0 else x.

Lemma loop_facts : exists E0 E1 E2 p q, edge_at d e0 E0 /\ edge_at d e1 E1 /\ edge_at d e2 E2 /\ p < 4 /\ q < 4 /\
    head_slot E0 = (c, (q + 2) mod 4) /\ tail_slot E1 = (c, q) /\ head_slot E1 = (c, p) /\ tail_slot E2 = (c, (p + 2) mod 4) /\
    (p = (q + 1) mod 4 \/ q = (p + 1) mod 4) /\ e0 <> e1 /\ e1 <> e2 /\ c < ncross d /\
    (forall r x, slot d c r x -> (r = p \/ r = q) /\ x = e1 \/ r = (q + 2) mod 4 /\ x = e0 \/ r = (p + 2) mod 4 /\ x = e2) /\
    e_tail E0 <> c /\ e_head E2 <> c.
Proof. exact (loop_facts_gen d c e0 e1 e2 R T (lr_loop _ _ _ _ _ _ _ _ _ H) (lr_diff _ _ _ _ _ _ _ _ _ H)). Qed.

Lemma e_tail_c : forall x X, edge_at d x X -> (e_tail X = c <-> x = e1 \/ x = e2).
Proof.
  intros x X HX. destruct loop_facts as (E0 & E1 & E2 & p & q & H0 & H1 & H2 & Hp & Hq & A0 & A1 & B1 & A2 & Hpq & N01 & N12 & Hc & AC & K0 & K2).
  unfold head_slot, tail_slot in *. unfold edge_at in *. split.
  - intro Q. pose proof R as (_ & Rr). destruct (Rr _ _ HX) as (_ & S). rewrite Q in S. destruct (AC _ _ S) as [(_ & ->)|[(_ & ->)|(_ & ->)]]; auto.
    exfalso. rewrite HX in H0. injection H0 as <-. auto.
  - intros [-> | ->]; [rewrite HX in H1; injection H1 as <-|rewrite HX in H2; injection H2 as <-]; congruence.
Qed.
Lemma e_head_c : forall x X, edge_at d x X -> (e_head X = c <-> x = e0 \/ x = e1).
Proof.
  intros x X HX. destruct loop_facts as (E0 & E1 & E2 & p & q & H0 & H1 & H2 & Hp & Hq & A0 & A1 & B1 & A2 & Hpq & N01 & N12 & Hc & AC & K0 & K2).
  unfold head_slot, tail_slot in *. unfold edge_at in *. split.
  - intro Q. pose proof R as (_ & Rr). destruct (Rr _ _ HX) as (S & _). rewrite Q in S. destruct (AC _ _ S) as [(_ & ->)|[(_ & ->)|(_ & ->)]]; auto.
    exfalso. rewrite HX in H2. injection H2 as <-. auto.
  - intros [-> | ->]; [rewrite HX in H0; injection H0 as <-|rewrite HX in H1; injection H1 as <-]; congruence.
Qed.
Lemma nm_other : forall x, x <> e2 -> nm x = x.
Proof. intros x N. unfold nm. destruct (Nat.eqb_spec x e2); congruence. Qed.
Lemma nm_e2 : nm e2 = e0.
Proof. unfold nm. rewrite Nat.eqb_refl. reflexivity. Qed.

Lemma tail_at : forall x X, edge_at d x X -> e_tail X <> c -> x <> e1 /\ x <> e2 /\
  exists X', edge_at o (ke (nm x)) X' /\ tail_slot X' = (kc (e_tail X), e_tailpos X).
Proof.
  intros x X HX N. assert (x <> e1 /\ x <> e2) as (N1 & N2) by (split; intro Q; apply N, (e_tail_c x X HX); auto).
  split; auto. split; auto. rewrite nm_other by auto. pose proof R as (_ & Rr). destruct (Rr _ _ HX) as (_ & S). apply slot_lt in S.
  destruct (Nat.eq_dec x e0) as [->|N0].
  - destruct loop_facts as (E0 & E1 & E2 & p & q & H0 & H1 & H2 & _).
    destruct (lr_join _ _ _ _ _ _ _ _ _ H X E2 HX H2) as (X' & HX' & _ & K). exists X'. split; auto. rewrite K. apply still. tauto.
  - destruct (lr_edge _ _ _ _ _ _ _ _ _ H x X N0 N1 N2 HX) as (X' & HX' & _ & K). exists X'. split; auto. rewrite K. apply still. tauto.
Qed.
Lemma head_at : forall x X, edge_at d x X -> e_head X <> c -> x <> e0 /\ x <> e1 /\
  exists X', edge_at o (ke (nm x)) X' /\ head_slot X' = (kc (e_head X), e_headpos X).
Proof.
  intros x X HX N. assert (x <> e0 /\ x <> e1) as (N1 & N2) by (split; intro Q; apply N, (e_head_c x X HX); auto).
  split; auto. split; auto. pose proof R as (_ & Rr). destruct (Rr _ _ HX) as (S & _). apply slot_lt in S.
  destruct (Nat.eq_dec x e2) as [->|N0].
  - rewrite nm_e2. destruct loop_facts as (E0 & E1 & E2 & p & q & H0 & H1 & H2 & _).
    destruct (lr_join _ _ _ _ _ _ _ _ _ H E0 X H0 HX) as (X' & HX' & K & _). exists X'. split; auto. rewrite K. apply still. tauto.
  - rewrite nm_other by auto. destruct (lr_edge _ _ _ _ _ _ _ _ _ H x X N1 N2 N0 HX) as (X' & HX' & K & _). exists X'. split; auto. rewrite K. apply still. tauto.
Qed.
Lemma slot_at : forall v r x, v <> c -> slot d v r x -> slot o (kc v) r (ke (nm x)).
Proof.
  intros v r x N S. pose proof (lr_slot _ _ _ _ _ _ _ _ _ H v r x N S) as K. apply slot_lt in S. rewrite still in K by tauto. exact K.
Qed.
Lemma e_lt : e0 < nedges d /\ e1 < nedges d /\ e2 < nedges d.
Proof.
  destruct loop_facts as (E0 & E1 & E2 & p & q & H0 & H1 & H2 & _). split; [|split]; eapply edge_at_lt; eauto.
Qed.
Lemma n12 : e1 <> e2.
Proof. destruct loop_facts as (E0 & E1 & E2 & p & q & H0 & H1 & H2 & Hp & Hq & A0 & A1 & B1 & A2 & Hpq & N01 & N12 & _). exact N12. Qed.
Lemma n01 : e0 <> e1.
Proof. destruct loop_facts as (E0 & E1 & E2 & p & q & H0 & H1 & H2 & Hp & Hq & A0 & A1 & B1 & A2 & Hpq & N01 & N12 & _). exact N01. Qed.
Lemma n02 : e0 <> e2.
Proof. exact (lr_diff _ _ _ _ _ _ _ _ _ H). Qed.
Lemma c_lt : c < ncross d.
Proof. destruct loop_facts as (E0 & E1 & E2 & p & q & H0 & H1 & H2 & Hp & Hq & A0 & A1 & B1 & A2 & Hpq & N01 & N12 & Hc & _). exact Hc. Qed.
Lemma edge_onto : forall y, y < nedges o -> exists x, x < nedges d /\ x <> e1 /\ x <> e2 /\ ke x = y.
Proof.
  intros y Hy. destruct e_lt as (L0 & L1 & L2).
  destruct (onto (nedges d) (nedges o) [e1; e2] ke) with (y := y) as (x & Lx & N & Q); auto.
  - pose proof n12. repeat constructor; cbn; intuition congruence.
  - intros x [<-|[<-|[]]]; auto.
  - rewrite (lr_nedges _ _ _ _ _ _ _ _ _ H). reflexivity.
  - intros x Lx N. cbn in N. apply (lr_ke _ _ _ _ _ _ _ _ _ H); auto.
  - intros x z Lx N Lz N' Q. cbn in N, N'. apply (lr_ke_inj _ _ _ _ _ _ _ _ _ H); auto.
  - exists x. cbn in N. intuition congruence.
Qed.
Lemma cross_onto : forall w, w < ncross o -> exists v, v < ncross d /\ v <> c /\ kc v = w.
Proof.
  intros w Hw. destruct (onto (ncross d) (ncross o) [c] kc) with (y := w) as (v & Lv & N & Q); auto.
  - repeat constructor; cbn; tauto.
  - intros v [<-|[]]. apply c_lt.
  - rewrite (lr_ncross _ _ _ _ _ _ _ _ _ H). cbn. lia.
  - intros v Lv N. cbn in N. apply (lr_kc _ _ _ _ _ _ _ _ _ H); auto.
  - intros v u Lv N Lu N' Q. cbn in N, N'. apply (lr_kc_inj _ _ _ _ _ _ _ _ _ H); auto.
  - exists v. cbn in N. intuition congruence.
Qed.

(** the two ends of an edge of the new diagram *)
Lemma edge_back : forall y Y, edge_at o y Y -> exists x X XH, x <> e1 /\ x <> e2 /\ y = ke x /\ edge_at d x X /\ e_tail X <> c /\
  tail_slot Y = (kc (e_tail X), e_tailpos X) /\
  exists z, nm z = x /\ z <> e0 /\ z <> e1 /\ edge_at d z XH /\ e_head XH <> c /\ head_slot Y = (kc (e_head XH), e_headpos XH) /\
  (z = x \/ x = e0 /\ z = e2).
Proof.
  intros y Y HY. destruct (edge_onto y (edge_at_lt _ _ _ HY)) as (x & Lx & N1 & N2 & <-).
  destruct (edge_at_ex d x Lx) as (X & HX).
  assert (NT : e_tail X <> c) by (intro Q; apply (e_tail_c x X HX) in Q; tauto).
  destruct (tail_at x X HX NT) as (_ & _ & X' & HX' & K). rewrite nm_other in HX' by auto. unfold edge_at in HY, HX'. rewrite HY in HX'. injection HX' as <-.
  destruct (Nat.eq_dec x e0) as [->|N0].
  - destruct loop_facts as (E0 & E1 & E2 & p & q & H0 & H1 & H2 & Hp & Hq & A0 & A1 & B1 & A2 & Hpq & N01 & N12 & Hc & AC & K0 & K2).
    destruct (head_at e2 E2 H2 K2) as (_ & _ & X' & HX' & K'). rewrite nm_e2 in HX'. unfold edge_at in HX'. rewrite HY in HX'. injection HX' as <-.
    exists e0, X, E2. split; [exact n01|]. split; [exact n02|]. do 4 (split; [auto|]). exists e2. pose proof n02. pose proof n12. split; [apply nm_e2|]. repeat (split; auto).
  - assert (NH : e_head X <> c) by (intro Q; apply (e_head_c x X HX) in Q; tauto).
    destruct (head_at x X HX NH) as (_ & _ & X' & HX' & K'). rewrite nm_other in HX' by auto. unfold edge_at in HX'. rewrite HY in HX'. injection HX' as <-.
    exists x, X, X. do 6 (split; [auto|]). exists x. split; [apply nm_other; auto|]. repeat (split; auto).
Qed.
Lemma cut_recorded : ends_recorded o.
Proof.
  split; [pose proof (lr_nedges _ _ _ _ _ _ _ _ _ H); pose proof (lr_ncross _ _ _ _ _ _ _ _ _ H); destruct R as (N & _); lia|].
  intros y Y HY. destruct (edge_back y Y HY) as (x & X & XH & N1 & N2 & -> & HX & NT & KT & z & Nz & Z0 & Z1 & HZ & NH & KH & _).
  pose proof R as (_ & Rr). destruct (Rr _ _ HX) as (_ & ST). destruct (Rr _ _ HZ) as (SH & _).
  unfold head_slot, tail_slot in KH, KT. apply pair_eq in KH as (-> & ->). apply pair_eq in KT as (-> & ->). split.
  - rewrite <- Nz. apply slot_at; auto.
  - rewrite <- (nm_other x) by auto. apply slot_at; auto.
Qed.
Lemma slots_differ : forall x X z Z, edge_at d x X -> edge_at d z Z -> head_slot Z <> tail_slot X.
Proof.
  intros x X z Z HX HZ Q. pose proof R as (_ & Rr). destruct (Rr _ _ HX) as (_ & S1). destruct (Rr _ _ HZ) as (S2 & _).
  unfold head_slot, tail_slot in Q. apply pair_eq in Q as (Q1 & Q2). rewrite Q1, Q2 in S2. pose proof (slot_fun _ _ _ _ _ S1 S2) as ->.
  unfold edge_at in *. rewrite HX in HZ. injection HZ as <-. apply (T z X HX). unfold head_slot, tail_slot. congruence.
Qed.
Lemma cut_two_ended : two_ended o.
Proof.
  intros y Y HY. destruct (edge_back y Y HY) as (x & X & XH & N1 & N2 & -> & HX & NT & KT & z & Nz & Z0 & Z1 & HZ & NH & KH & _).
  rewrite KH, KT. intro Q. apply pair_eq in Q as (Q1 & Q2). pose proof R as (_ & Rr). destruct (Rr _ _ HX) as (_ & ST). destruct (Rr _ _ HZ) as (SH & _).
  apply slot_lt in ST, SH. apply (slots_differ x X z XH HX HZ). unfold head_slot, tail_slot. f_equal; auto.
  apply (lr_kc_inj _ _ _ _ _ _ _ _ _ H); tauto.
Qed.
Lemma cut_through : goes_through o.
Proof.
  intros y Y HY. destruct (edge_back y Y HY) as (x & X & XH & N1 & N2 & -> & HX & NT & KT & z & Nz & Z0 & Z1 & HZ & NH & KH & _).
  unfold head_slot, tail_slot in KH, KT. apply pair_eq in KH as (-> & ->). apply pair_eq in KT as (-> & ->). split.
  - destruct (G z XH HZ) as ((a & A & HA & SA & TA) & _). unfold tail_slot in TA. apply pair_eq in TA as (TA & TA').
    destruct (tail_at a A HA ltac:(congruence)) as (A1 & A2 & A' & HA' & K). exists (ke (nm a)), A'. split; auto. split; [apply slot_at; auto|].
    rewrite K, TA, TA'. reflexivity.
  - destruct (G x X HX) as (_ & (a & A & HA & SA & TA)). unfold head_slot in TA. apply pair_eq in TA as (TA & TA').
    destruct (head_at a A HA ltac:(congruence)) as (A1 & A2 & A' & HA' & K). exists (ke (nm a)), A'. split; auto. split; [apply slot_at; auto|].
    rewrite K, TA, TA'. reflexivity.
Qed.

(** ** strands *)
Definition kept (x : nat) : bool := negb ((x =? e1) || (x =? e2)).
Lemma kept_spec : forall x, kept x = true <-> x <> e1 /\ x <> e2.
Proof. intro x. unfold kept. destruct (Nat.eqb_spec x e1), (Nat.eqb_spec x e2); cbn; split; try tauto; try discriminate; intros (? & ?); congruence. Qed.
Lemma kept_not : forall x, kept x = false <-> x = e1 \/ x = e2.
Proof. intro x. unfold kept. destruct (Nat.eqb_spec x e1), (Nat.eqb_spec x e2); cbn; split; try tauto; try discriminate. Qed.
Lemma continues_fun : forall a b b', continues d a b -> continues d a b' -> b = b'.
Proof.
  intros a b b' (A & B & HA & HB & T1 & T2) (A' & B' & HA' & HB' & T1' & T2'). unfold edge_at in HA, HA'. rewrite HA in HA'. injection HA' as <-.
  pose proof R as (_ & Rr). destruct (Rr _ _ HB) as (_ & S1). destruct (Rr _ _ HB') as (_ & S2). rewrite T1, T2 in S1. rewrite T1', T2' in S2. eapply slot_fun; eauto.
Qed.
Lemma continues_inj : forall a a' b, continues d a b -> continues d a' b -> a = a'.
Proof.
  intros a a' b (A & B & HA & HB & T1 & T2) (A' & B' & HA' & HB' & T1' & T2'). unfold edge_at in HB, HB'. rewrite HB in HB'. injection HB' as <-.
  pose proof R as (_ & Rr). destruct (Rr _ _ HA) as (S1 & _). destruct (Rr _ _ HA') as (S2 & _).
  assert (e_headpos A = e_headpos A') as Q.
  { apply slot_lt in S1, S2. destruct S1 as (_ & S1). destruct S2 as (_ & S2). rewrite T2 in T2'. revert T2' S1 S2. clear.
    generalize (e_headpos A), (e_headpos A'). intros m n. destruct m as [|[|[|[|?]]]], n as [|[|[|[|?]]]]; cbn; lia. }
  assert (e_head A = e_head A') as Q' by congruence. rewrite Q, Q' in S1. eapply slot_fun; eauto.
Qed.
Lemma loop_strand : continues d e0 e1 /\ continues d e1 e2.
Proof.
  destruct loop_facts as (E0 & E1 & E2 & p & q & H0 & H1 & H2 & Hp & Hq & A0 & A1 & B1 & A2 & _). unfold head_slot, tail_slot in *.
  apply pair_eq in A0 as (A0 & A0'). apply pair_eq in A1 as (A1 & A1'). apply pair_eq in B1 as (B1 & B1'). apply pair_eq in A2 as (A2 & A2'). split.
  - exists E0, E1. split; auto. split; auto. rewrite A0, A0', A1, A1'. split; auto. symmetry. clear -Hq. destruct q as [|[|[|[|?]]]]; cbn; lia.
  - exists E1, E2. split; auto. split; auto. rewrite A2, A2', B1, B1'. auto.
Qed.
Lemma cut_continues : forall a b, continues d a b -> b <> e1 -> b <> e2 -> continues o (ke (nm a)) (ke b).
Proof.
  intros a b (A & B & HA & HB & T1 & T2) N1 N2.
  assert (NT : e_tail B <> c) by (intro Q; apply (e_tail_c b B HB) in Q; tauto).
  destruct (tail_at b B HB NT) as (_ & _ & B' & HB' & KB). rewrite nm_other in HB' by auto.
  destruct (head_at a A HA ltac:(congruence)) as (_ & _ & A' & HA' & KA). exists A', B'. split; auto. split; auto.
  unfold head_slot, tail_slot in *. apply pair_eq in KA as (-> & ->). apply pair_eq in KB as (-> & ->). rewrite T1, T2. auto.
Qed.
Lemma cut_strands : forall L, strand_partition d L -> strand_partition o (map (map ke) (filter nonempty (map (filter kept) L))).
Proof.
  intros L HL. destruct loop_strand as (C1 & C2). pose proof n12 as N12. pose proof n01 as N01. pose proof n02 as N02.
  assert (X : cpart (fun a b => continues o (ke a) (ke b)) (fun x => x < nedges d /\ kept x = true) (filter nonempty (map (filter kept) L))).
  { apply (cpart_erase nat (continues d)); [exact HL|]. intros a b Da Db Ka Kb S.
    assert (I : (kept b = true -> exists a', nm a' = a /\ continues d a' b) /\ (kept b = false -> a = e0)).
    { clear Kb Db. induction S as [a b (Da1 & Db1 & C)|a b b' S IH K (_ & _ & C)].
      - split; intro Kb.
        + exists a. split; auto. apply nm_other. apply kept_spec in Ka. tauto.
        + apply kept_not in Kb. destruct Kb as [-> | ->]; [exact (continues_inj _ _ _ C C1)|]. exfalso. apply kept_spec in Ka.
          pose proof (continues_inj _ _ _ C C2). tauto.
      - specialize (IH Da Ka). destruct IH as (_ & IH). specialize (IH K). subst a. split; intro Kb; auto.
        apply kept_not in K. destruct K as [-> | ->].
        + pose proof (continues_fun _ _ _ C C2) as ->. apply kept_spec in Kb. tauto.
        + exists e2. split; [apply nm_e2|auto]. }
    destruct I as (I & _). destruct (I Kb) as (a' & <- & C). apply kept_spec in Kb. apply cut_continues; tauto. }
  apply (cpart_map nat nat _ (continues o) ke _ (fun y => y < nedges o) _ X).
  - intros a b _ _ C. exact C.
  - intros a b (La & Ka) (Lb & Kb). apply kept_spec in Ka, Kb. apply (lr_ke_inj _ _ _ _ _ _ _ _ _ H); tauto.
  - intro y. split.
    + intro Hy. destruct (edge_onto y Hy) as (x & Lx & N1 & N2 & <-). exists x. split; auto. split; auto. apply kept_spec. auto.
    + intros (x & (Lx & Kx) & ->). apply kept_spec in Kx. apply (lr_ke _ _ _ _ _ _ _ _ _ H); tauto.
Qed.
(** no component disappears *)
Lemma cyclic_next : forall A (P : A -> A -> Prop) l x, cyclically P l -> In x l -> exists y, In y l /\ P x y.
Proof.
  intros A P l x C I. apply In_nth_error in I. destruct I as (i & Hi). assert (i < length l) by (apply nth_error_Some; congruence).
  destruct (nth_error l ((i + 1) mod length l)) as [y|] eqn:Y.
  - exists y. split; [eapply nth_error_In; eauto|]. eapply C; eauto.
  - apply nth_error_None in Y. pose proof (Nat.mod_upper_bound (i + 1) (length l)). lia.
Qed.
Lemma cyclic_prev : forall A (P : A -> A -> Prop) l y, cyclically P l -> In y l -> exists x, In x l /\ P x y.
Proof.
  intros A P l y C I. apply In_nth_error in I. destruct I as (j & Hj). assert (Lj : j < length l) by (apply nth_error_Some; congruence).
  set (i := (j + length l - 1) mod length l).
  assert (E : (i + 1) mod length l = j).
  { unfold i. rewrite Nat.add_mod_idemp_l by lia. replace (j + length l - 1 + 1) with (j + 1 * length l) by lia. rewrite Nat.mod_add by lia. apply Nat.mod_small; auto. }
  assert (i < length l) by (apply Nat.mod_upper_bound; lia).
  destruct (nth_error l i) as [x|] eqn:X; [|apply nth_error_None in X; lia].
  exists x. split; [eapply nth_error_In; eauto|]. apply (C i); auto. rewrite E. auto.
Qed.
Lemma strand_survives : forall l, l <> [] -> cyclically (continues d) l -> filter kept l <> [].
Proof.
  intros l N C Q. destruct loop_strand as (C1 & C2). pose proof n12 as N12. pose proof n01 as N01. pose proof n02 as N02.
  assert (Z : forall x, In x l -> kept x = false).
  { intros x Hx. destruct (kept x) eqn:K; auto. assert (I : In x (filter kept l)) by (apply filter_In; auto). rewrite Q in I. destruct I. }
  assert (Y : In e0 l).
  { destruct l as [|x l]; [congruence|]. pose proof (Z x (or_introl eq_refl)) as K. apply kept_not in K.
    assert (I1 : In e1 (x :: l)).
    { destruct K as [-> | ->]; [simpl; auto|]. destruct (cyclic_prev _ _ _ e2 C (or_introl eq_refl)) as (y & Hy & Cy).
      rewrite (continues_inj _ _ _ C2 Cy). auto. }
    destruct (cyclic_prev _ _ _ e1 C I1) as (y & Hy & Cy). rewrite (continues_inj _ _ _ C1 Cy). auto. }
  apply Z in Y. apply kept_not in Y. destruct Y; congruence.
Qed.
Lemma cut_strands_all : forall L, strand_partition d L -> strand_partition o (map (fun l => map ke (filter kept l)) L).
Proof.
  intros L HL. pose proof (cut_strands L HL) as P. assert (Q : filter nonempty (map (filter kept) L) = map (filter kept) L).
  { destruct HL as (H1 & _). clear P. induction L as [|l L IH]; [reflexivity|]. cbn [map filter].
    destruct (H1 l (or_introl eq_refl)) as (N & C). pose proof (strand_survives l N C). destruct (filter kept l); [congruence|]. cbn [nonempty].
    rewrite IH; auto. intros; apply H1; simpl; auto. }
  rewrite Q, map_map in P. exact P.
Qed.

(** ** connectedness *)
Lemma cut_connected : connected d -> connected o.
Proof.
  intros CN w w' Hw Hw'. destruct (cross_onto w Hw) as (v & Lv & N & <-). destruct (cross_onto w' Hw') as (v' & Lv' & N' & <-).
  destruct loop_facts as (E0 & E1 & E2 & p & q & H0 & H1 & H2 & Hp & Hq & A0 & A1 & B1 & A2 & Hpq & N01 & N12 & Hc & AC & K0 & K2).
  pose proof R as (_ & Rr). destruct (Rr _ _ H0) as (_ & T0). destruct (Rr _ _ H2) as (S2 & _).
  set (h := fun u => if u =? c then kc (e_tail E0) else kc u).
  assert (Hh : forall u, u <> c -> h u = kc u) by (intros u Nu; unfold h; destruct (Nat.eqb_spec u c); congruence).
  assert (Hhc : h c = kc (e_tail E0)) by (unfold h; rewrite Nat.eqb_refl; auto).
  assert (J : joined o (kc (e_tail E0)) (kc (e_head E2))).
  { exists (ke e0), (e_tailpos E0), (e_headpos E2). split.
    - rewrite <- (nm_other e0) by apply n02. apply slot_at; auto.
    - rewrite <- nm_e2. apply slot_at; auto. }
  assert (JC : forall u, u <> c -> joined d c u -> u = e_tail E0 \/ u = e_head E2).
  { intros u Nu (x & r & r' & Sc & Su). destruct (AC _ _ Sc) as [(_ & ->)|[(_ & ->)|(_ & ->)]].
    - destruct (slot_end d u r' e1 E1 R T Su H1) as [Q|Q]; unfold head_slot, tail_slot in *; congruence.
    - destruct (slot_end d u r' e0 E0 R T Su H0) as [Q|Q]; unfold head_slot, tail_slot in *; apply pair_eq in Q as (Q & _); [|auto]. congruence.
    - destruct (slot_end d u r' e2 E2 R T Su H2) as [Q|Q]; unfold head_slot, tail_slot in *; apply pair_eq in Q as (Q & _); [auto|]. congruence. }
  assert (SY : forall dd u u', joined dd u u' -> joined dd u' u) by (intros dd u u' (x & r & r' & X & Y); exists x, r', r; auto).
  assert (ST : forall u u', joined d u u' -> clos_refl_trans nat (joined o) (h u) (h u')).
  { intros u u' Ju. destruct (Nat.eq_dec u c) as [->|Nu], (Nat.eq_dec u' c) as [->|Nu'].
    - apply rt_refl.
    - rewrite Hhc, Hh by auto. destruct (JC u' Nu' Ju) as [-> | ->]; [apply rt_refl|apply rt_step; auto].
    - rewrite Hhc, Hh by auto. destruct (JC u Nu (SY _ _ _ Ju)) as [-> | ->]; [apply rt_refl|apply rt_step; apply SY; auto].
    - rewrite !Hh by auto. apply rt_step. destruct Ju as (x & r & r' & X & Y). exists (ke (nm x)), r, r'. split; apply slot_at; auto. }
  rewrite <- (Hh v N), <- (Hh v' N'). specialize (CN v v' Lv Lv'). clear -CN ST.
  induction CN as [u u' Ju|u|u u' u'' _ IH1 _ IH2]; auto; [apply rt_refl|eapply rt_trans; eauto].
Qed.

(** ** faces *)
Definition dm (a : nat * orient) : nat * orient := (ke (nm (fst a)), snd a).
Definition real_turn (a b : nat * orient) : Prop := exists v r, r < 4 /\ v <> c /\ dart_to d a (v, r) /\ dart_from d b (v, (r + 3) mod 4).
Lemma dm_to : forall a v r, v <> c -> dart_to d a (v, r) -> dart_to o (dm a) (kc v, r).
Proof.
  intros (x, s) v r N (X & HX & [(Q & K)|(Q & K)]); cbn [fst snd] in *; subst s; unfold head_slot, tail_slot in K; apply pair_eq in K as (-> & ->).
  - destruct (head_at x X HX N) as (_ & _ & X' & HX' & K). exists X'. split; [exact HX'|]. left. split; [reflexivity|]. symmetry. exact K.
  - destruct (tail_at x X HX N) as (_ & _ & X' & HX' & K). exists X'. split; [exact HX'|]. right. split; [reflexivity|]. symmetry. exact K.
Qed.
Lemma dm_flip : forall a, dm (flip a) = flip (dm a).
Proof. intros (x, s). reflexivity. Qed.
Lemma dm_turn : forall a b, real_turn a b -> left_turn o (dm a) (dm b).
Proof.
  intros a b (v & r & Hr & N & Ta & Fb). exists (kc v), r. split; auto. split; [apply dm_to; auto|].
  apply dart_from_to. rewrite <- dm_flip. apply dm_to; auto. apply dart_from_to. exact Fb.
Qed.

Context (om : orient).
(** the dart around the loop *)
Definition mono_side : Prop := om = Pos /\ left_turn d (e1, Pos) (e1, Pos) /\ left_turn d (e0, Pos) (e1, Neg) /\ left_turn d (e1, Neg) (e2, Pos) /\ left_turn d (e2, Neg) (e0, Neg) \/
  om = Neg /\ left_turn d (e1, Neg) (e1, Neg) /\ left_turn d (e0, Pos) (e2, Pos) /\ left_turn d (e2, Neg) (e1, Pos) /\ left_turn d (e1, Pos) (e0, Neg).
Context (Mono : mono_side).
Definition c_turn (a b : nat * orient) : Prop :=
  (a = (e1, om) /\ b = (e1, om)) \/
  (om = Pos /\ (a = (e0, Pos) /\ b = (e1, Neg) \/ a = (e1, Neg) /\ b = (e2, Pos) \/ a = (e2, Neg) /\ b = (e0, Neg))) \/
  (om = Neg /\ (a = (e0, Pos) /\ b = (e2, Pos) \/ a = (e2, Neg) /\ b = (e1, Pos) \/ a = (e1, Pos) /\ b = (e0, Neg))).
Definition ends_c (a : nat * orient) : Prop := a = (e0, Pos) \/ a = (e1, Pos) \/ a = (e1, Neg) \/ a = (e2, Neg).
Lemma to_c : forall a v r, dart_to d a (v, r) -> (v = c <-> ends_c a).
Proof.
  intros (x, s) v r (X & HX & K). cbn [fst snd] in *. unfold ends_c, head_slot, tail_slot in *. pose proof n01. pose proof n12. pose proof n02.
  destruct K as [(-> & K)|(-> & K)]; apply pair_eq in K as (-> & _).
  - rewrite (e_head_c x X HX). intuition (subst; auto; try congruence).
  - rewrite (e_tail_c x X HX). intuition (subst; auto; try congruence).
Qed.
Lemma turn_cases : forall a b, left_turn d a b -> (real_turn a b /\ ~ ends_c a /\ ~ ends_c (flip b)) \/ c_turn a b.
Proof.
  intros a b L. pose proof L as (v & r & Hr & Ta & Fb). destruct (Nat.eq_dec v c) as [->|N].
  - right. pose proof (proj1 (to_c a c r Ta) eq_refl) as Q. unfold c_turn.
    destruct Mono as [(E & M1 & M2 & M3 & M4)|(E & M1 & M2 & M3 & M4)]; destruct Q as [-> |[-> |[-> | ->]]]; rewrite E.
    + pose proof (left_turn_fun d _ _ _ R T L M2) as ->. auto 10.
    + pose proof (left_turn_fun d _ _ _ R T L M1) as ->. auto 10.
    + pose proof (left_turn_fun d _ _ _ R T L M3) as ->. auto 10.
    + pose proof (left_turn_fun d _ _ _ R T L M4) as ->. auto 10.
    + pose proof (left_turn_fun d _ _ _ R T L M2) as ->. auto 10.
    + pose proof (left_turn_fun d _ _ _ R T L M4) as ->. auto 10.
    + pose proof (left_turn_fun d _ _ _ R T L M1) as ->. auto 10.
    + pose proof (left_turn_fun d _ _ _ R T L M3) as ->. auto 10.
  - left. split; [exists v, r; auto|]. split; [rewrite <- (to_c a v r Ta); auto|]. apply dart_from_to in Fb. rewrite <- (to_c _ _ _ Fb). auto.
Qed.
Definition keptd (a : nat * orient) : bool := kept (fst a).
Lemma keptd_spec : forall x s, keptd (x, s) = true <-> x <> e1 /\ x <> e2.
Proof. intros. apply kept_spec. Qed.
Lemma keptd_not : forall x s, keptd (x, s) = false <-> x = e1 \/ x = e2.
Proof. intros. apply kept_not. Qed.
Lemma dart_sign : forall (a : nat * orient), is_dart d a -> snd a = Pos \/ snd a = Neg.
Proof. intros a (_ & Q). exact Q. Qed.
(** an erased dart where a real turn leads *)
Lemma erased_after : forall b, is_dart d b -> keptd b = false -> ~ ends_c (flip b) -> b = (e2, Neg).
Proof.
  intros (x, s) D K N. apply dart_sign in D. cbn [snd] in D. apply keptd_not in K. unfold ends_c, flip in N. cbn [fst snd] in N.
  destruct K as [-> | ->], D as [-> | ->]; auto; exfalso; apply N; auto.
Qed.
Lemma skip_inv : forall a b, keptd a = true -> skip (fun a b => is_dart d a /\ is_dart d b /\ left_turn d a b) keptd a b ->
  (keptd b = true -> left_turn o (dm a) (dm b)) /\
  (keptd b = false -> (a = (e0, Pos) /\ (b = (e2, Pos) \/ om = Pos /\ b = (e1, Neg))) \/
     (left_turn o (dm a) (ke e0, Neg) /\ (b = (e2, Neg) \/ om = Neg /\ b = (e1, Pos)))).
Proof.
  intros a b Ka S. pose proof n01 as N01. pose proof n02 as N02. pose proof n12 as N12.
  assert (K0 : forall s, keptd (e0, s) = true) by (intro s; apply keptd_spec; auto).
  assert (K1 : forall s, keptd (e1, s) = false) by (intro s; apply keptd_not; auto).
  assert (K2 : forall s, keptd (e2, s) = false) by (intro s; apply keptd_not; auto).
  assert (Q2 : forall s, dm (e2, s) = (ke e0, s)) by (intro s; unfold dm; cbn [fst snd]; rewrite nm_e2; auto).
  assert (Q0 : forall s, dm (e0, s) = (ke e0, s)) by (intro s; unfold dm; cbn [fst snd]; rewrite nm_other; auto).
  induction S as [a b (Da & Db & L)|a b b' S IH K (_ & Db & L)].
  - destruct (turn_cases a b L) as [(RT & _ & NB)|CT].
    + split; intro Kb; [apply dm_turn; auto|]. pose proof (erased_after b Db Kb NB) as ->. right. split; [|auto].
      rewrite <- Q2. apply dm_turn; auto.
    + destruct CT as [(-> & ->)|[(Eo & [(-> & ->)|[(-> & ->)|(-> & ->)]])|(Eo & [(-> & ->)|[(-> & ->)|(-> & ->)]])]];
        rewrite ?K1, ?K2 in Ka; try discriminate; rewrite ?K1, ?K2; (split; [discriminate|]); intros _; auto.
  - specialize (IH Ka). destruct IH as (_ & IH). specialize (IH K).
    destruct IH as [(-> & [-> |(Eo & ->)])|(LT & [-> |(Eo & ->)])].
    + destruct (turn_cases _ _ L) as [(RT & _ & NB)|CT].
      * assert (LT : left_turn o (dm (e0, Pos)) (dm b')) by (rewrite Q0, <- Q2; apply dm_turn; auto).
        split; intro Kb; auto. pose proof (erased_after b' Db Kb NB) as ->. right. rewrite <- Q2. auto.
      * exfalso. destruct CT as [(X & _)|[(Eo & [(X & _)|[(X & _)|(X & _)]])|(Eo & [(X & _)|[(X & _)|(X & _)]])]]; congruence.
    + destruct (turn_cases _ _ L) as [(RT & NA & NB)|CT]; [exfalso; apply NA; unfold ends_c; auto|].
      assert (b' = (e2, Pos)) as ->.
      { destruct CT as [(X & _)|[(_ & [(X & Y)|[(X & Y)|(X & Y)]])|(Eo' & _)]]; congruence. }
      rewrite K2. split; [discriminate|]. intros _. auto.
    + destruct (turn_cases _ _ L) as [(RT & NA & NB)|CT]; [exfalso; apply NA; unfold ends_c; auto|].
      assert (b' = (e0, Neg) \/ om = Neg /\ b' = (e1, Pos)) as Q.
      { destruct CT as [(X & _)|[(_ & [(X & Y)|[(X & Y)|(X & Y)]])|(Eo' & [(X & Y)|[(X & Y)|(X & Y)]])]]; try congruence; auto. }
      destruct Q as [-> |(Eo & ->)]; [rewrite K0, Q0|rewrite K1]; split; auto; discriminate.
    + destruct (turn_cases _ _ L) as [(RT & NA & NB)|CT]; [exfalso; apply NA; unfold ends_c; auto|].
      assert (b' = (e0, Neg)) as ->.
      { destruct CT as [(X & _)|[(Eo' & _)|(Eo' & [(X & Y)|[(X & Y)|(X & Y)]])]]; congruence. }
      rewrite K0, Q0. split; auto; discriminate.
Qed.
Lemma dm_kept : forall a, keptd a = true -> dm a = (ke (fst a), snd a).
Proof. intros (x, s) K. apply keptd_spec in K. unfold dm. cbn [fst snd]. rewrite nm_other by tauto. reflexivity. Qed.
Lemma cut_faces : forall fs, face_partition d fs -> face_partition o (map (map dm) (filter nonempty (map (filter keptd) fs))).
Proof.
  intros fs HF.
  assert (X : cpart (fun a b => left_turn o (dm a) (dm b)) (fun x => is_dart d x /\ keptd x = true) (filter nonempty (map (filter keptd) fs))).
  { apply (cpart_erase _ (left_turn d)); [exact HF|]. intros a b Da Db Ka Kb S. apply (skip_inv a b Ka S). exact Kb. }
  apply (cpart_map _ _ _ (left_turn o) dm _ (is_dart o) _ X).
  - intros a b _ _ L. exact L.
  - intros (x, s) (y, t) ((Lx & _) & Kx) ((Ly & _) & Ky). rewrite !dm_kept by auto. cbn [fst snd] in *. intro Q. apply pair_eq in Q as (Q & ->).
    apply keptd_spec in Kx. apply keptd_spec in Ky. f_equal. apply (lr_ke_inj _ _ _ _ _ _ _ _ _ H); tauto.
  - intros (y, s). split.
    + intros (Ly & Os). cbn in Ly, Os. destruct (edge_onto y Ly) as (x & Lx & N1 & N2 & <-). exists (x, s).
      assert (keptd (x, s) = true) by (apply keptd_spec; auto). split; [split; auto; split; auto|]. rewrite dm_kept; auto.
    + intros ((x, t) & ((Lx & Ot) & Kx) & Q). rewrite dm_kept in Q by auto. cbn [fst snd] in *. apply pair_eq in Q as (-> & ->).
      apply keptd_spec in Kx. split; auto. cbn. apply (lr_ke _ _ _ _ _ _ _ _ _ H); tauto.
Qed.
Lemma cut_face_count : forall fs, face_partition d fs -> length (filter nonempty (map (filter keptd) fs)) = length fs - 1.
Proof.
  intros fs (F1 & F2 & F3). pose proof n01 as N01. pose proof n02 as N02. pose proof n12 as N12. destruct e_lt as (L0 & L1 & L2).
  assert (MM : left_turn d (e1, om) (e1, om)) by (destruct Mono as [(-> & M & _)|(-> & M & _)]; exact M).
  assert (IM : In (e1, om) (concat fs)) by (apply F3; split; [exact L1|destruct Mono as [(-> & _)|(-> & _)]; auto]).
  apply in_concat in IM. destruct IM as (m & Im & Hm).
  assert (Em : m = [(e1, om)]).
  { destruct (F1 m Im) as (_ & Cm). assert (ND : NoDup m).
    { clear -F2 Im. induction fs as [|f fs IH]; [destruct Im|]. cbn [concat] in F2. assert (NoDup f /\ NoDup (concat fs)) as (A & B).
      { clear -F2. induction f as [|x f IH]; cbn in F2; [split; [constructor|auto]|]. inversion F2 as [|? ? N1 N2]; subst. destruct (IH N2). split; auto. constructor; auto.
        intro I. apply N1, in_app_iff. auto. }
      destruct Im as [->|Im]; auto. }
    apply In_nth_error in Hm. destruct Hm as (i & Hi). assert (Li : i < length m) by (apply nth_error_Some; congruence).
    destruct (nth_error m ((i + 1) mod length m)) as [y|] eqn:Y; [|apply nth_error_None in Y; pose proof (Nat.mod_upper_bound (i + 1) (length m)); lia].
    pose proof (left_turn_fun d _ _ _ R T MM (Cm _ _ _ Hi Y)) as Q. rewrite <- Q, <- Hi in Y.
    rewrite NoDup_nth_error in ND. assert ((i + 1) mod length m = i) as Z by (apply ND; [apply Nat.mod_upper_bound; lia|auto]).
    assert (length m = 1) as L.
    { destruct (Nat.eq_dec (i + 1) (length m)) as [W|W]; [rewrite W, Nat.mod_same in Z by lia; lia|]. rewrite Nat.mod_small in Z by lia. lia. }
    destruct m as [|x [|? ?]]; cbn in L; try lia. destruct i; [|cbn in Li; lia]. cbn in Hi. injection Hi as ->. reflexivity. }
  apply (erase_count _ keptd fs m); auto; [apply F1; auto| |].
  - intros f If Nf. destruct (F1 f If) as (Ne & Cf).
    assert (Z0 : forall s, In (e0, s) f -> exists x, In x f /\ keptd x = true) by (intros s I; exists (e0, s); split; auto; apply keptd_spec; auto).
    assert (Nx : forall a b, left_turn d a b -> In a f -> In b f).
    { intros a b L I. destruct (cyclic_next _ _ _ a Cf I) as (y & Hy & Ly). rewrite (left_turn_fun d _ _ _ R T L Ly). auto. }
    assert (Pv : forall a b, left_turn d a b -> In b f -> In a f).
    { intros a b L I. destruct (cyclic_prev _ _ _ b Cf I) as (y & Hy & Ly). rewrite (left_turn_inj d _ _ _ R T L Ly). auto. }
    assert (NM : ~ In (e1, om) f).
    { intro I. apply Nf. destruct (in_split _ _ If) as (u & w & E). destruct (in_split _ _ Im) as (u' & w' & E').
      (* two blocks that share an element are equal *)
      clear -F2 If Im Hm I. induction fs as [|g fs IH]; [destruct If|]. cbn [concat] in F2.
      assert (D : forall x, In x g -> In x (concat fs) -> False).
      { clear -F2. induction g as [|y g IH]; intros x Ix Jx; [destruct Ix|]. cbn in F2. inversion F2 as [|? ? N1 N2]; subst. destruct Ix as [<-|Ix]; [|eapply IH; eauto].
        apply N1, in_app_iff. auto. }
      assert (NoDup (concat fs)) by (clear -F2; induction g as [|y g IH]; [exact F2|cbn in F2; inversion F2; auto]).
      destruct If as [->|If], Im as [->|Im]; auto; exfalso; apply (D (e1, om)); auto; apply in_concat; eauto. }
    assert (exists x s, In (x, s) f) as (x & s & Ix) by (destruct f as [|(x, s) f]; [congruence|exists x, s; simpl; auto]).
    destruct (keptd (x, s)) eqn:K; [exists (x, s); auto|].
    assert (Dx : is_dart d (x, s)) by (apply F3, in_concat; exists f; auto). apply dart_sign in Dx. cbn [snd] in Dx.
    apply keptd_not in K. destruct Mono as [(E & M1 & M2 & M3 & M4)|(E & M1 & M2 & M3 & M4)]; rewrite E in *;
      destruct K as [-> | ->], Dx as [-> | ->]; eauto; try tauto.
  - intros x Hx. rewrite Em in Hx. destruct Hx as [<-|[]]. apply keptd_not. auto.
Qed.
Lemma cut_planar : face_partition d (p_face d) -> nfaces d = ncross d + 2 -> connected d -> planar o.
Proof.
  intros FP NF CN. exists (map (map dm) (filter nonempty (map (filter keptd) (p_face d)))). split; [apply cut_faces; exact FP|]. split.
  - rewrite map_length, cut_face_count by exact FP. unfold nfaces in NF. rewrite NF, (lr_ncross _ _ _ _ _ _ _ _ _ H). lia.
  - apply Forall_forall. intros f Hf. apply in_map_iff in Hf. destruct Hf as (g & <- & Hg). apply filter_In in Hg. destruct Hg as (Hg & _).
    apply in_map_iff in Hg. destruct Hg as (F & <- & HF). rewrite map_length.
    pose proof (face_edges_distinct d R T FP NF CN F HF) as ND.
    assert (DF : forall a, In a (filter keptd F) -> fst a < nedges d /\ fst a <> e1 /\ fst a <> e2).
    { intros (x, s) Ha. apply filter_In in Ha. destruct Ha as (Ha & Ka). apply keptd_spec in Ka. destruct FP as (_ & _ & P3).
      assert (is_dart d (x, s)) as (Lx & _) by (apply P3, in_concat; eauto). auto. }
    rewrite <- (map_length (fun a => ke (fst a)) (filter keptd F)), <- (seq_length (nedges o) 0). apply NoDup_incl_length.
    + rewrite <- map_map. assert (NF' : NoDup (map fst (filter keptd F))).
      { clear -ND. induction F as [|a F IH]; [constructor|]. cbn [map filter] in *. inversion ND as [|? ? N1 N2]; subst. destruct (keptd a); auto.
        cbn [map]. constructor; auto. intro I. apply N1. apply in_map_iff in I. destruct I as (b & <- & Hb). apply filter_In in Hb. apply in_map. tauto. }
      apply NoDup_map_on; auto. intros x y Hx Hy Q. apply in_map_iff in Hx, Hy. destruct Hx as (a & <- & Ha). destruct Hy as (b & <- & Hb).
      destruct (DF a Ha) as (A1 & A2 & A3). destruct (DF b Hb) as (B1 & B2 & B3). apply (lr_ke_inj _ _ _ _ _ _ _ _ _ H); auto.
    + intros y Hy. apply in_map_iff in Hy. destruct Hy as (a & <- & Ha). destruct (DF a Ha) as (A1 & A2 & A3). apply in_seq.
      pose proof (lr_ke _ _ _ _ _ _ _ _ _ H (fst a) A1 A2 A3). lia.
Qed.
End Cut.

Lemma mono_exists : forall d c e0 e1 e2, loop_here d c e0 e1 e2 -> exists om, mono_side d e0 e1 e2 om.
Proof.
  intros d c e0 e1 e2 (E0 & E1 & E2 & p & q & H0 & H1 & H2 & Hp & Hq & A0 & A1 & B1 & A2 & Hpq).
  assert (m4 : forall k, k mod 4 < 4) by (intro; apply Nat.mod_upper_bound; lia).
  destruct Hpq as [Q|Q].
  - exists Pos. left. split; auto. split; [|split; [|split]].
    + exists c, p. split; auto. split; exists E1; split; auto; left; split; auto. rewrite A1. f_equal. subst p. clear -Hq. destruct q as [|[|[|[|?]]]]; cbn; lia.
    + exists c, ((q + 2) mod 4). split; auto. split; [exists E0|exists E1]; (split; [auto|]); [left|right]; split; auto. rewrite B1. f_equal. subst p. clear -Hq. destruct q as [|[|[|[|?]]]]; cbn; lia.
    + exists c, q. split; auto. split; [exists E1|exists E2]; (split; [auto|]); [right|left]; split; auto. rewrite A2. f_equal. subst p. clear -Hq. destruct q as [|[|[|[|?]]]]; cbn; lia.
    + exists c, ((p + 2) mod 4). split; auto. split; [exists E2|exists E0]; (split; [auto|]); [right|right]; split; auto. rewrite A0. f_equal. subst p. clear -Hq. destruct q as [|[|[|[|?]]]]; cbn; lia.
  - exists Neg. right. split; auto. split; [|split; [|split]].
    + exists c, q. split; auto. split; exists E1; split; auto; right; split; auto. rewrite B1. f_equal. subst q. clear -Hp. destruct p as [|[|[|[|?]]]]; cbn; lia.
    + exists c, ((q + 2) mod 4). split; auto. split; [exists E0|exists E2]; (split; [auto|]); [left|left]; split; auto. rewrite A2. f_equal. subst q. clear -Hp. destruct p as [|[|[|[|?]]]]; cbn; lia.
    + exists c, ((p + 2) mod 4). split; auto. split; [exists E2|exists E1]; (split; [auto|]); [right|left]; split; auto. rewrite A1. f_equal. subst q. clear -Hp. destruct p as [|[|[|[|?]]]]; cbn; lia.
    + exists c, p. split; auto. split; [exists E1|exists E0]; (split; [auto|]); [left|right]; split; auto. rewrite A0. f_equal. subst q. clear -Hp. destruct p as [|[|[|[|?]]]]; cbn; lia.
Qed.
