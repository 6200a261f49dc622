(** Facts about reversing edges. *)
From Coq Require Import List ZArith Lia Bool Arith Permutation Sorted.
From Verif Require Import Base Iterators Sorting Orbits Cycles CycleMatch Pd PdSpec PdProofs Relabel RelabelProofs RelabelSym
  Strands SlotCount PdCross PdCrossProofs PdComps PdCompsProofs PdFaces PdFacesProofs PdHash HashSpec HashProofs HashIso
  PermProofs RegenSpec RegenProofs Thm_Pd Thm_Cross Thm_Comps Thm_Faces PdIso PdOps Carry.
Import ListNotations.
Open Scope nat_scope.

(** a map that sees the index *)
Fixpoint imap {A B} (f : nat -> A -> B) (k : nat) (l : list A) : list B :=
  match l with [] => [] | x :: l' => f k x :: imap f (S k) l' end.
Lemma imap_length : forall A B (f : nat -> A -> B) l k, length (imap f k l) = length l.
Proof. induction l; intros; cbn; auto. Qed.
Lemma nth_error_imap : forall A B (f : nat -> A -> B) l k i,
  nth_error (imap f k l) i = option_map (f (k + i)) (nth_error l i).
Proof.
  induction l as [|x l IH]; intros k [|i]; cbn [imap nth_error option_map]; auto.
  - rewrite Nat.add_0_r. auto.
  - rewrite IH. f_equal. f_equal. lia.
Qed.
Lemma list_ext : forall A (l m : list A), (forall i, nth_error l i = nth_error m i) -> l = m.
Proof.
  induction l as [|x l IH]; intros [|y m] H; auto.
  - specialize (H 0). discriminate.
  - specialize (H 0). discriminate.
  - pose proof (H 0) as H0. cbn in H0. injection H0 as ->. f_equal. apply IH. intros i. exact (H (S i)).
Qed.

Definition turned_edge (F : nat -> bool) (e : nat) (E : edge) : edge := if F e then flip_edge E else E.
Definition turned_sign (G : nat -> bool) (c : nat) (x : crossing) : crossing :=
  if G c then set_sign x (opp (csign x)) else x.
Definition rev_pd (d : pd) (F G : nat -> bool) : pd :=
  with_cross (with_edges d (imap (turned_edge F) 0 (p_edge d))) (imap (turned_sign G) 0 (p_cross d)).

Section Rev.
Context (d : pd) (F G : nat -> bool).
Notation d' := (rev_pd d F G).
Lemma rev_nedges : nedges d' = nedges d.
Proof. apply imap_length. Qed.
Lemma rev_ncross : ncross d' = ncross d.
Proof. apply imap_length. Qed.
Lemma rev_edge_at : forall e E', edge_at d' e E' <-> exists E, edge_at d e E /\ E' = turned_edge F e E.
Proof.
  intros e E'. unfold edge_at, rev_pd. cbn [with_cross with_edges p_edge]. rewrite nth_error_imap. cbn [plus].
  split.
  - destruct (nth_error (p_edge d) e) as [E|]; [|discriminate]. cbn. intros Q. injection Q as <-. eauto.
  - intros (E & -> & ->). reflexivity.
Qed.
Lemma rev_slot : forall c p e, slot d' c p e <-> slot d c p e.
Proof.
  intros c p e. unfold slot, rev_pd. cbn [with_cross p_cross]. rewrite nth_error_imap. cbn [plus].
  assert (K : forall x q, cedge (turned_sign G c x) q = cedge x q).
  { intros x q. unfold turned_sign. destruct (G c); auto. }
  split; intros (Hp & x & Hx & E); (split; [exact Hp|]).
  - destruct (nth_error (p_cross d) c) as [y|]; [|discriminate]. cbn in Hx. injection Hx as <-. exists y. rewrite K in E. auto.
  - rewrite Hx. cbn. eexists. split; [reflexivity|]. rewrite K. auto.
Qed.
Lemma rev_sign : forall c s, sign_at d c s -> sign_at d' c (if G c then opp s else s).
Proof.
  intros c s (x & Hx & <-). unfold sign_at, rev_pd. cbn [with_cross p_cross]. rewrite nth_error_imap, Hx. cbn [plus option_map].
  eexists. split; [reflexivity|]. unfold turned_sign. destruct (G c); reflexivity.
Qed.
Lemma rev_ends_recorded : ends_recorded d -> ends_recorded d'.
Proof.
  intros (N & H). split; [rewrite rev_nedges, rev_ncross; auto|]. intros e E' HE. apply rev_edge_at in HE as (E & HE & ->).
  destruct (H e E HE) as (A & B). rewrite !rev_slot. unfold turned_edge. destruct (F e); auto.
Qed.
Lemma rev_two_ended : two_ended d -> two_ended d'.
Proof.
  intros T e E' HE. apply rev_edge_at in HE as (E & HE & ->). specialize (T e E HE). unfold turned_edge.
  destruct (F e); [|exact T]. intros Q. apply T. symmetry. exact Q.
Qed.
Lemma carried_rev : forall d2 s r q, ends_recorded d ->
  (carried d d2 s r q F G <-> relabelled d' d2 s r q).
Proof.
  intros d2 s r q R. split; intros [H1 H2 H3 H4 H5 H6 H7 H8].
  - constructor; rewrite ?rev_ncross, ?rev_nedges; auto.
    + intros c p e S. apply H6, rev_slot, S.
    + intros c z (x & Hx & <-). unfold rev_pd in Hx. cbn [with_cross p_cross] in Hx. rewrite nth_error_imap in Hx.
      destruct (nth_error (p_cross d) c) as [y|] eqn:Y; [|discriminate]. cbn [plus option_map] in Hx. injection Hx as <-.
      specialize (H7 c (csign y) ltac:(exists y; auto)). unfold turned_sign. destruct (G c); auto.
    + intros e E' HE. apply rev_edge_at in HE as (E & HE & ->). destruct (H8 e E HE) as (E2 & K1 & K2 & K3).
      exists E2. split; auto. unfold turned_edge. destruct (F e); auto.
  - rewrite ?rev_ncross in *; rewrite ?rev_nedges in *. constructor; auto.
    + intros c p e S. apply H6, rev_slot, S.
    + intros c z S. apply H7, rev_sign, S.
    + intros e E HE. destruct (H8 e (turned_edge F e E)) as (E2 & K1 & K2 & K3); [apply rev_edge_at; eauto|].
      exists E2. split; auto. unfold turned_edge in K2, K3. destruct (F e); auto.
Qed.

Context (R : ends_recorded d) (Th : goes_through d) (T : two_ended d).
Context (K : forall a b, continues d a b -> F a = F b).
Lemma across_back : forall p, p < 4 -> ((p + 2) mod 4 + 2) mod 4 = p.
Proof. intros p Hp. destruct (small4 p Hp) as [->|[->|[->| ->]]]; reflexivity. Qed.
Lemma rev_continues : forall a b, continues d a b ->
  if F a then continues d' b a else continues d' a b.
Proof.
  intros a b C. pose proof (K a b C) as Kab. destruct C as (A & B & HA & HB & C1 & C2).
  destruct R as (_ & R2). pose proof (R2 a A HA) as (SA & _). pose proof (slot_lt _ _ _ _ SA) as (_ & PA).
  assert (HA' : edge_at d' a (turned_edge F a A)) by (apply rev_edge_at; eauto).
  assert (HB' : edge_at d' b (turned_edge F b B)) by (apply rev_edge_at; eauto).
  unfold turned_edge in *. rewrite <- Kab in HB'. destruct (F a).
  - do 2 eexists. split; [exact HB'|]. split; [exact HA'|]. cbn [flip_edge e_head e_tail e_headpos e_tailpos]. rewrite C1, C2, across_back; auto.
  - do 2 eexists. split; [exact HA'|]. split; [exact HB'|]. auto.
Qed.
Lemma rev_goes_through : goes_through d'.
Proof.
  pose proof (rev_ends_recorded R) as R'.
  assert (Q : forall e E', edge_at d' e E' -> exists a b, continues d' a e /\ continues d' e b).
  { intros e E' HE. pose proof (edge_at_lt _ _ _ HE) as He. rewrite rev_nedges in He.
    assert (C1 : exists b, continues d e b) by (eexists; apply continues_succ; auto).
    destruct C1 as (b & C1). destruct (edge_at_ex d e He) as (E & HE0).
    destruct (Th e E HE0) as (_ & (a & A & HA & SA & QA)).
    assert (C0 : continues d a e).
    { exists A, E. unfold head_slot in QA. apply pair_equal_spec in QA as (Q1 & Q2).
      split; auto. split; auto. split; auto. rewrite Q2. destruct R as (_ & R2). destruct (R2 e E HE0) as (_ & S).
      pose proof (slot_lt _ _ _ _ S) as (_ & P). rewrite across_back; auto. }
    pose proof (rev_continues _ _ C0) as D0. pose proof (rev_continues _ _ C1) as D1.
    rewrite (K _ _ C0) in D0. destruct (F e); eauto. }
  intros e E' HE. destruct (Q e E' HE) as (a & b & (A & E1 & HA & HE1 & C1 & C2) & (E2 & B & HE2 & HB & D1 & D2)).
  unfold edge_at in HE, HE1, HE2. assert (E1 = E') by congruence. assert (E2 = E') by congruence. subst E1 E2.
  destruct R' as (_ & R2). pose proof (R2 b B HB) as (_ & SB). pose proof (R2 a A HA) as (SA & _).
  pose proof (slot_lt _ _ _ _ SA) as (_ & PA). split.
  - exists b, B. split; [exact HB|]. rewrite <- D1, <- D2. split; auto.
  - exists a, A. split; [exact HA|]. rewrite C1, C2, across_back by auto. split; auto.
Qed.

(** directed edges *)
Definition rev_dart (a : nat * orient) : nat * orient := (fst a, if F (fst a) then opp (snd a) else snd a).
Lemma rev_dart_inj : forall a b, rev_dart a = rev_dart b -> a = b.
Proof.
  intros (a, o) (b, o') Q. unfold rev_dart in Q. cbn [fst snd] in Q. apply pair_equal_spec in Q as (-> & Q). f_equal.
  destruct (F b); auto. destruct o, o'; cbn in Q; congruence.
Qed.
Lemma rev_is_dart : forall a, is_dart d a <-> is_dart d' (rev_dart a).
Proof.
  intros (a, o). unfold is_dart, rev_dart. cbn [fst snd]. rewrite rev_nedges.
  destruct (F a); auto; [|tauto]. destruct o; cbn; intuition congruence.
Qed.
Lemma rev_dart_to : forall a s, dart_to d a s -> dart_to d' (rev_dart a) s.
Proof.
  intros (e, o) s (E & HE & Q). cbn [fst snd] in *. exists (turned_edge F e E). split; [apply rev_edge_at; eauto|].
  unfold rev_dart, turned_edge. cbn [fst snd]. destruct (F e); auto. destruct Q as [(-> & ->)|(-> & ->)]; auto.
Qed.
Lemma rev_dart_from : forall a s, dart_from d a s -> dart_from d' (rev_dart a) s.
Proof.
  intros (e, o) s (E & HE & Q). cbn [fst snd] in *. exists (turned_edge F e E). split; [apply rev_edge_at; eauto|].
  unfold rev_dart, turned_edge. cbn [fst snd]. destruct (F e); auto. destruct Q as [(-> & ->)|(-> & ->)]; auto.
Qed.
Lemma rev_left_turn : forall a b, left_turn d a b -> left_turn d' (rev_dart a) (rev_dart b).
Proof. intros a b (c & p & Hp & H1 & H2). exists c, p. auto using rev_dart_to, rev_dart_from. Qed.
Lemma rev_partition : forall fs, face_partition d fs -> face_partition d' (map (map rev_dart) fs).
Proof.
  intros fs P. pose proof (rev_ends_recorded R) as R'. pose proof (rev_two_ended T) as T'.
  apply faces_cycle in P; auto. apply faces_cycle; auto.
  apply (partition_map _ _ (turn d) (turn d') (darts d)); auto.
  - intros a b _ _. apply rev_dart_inj.
  - intros (b, o). rewrite in_darts. split.
    + intros D. exists (b, if F b then opp o else o). assert (E : (b, o) = rev_dart (b, if F b then opp o else o)).
      { unfold rev_dart. cbn [fst snd]. destruct (F b); auto. destruct o; auto. }
      split; auto. apply in_darts, rev_is_dart. rewrite <- E. auto.
    + intros (a & Ha & ->). apply in_darts in Ha. apply rev_is_dart; auto.
  - intros a Ha. apply in_darts in Ha. symmetry. apply turn_left; auto.
    + apply rev_is_dart; auto.
    + apply rev_left_turn. apply turn_left; auto.
Qed.
Lemma rev_planar : planar d -> planar d'.
Proof.
  intros (fs & P & L & B). exists (map (map rev_dart) fs). split; [apply rev_partition; auto|].
  rewrite map_length, rev_ncross, rev_nedges. split; auto.
  rewrite Forall_forall in *. intros f Hf. apply in_map_iff in Hf as (g & <- & Hg). rewrite map_length. auto.
Qed.
End Rev.

(** ** A canonical diagram is determined by its edges *)
Lemma same_start : forall x y r, r < 4 -> (forall p, p < 4 -> cedge y ((p + 4 - r) mod 4) = cedge x p) ->
  starts_at_lowest x -> starts_at_lowest y -> ce0 x <> ce2 x -> r = 0.
Proof.
  intros [x0 x1 x2 x3 sx] [y0 y1 y2 y3 sy] r Hr H (Lx & Nx) (Ly & Ny) N.
  pose proof (H 0 ltac:(lia)) as H0. pose proof (H 1 ltac:(lia)) as H1. pose proof (H 2 ltac:(lia)) as H2. pose proof (H 3 ltac:(lia)) as H3.
  pose proof (Lx 1 ltac:(lia)) as L1. pose proof (Lx 2 ltac:(lia)) as L2. pose proof (Lx 3 ltac:(lia)) as L3.
  pose proof (Ly 1 ltac:(lia)) as M1. pose proof (Ly 2 ltac:(lia)) as M2. pose proof (Ly 3 ltac:(lia)) as M3.
  destruct (small4 r Hr) as [->|[->|[->| ->]]]; cbn in *; auto; exfalso; lia.
Qed.
Lemma sorted_lex_perm : forall l m : list (list nat), StronglySorted lex_le l -> StronglySorted lex_le m -> Permutation l m -> l = m.
Proof.
  intros l m S1 S2 P. apply (sorted_unique (fun a b => not_gt (PdStore.kcmp a b))); auto.
  - intros a b H1 H2. apply lex_le_antisym; apply kcmp_lex; auto.
  - clear - S1. induction S1 as [|x l S IH F]; constructor; auto. eapply Forall_impl; [|exact F]. intros b H. apply kcmp_lex; auto.
  - clear - S2. induction S2 as [|x l S IH F]; constructor; auto. eapply Forall_impl; [|exact F]. intros b H. apply kcmp_lex; auto.
Qed.
Definition crossings_distinct (d : pd) : Prop :=
  NoDup (map cross_edges (p_cross d)) /\
  forall x, In x (p_cross d) -> ce0 x <> ce2 x /\ ce1 x <> ce3 x.
Lemma differ_distinct : forall d, crossings_differ d -> crossings_distinct d.
Proof.
  intros d (D1 & D2). split.
  - apply NoDup_nth_error. intros i j Hi E. rewrite map_length in Hi.
    destruct (Nat.eq_dec i j) as [|N]; auto. exfalso. rewrite !nth_error_map in E.
    destruct (nth_error (p_cross d) i) as [x|] eqn:Hx; [|apply nth_error_None in Hx; lia].
    destruct (nth_error (p_cross d) j) as [y|] eqn:Hy; [|discriminate]. cbn in E. injection E as E0 E1 E2 E3.
    assert (Hj : j < ncross d) by (apply nth_error_Some; congruence).
    apply (D1 i j 0 Hi Hj N). intros p e (Hp & z & Hz & Ez). rewrite Hx in Hz. injection Hz as <-.
    split; [apply mod4_lt|]. exists y. split; auto. rewrite <- Ez. rewrite Nat.add_0_r, Nat.mod_small by auto.
    destruct (small4 p Hp) as [->|[->|[->| ->]]]; cbn; auto.
  - intros x Hx. apply In_nth_error in Hx as (c & Hx). split; intros E.
    + apply (D2 c 0 (ce0 x)); [split; [lia|]; exists x; auto|]. split; [apply mod4_lt|]. exists x. split; auto.
    + apply (D2 c 1 (ce1 x)); [split; [lia|]; exists x; auto|]. split; [apply mod4_lt|]. exists x. split; auto.
Qed.
Lemma rl_identity : forall d d' s r q, ends_recorded d -> two_ended d -> relabelled d d' s r q ->
  (forall e, e < nedges d -> q e = e) -> crossings_canonical d -> crossings_canonical d' -> crossings_distinct d ->
  p_cross d' = p_cross d /\ p_edge d' = p_edge d.
Proof.
  intros d d' s r q R T RL Q (L1 & S1) (L2 & S2) (ND & NA).
  pose proof (rl_sigma _ _ _ _ _ RL) as Bs. pose proof (rl_ncross _ _ _ _ _ RL) as Nc.
  assert (X : forall c x, nth_error (p_cross d) c = Some x -> r c = 0 /\ nth_error (p_cross d') (s c) = Some x).
  { intros c x Hx. assert (Hc : c < ncross d) by (apply nth_error_Some; congruence).
    pose proof (rl_rho _ _ _ _ _ RL c Hc) as Hr.
    assert (Hs : s c < ncross d') by (rewrite Nc; apply Bs; auto).
    destruct (nth_error (p_cross d') (s c)) as [y|] eqn:Hy.
    2:{ apply nth_error_None in Hy. unfold ncross in Hs. lia. }
    assert (K : forall p, p < 4 -> cedge y ((p + 4 - r c) mod 4) = cedge x p).
    { intros p Hp. assert (S0 : slot d c p (cedge x p)) by (split; eauto).
      pose proof (consistent_bound d c p _ R T S0) as B0.
      pose proof (rl_slot _ _ _ _ _ RL _ _ _ S0) as S'. rewrite (Q _ B0) in S'. cbn [moved snd] in S'.
      destruct S' as (_ & y' & Hy' & E). rewrite Hy in Hy'. injection Hy' as <-. auto. }
    assert (R0 : r c = 0).
    { apply (same_start x y (r c)); auto.
      - apply L1. eapply nth_error_In; eauto.
      - apply L2. eapply nth_error_In; eauto.
      - apply NA. eapply nth_error_In; eauto. }
    split; auto. f_equal. rewrite R0 in K.
    pose proof (K 0 ltac:(lia)) as K0. pose proof (K 1 ltac:(lia)) as K1. pose proof (K 2 ltac:(lia)) as K2. pose proof (K 3 ltac:(lia)) as K3.
    destruct (rl_sign _ _ _ _ _ RL c (csign x)) as (y' & Hy' & E); [exists x; auto|]. rewrite Hy in Hy'. injection Hy' as <-.
    clear - K0 K1 K2 K3 E. destruct x, y. cbn in *. congruence. }
  assert (PM : Permutation (p_cross d) (p_cross d')).
  { assert (E : p_cross d = map (fun c => nth (s c) (p_cross d') no_cross) (seq 0 (ncross d))).
    { apply nth_ext with (d := no_cross) (d' := nth (s 0) (p_cross d') no_cross); [rewrite map_length, seq_length; auto|].
      intros i Hi. rewrite (map_nth (fun c => nth (s c) (p_cross d') no_cross)).
      rewrite seq_nth by auto. cbn [plus]. destruct (nth_error (p_cross d) i) as [x|] eqn:Hx.
      2:{ apply nth_error_None in Hx. lia. }
      destruct (X i x Hx) as (_ & Y). rewrite (nth_error_nth _ _ _ Hx), (nth_error_nth _ _ _ Y). auto. }
    rewrite E. clear E. rewrite <- (map_map s (fun k => nth k (p_cross d') no_cross)).
    assert (E2 : p_cross d' = map (fun k => nth k (p_cross d') no_cross) (seq 0 (ncross d))).
    { rewrite <- Nc. unfold ncross. apply nth_ext with (d := no_cross) (d' := nth 0 (p_cross d') no_cross); [rewrite map_length, seq_length; auto|].
      intros i Hi. rewrite (map_nth (fun c => nth c (p_cross d') no_cross)). rewrite seq_nth by auto. reflexivity. }
    transitivity (map (fun k => nth k (p_cross d') no_cross) (seq 0 (ncross d))); [|rewrite <- E2; apply Permutation_refl].
    apply Permutation_map, bij_perm, Bs. }
  assert (EM : map cross_edges (p_cross d) = map cross_edges (p_cross d')).
  { apply sorted_lex_perm; auto. apply Permutation_map; auto. }
  assert (Sid : forall c, c < ncross d -> s c = c).
  { intros c Hc. destruct (nth_error (p_cross d) c) as [x|] eqn:Hx; [|apply nth_error_None in Hx; unfold ncross in Hc; lia].
    destruct (X c x Hx) as (_ & Y). rewrite NoDup_nth_error in ND.
    symmetry. apply ND; [rewrite map_length; exact Hc|].
    rewrite (map_nth_error cross_edges _ _ Hx). rewrite EM. rewrite (map_nth_error cross_edges _ _ Y). auto. }
  split.
  - symmetry. apply list_ext. intros c. destruct (nth_error (p_cross d) c) as [x|] eqn:Hx.
    + destruct (X c x Hx) as (_ & Y). rewrite Sid in Y; auto. apply nth_error_Some. congruence.
    + symmetry. apply nth_error_None. apply nth_error_None in Hx. unfold ncross in Nc. lia.
  - apply list_ext. intros e. destruct (nth_error (p_edge d) e) as [E|] eqn:HE.
    + destruct (rl_edge _ _ _ _ _ RL e E HE) as (E' & HE' & K1 & K2). rewrite Q in HE' by (eapply edge_at_lt; eauto).
      unfold edge_at in HE'. rewrite HE'. f_equal. destruct R as (_ & R2). destruct (R2 e E HE) as (A & B).
      pose proof (slot_lt _ _ _ _ A) as (A1 & A2). pose proof (slot_lt _ _ _ _ B) as (B1 & B2).
      assert (Z : forall c, c < ncross d -> r c = 0).
      { intros c Hc. destruct (nth_error (p_cross d) c) as [x|] eqn:Hx; [|apply nth_error_None in Hx; unfold ncross in Hc; lia].
        apply (X c x Hx). }
      unfold head_slot, tail_slot, moved in K1, K2. apply pair_equal_spec in K1 as (K1 & K1'), K2 as (K2 & K2').
      rewrite Sid in K1, K2 by auto. rewrite Z in K1', K2' by auto.
      assert (M4 : forall p, p < 4 -> (p + 4 - 0) mod 4 = p).
      { intros p Hp. destruct (small4 p Hp) as [->|[->|[->| ->]]]; reflexivity. }
      rewrite M4 in K1', K2' by auto. destruct E, E'. cbn in *. congruence.
    + pose proof (rl_nedges _ _ _ _ _ RL) as Ne. apply nth_error_None. apply nth_error_None in HE. unfold nedges in Ne. lia.
Qed.
Lemma rl_same_target : forall d d1 d2 s1 r1 q1 s2 r2 q2, ends_recorded d -> two_ended d ->
  relabelled d d1 s1 r1 q1 -> relabelled d d2 s2 r2 q2 -> (forall e, e < nedges d -> q1 e = q2 e) ->
  crossings_canonical d1 -> crossings_canonical d2 -> crossings_distinct d1 ->
  p_cross d2 = p_cross d1 /\ p_edge d2 = p_edge d1.
Proof.
  intros d d1 d2 s1 r1 q1 s2 r2 q2 R T A B Q C1 C2 D1.
  pose proof (rl_ends_recorded _ _ _ _ _ A R) as R1. pose proof (rl_two_ended _ _ _ _ _ A R T) as T1.
  pose proof (rl_sym_at d d1 s1 r1 q1 A R T) as A'. pose proof (rl_trans _ _ _ _ _ _ _ _ _ R1 A' B) as W.
  eapply rl_identity; [exact R1|exact T1|exact W| | | |]; auto.
  intros e He. rewrite (rl_nedges _ _ _ _ _ A) in He. cbv beta. unfold pi'.
  destruct (inv_spec (nedges d) q1 e (rl_pi _ _ _ _ _ A) He) as (I1 & I2). rewrite <- Q by auto. auto.
Qed.

(** ** Diagrams carried to one another *)
Lemma carried_trans : forall d d1 d2 s r q F G s' r' q' F' G', ends_recorded d ->
  carried d d1 s r q F G -> carried d1 d2 s' r' q' F' G' ->
  carried d d2 (fun c => s' (s c)) (fun c => (r c + r' (s c)) mod 4) (fun e => q' (q e))
    (fun e => xorb (F e) (F' (q e))) (fun c => xorb (G c) (G' (s c))).
Proof.
  intros d d' d'' s r q F G s' r' q' F' G' Rec R1 R2.
  assert (M : forall c p, c < ncross d -> p < 4 ->
    moved s' r' (s c) ((p + 4 - r c) mod 4) = moved (fun c => s' (s c)) (fun c => (r c + r' (s c)) mod 4) c p).
  { intros c p Hc Hp. unfold moved. f_equal. apply moved_moved; auto.
    - apply (ca_rho _ _ _ _ _ _ _ R1); auto.
    - apply (ca_rho _ _ _ _ _ _ _ R2). rewrite (ca_ncross _ _ _ _ _ _ _ R1). apply (ca_sigma _ _ _ _ _ _ _ R1); auto. }
  assert (Bij : forall n f g, bij_on n f -> bij_on n g -> bij_on n (fun x => g (f x))).
  { intros n f g (F1 & F2) (G1 & G2). split; auto. }
  split.
  - rewrite (ca_ncross _ _ _ _ _ _ _ R2). apply (ca_ncross _ _ _ _ _ _ _ R1).
  - rewrite (ca_nedges _ _ _ _ _ _ _ R2). apply (ca_nedges _ _ _ _ _ _ _ R1).
  - apply Bij; [apply (ca_sigma _ _ _ _ _ _ _ R1)|]. rewrite <- (ca_ncross _ _ _ _ _ _ _ R1). apply (ca_sigma _ _ _ _ _ _ _ R2).
  - intros c _. apply mod4_lt.
  - apply Bij; [apply (ca_pi _ _ _ _ _ _ _ R1)|]. rewrite <- (ca_nedges _ _ _ _ _ _ _ R1). apply (ca_pi _ _ _ _ _ _ _ R2).
  - intros c p e S. pose proof (slot_lt _ _ _ _ S) as (Hc & Hp). rewrite <- (M c p Hc Hp).
    apply (ca_slot _ _ _ _ _ _ _ R2 _ _ _ (ca_slot _ _ _ _ _ _ _ R1 _ _ _ S)).
  - intros c x S. pose proof (ca_sign _ _ _ _ _ _ _ R2 _ _ (ca_sign _ _ _ _ _ _ _ R1 _ _ S)) as Q.
    destruct (G c), (G' (s c)); cbn [xorb]; auto. destruct x; exact Q.
  - intros e E HE. destruct (ca_edge _ _ _ _ _ _ _ R1 e E HE) as (E1 & HE1 & A1 & A2).
    destruct (ca_edge _ _ _ _ _ _ _ R2 _ E1 HE1) as (E2 & HE2 & B1 & B2). exists E2. split; auto.
    destruct Rec as (_ & Rec). destruct (Rec e E HE) as (S1 & S2).
    apply slot_lt in S1 as (C1 & P1). apply slot_lt in S2 as (C2 & P2).
    unfold head_slot in A1 at 1. unfold tail_slot in A2 at 1. unfold moved in A1, A2.
    destruct (F e), (F' (q e)); cbn [xorb];
    apply pair_equal_spec in A1 as (U1 & U2); apply pair_equal_spec in A2 as (V1 & V2);
    rewrite B1, B2, U1, U2, V1, V2, !M by auto; auto.
Qed.
Lemma carried_refl : forall d, ends_recorded d -> carried d d (fun c => c) (fun _ => 0) (fun e => e) (fun _ => false) (fun _ => false).
Proof.
  intros d R. assert (M : forall c p, p < 4 -> moved (fun c => c) (fun _ => 0) c p = (c, p)).
  { intros c p Hp. unfold moved. f_equal. destruct (small4 p Hp) as [->|[->|[->| ->]]]; reflexivity. }
  constructor; auto using bij_id.
  - intros c p e S. rewrite M by (apply S). exact S.
  - intros e E HE. exists E. split; auto. destruct R as (_ & R2). destruct (R2 e E HE) as (A & B).
    apply slot_lt in A as (_ & A). apply slot_lt in B as (_ & B). rewrite !M by auto. auto.
Qed.
Lemma carried_ext : forall d d' s r q F G q' F' G', ends_recorded d -> two_ended d -> carried d d' s r q F G ->
  (forall e, e < nedges d -> q e = q' e /\ F e = F' e) -> (forall c, c < ncross d -> G c = G' c) ->
  carried d d' s r q' F' G'.
Proof.
  intros d d' s r q F G q' F' G' R T C Q H. destruct C as [C1 C2 C3 C4 C5 C6 C7 C8]. constructor; auto.
  - destruct C5 as (A & B). split; intros.
    + rewrite <- (proj1 (Q _ H0)). auto.
    + apply B; auto. rewrite (proj1 (Q _ H0)), (proj1 (Q _ H1)). auto.
  - intros c p e S. rewrite <- (proj1 (Q e (consistent_bound d c p e R T S))). auto.
  - intros c s0 S. rewrite <- H; auto. destruct S as (x & Hx & _). apply nth_error_Some. congruence.
  - intros e E HE. destruct (Q e (edge_at_lt _ _ _ HE)) as (<- & <-). auto.
Qed.
Lemma carried_differ : forall d d' s r q F G, ends_recorded d -> two_ended d -> carried d d' s r q F G ->
  crossings_differ d -> crossings_differ d'.
Proof.
  intros d d' s r q F G R T C (D1 & D2).
  apply carried_rev in C; auto. set (d0 := rev_pd d F G) in *.
  assert (R0 : ends_recorded d0) by (apply rev_ends_recorded; auto). assert (T0 : two_ended d0) by (apply rev_two_ended; auto).
  pose proof (rl_sym_at d0 d' s r q C R0 T0) as C'. set (s' := sigma' d0 s) in *. set (q' := pi' d0 q) in *. set (r' := rho' d0 s r) in *.
  assert (N0 : ncross d0 = ncross d) by apply rev_ncross.
  pose proof (rl_ncross _ _ _ _ _ C) as N'. pose proof (rl_sigma _ _ _ _ _ C') as (Bs1 & Bs2).
  assert (B : forall c p e, slot d' c p e -> slot d (s' c) (snd (moved s' r' c p)) (q' e)).
  { intros c p e S. apply (rl_slot _ _ _ _ _ C') in S. unfold d0 in S. rewrite rev_slot in S. exact S. }
  assert (Q : forall e, e < nedges d -> q (q' e) = e).
  { intros e He. apply (inv_spec (nedges d0) q e (rl_pi _ _ _ _ _ C)). unfold d0. rewrite rev_nedges. auto. }
  assert (QB : forall c p e, slot d' c p e -> q (q' e) = e).
  { intros c p e S. apply Q. pose proof (B c p e S) as S2. rewrite <- (rev_nedges d F G). fold d0. rewrite <- (rl_nedges _ _ _ _ _ C).
    eapply consistent_bound; eauto using rl_ends_recorded, rl_two_ended. }
  assert (PB : forall c c' k, c < ncross d' -> c' < ncross d' -> (forall p e, slot d' c p e -> slot d' c' ((p + k) mod 4) e) ->
    exists k', forall p e, slot d (s' c) p e -> slot d (s' c') ((p + k') mod 4) e).
  { intros c c' k Hc Hc' H. pose proof (rl_rho _ _ _ _ _ C' c Hc) as L1. pose proof (rl_rho _ _ _ _ _ C' c' Hc') as L2.
    exists (r' c + k + 4 - r' c'). intros p e S.
    assert (Hp : p < 4) by apply S.
    assert (He : e < nedges d) by (eapply consistent_bound; eauto).
    assert (S1 : slot d' c ((p + r' c) mod 4) (q e)).
    { pose proof (proj2 (rev_slot d F G _ _ _) S) as S1. fold d0 in S1. apply (rl_slot _ _ _ _ _ C) in S1.
      assert (E1 : s (s' c) = c) by (apply (inv_spec (ncross d0) s c (rl_sigma _ _ _ _ _ C)); lia).
      rewrite E1 in S1. replace ((p + r' c) mod 4) with (snd (moved s r (s' c) p)); auto. cbn [moved snd].
      assert (ER : r' c = (4 - r (s' c)) mod 4) by reflexivity.
      pose proof (rl_rho _ _ _ _ _ C (s' c) ltac:(rewrite N0; rewrite <- N0, <- N'; rewrite N'; rewrite <- N'; apply Bs1; auto)) as L.
      rewrite ER. rewrite Nat.add_mod_idemp_r by lia. f_equal. lia. }
    apply H in S1. apply B in S1. assert (E2 : q' (q e) = e).
    { apply inv_left; [apply (rl_pi _ _ _ _ _ C)|unfold d0; rewrite rev_nedges; auto]. }
    rewrite E2 in S1. cbn [moved snd] in S1. replace ((p + (r' c + k + 4 - r' c')) mod 4) with ((((p + r' c) mod 4 + k) mod 4 + 4 - r' c') mod 4); auto.
    clear - L2. rewrite (Nat.add_mod_idemp_l (p + r' c) k 4) by lia.
    replace (((p + r' c + k) mod 4 + 4 - r' c')) with ((p + r' c + k) mod 4 + (4 - r' c')) by lia.
    rewrite Nat.add_mod_idemp_l by lia. f_equal. lia. }
  split.
  - intros c c' k Hc Hc' N H. destruct (PB c c' k Hc Hc' H) as (k' & H').
    assert (N2 : ncross d' = ncross d) by lia.
    apply (D1 (s' c) (s' c') k'); [rewrite <- N2; auto|rewrite <- N2; auto| |exact H'].
    intros X. apply N. apply Bs2; auto.
  - intros c p e S1 S2. pose proof (B _ _ _ S1) as U1. pose proof (B _ _ _ S2) as U2. apply (D2 _ _ _ U1).
    cbn [moved snd] in U2 |- *.
    assert (Hc : c < ncross d') by (apply slot_lt in S1; tauto). pose proof (rl_rho _ _ _ _ _ C' c Hc) as L1.
    assert (Hp : p < 4) by apply S1.
    replace (((p + 4 - r' c) mod 4 + 2) mod 4) with (((p + 2) mod 4 + 4 - r' c) mod 4); auto.
    clear - L1 Hp. remember (r' c) as x. clear Heqx. destruct (small4 p Hp) as [->|[->|[->| ->]]]; destruct (small4 x L1) as [->|[->|[->| ->]]]; reflexivity.
Qed.
Lemma carried_same_target : forall d d1 d2 s1 r1 q1 F1 G1 s2 r2 q2 F2 G2, ends_recorded d -> two_ended d ->
  carried d d1 s1 r1 q1 F1 G1 -> carried d d2 s2 r2 q2 F2 G2 ->
  (forall e, e < nedges d -> q1 e = q2 e /\ F1 e = F2 e) -> (forall c, c < ncross d -> G1 c = G2 c) ->
  crossings_canonical d1 -> crossings_canonical d2 -> crossings_differ d ->
  p_cross d2 = p_cross d1 /\ p_edge d2 = p_edge d1.
Proof.
  intros d d1 d2 s1 r1 q1 F1 G1 s2 r2 q2 F2 G2 R T A B Q H C1 C2 D.
  assert (D1 : crossings_differ d1) by (eapply (carried_differ d d1); eauto).
  assert (B' : carried d d2 s2 r2 q1 F1 G1).
  { eapply (carried_ext d d2 s2 r2 q2 F2 G2); eauto; [|intros; symmetry; auto]. intros e He. destruct (Q e He). auto. }
  apply carried_rev in A; auto. apply carried_rev in B'; auto.
  eapply (rl_same_target (rev_pd d F1 G1) d1 d2); eauto using rev_ends_recorded, rev_two_ended, differ_distinct.
Qed.

(** tidy diagrams with the same crossings, edges and components *)
Lemma tidy_unique : forall a b, tidy a -> tidy b -> p_cross b = p_cross a -> p_edge b = p_edge a ->
  p_comp b = p_comp a -> p_maxv b = p_maxv a -> p_uid b = p_uid a -> a = b.
Proof.
  intros a b TA TB E1 E2 E3 E4 E5.
  assert (Fc : p_face b = p_face a).
  { assert (X : pd_regenerate_faces a = Ok (with_faces a (p_face a))) by (rewrite (td_faces a TA); destruct a; reflexivity).
    apply (regenerate_faces_core a b) in X; [|repeat split; auto]. rewrite (td_faces b TB) in X. apply ok_inj in X.
    rewrite X. reflexivity. }
  assert (Hs : p_hash b = p_hash a).
  { pose proof (td_hash a TA) as HA. pose proof (td_hash b TB) as HB. unfold pd_regenerate_hash in HA, HB.
    assert (X : hash_data b = hash_data a) by (unfold hash_data, ncross, nedges, nfaces, ncomps; rewrite E1, E2, E3, Fc; reflexivity).
    rewrite X in HB. destruct (hash_data a) as [v| | |]; cbn [bind] in HA, HB; try discriminate.
    apply ok_inj in HA. apply ok_inj in HB. rewrite <- HB, <- HA. reflexivity. }
  destruct a, b. cbn in *. congruence.
Qed.
