(** A table of crossings whose faces are known regenerates into a diagram. *)
From Coq Require Import List ZArith Lia Bool Arith Permutation Relations Sorted.
From Verif Require Import Base ListAux Iterators Orbits Cycles Pd PdSpec PdProofs Relabel RelabelProofs RelabelSym Strands SlotCount PdCross PdCrossProofs PdEdges
  PdComps PdCompsProofs PdFaces PdFacesProofs PdHash PdRegen RegenSpec RegenProofs Thm_Pd Thm_Edges Thm_Comps Thm_Faces Thm_Regen Planar PlanarProofs DartMap DeloopProofs
  PdOps Build BuildSpec Unsigned.
Import ListNotations.
Open Scope nat_scope.

Lemma choice_on : forall A (a0 : A) (P : nat -> A -> Prop) n, (forall i, i < n -> exists j, P i j) -> exists f, forall i, i < n -> P i (f i).
Proof.
  intros A a0 P. induction n as [|n IH]; intros H; [exists (fun _ => a0); intros; lia|].
  destruct IH as (f & F); [auto|]. destruct (H n) as (j & J); [lia|].
  exists (fun i => if i =? n then j else f i). intros i Hi. destruct (Nat.eqb_spec i n) as [->|]; auto. apply F. lia.
Qed.

Section Layout.
Context (d : pd) (Hn : 0 < ncross d).
Notation n := (ncross d).
Context (TW : forall e, e < 2 * n -> exists s t, s <> t /\ slot d (fst s) (snd s) e /\ slot d (fst t) (snd t) e).

Lemma slot_in : forall c p e, slot d c p e -> edge_in (p_cross d) (c, p) = e.
Proof. intros c p e (Hp & x & Hx & <-). unfold edge_in. cbn [fst snd]. rewrite Hx. auto. Qed.
Lemma layout_perm : Permutation (all_slots (p_cross d)) (twice (2 * n)).
Proof.
  destruct (choice_on _ ((0, 0), (0, 0)) (fun e st => fst st <> snd st /\ slot d (fst (fst st)) (snd (fst st)) e /\ slot d (fst (snd st)) (snd (snd st)) e) (2 * n)) as (f & F).
  { intros e He. destruct (TW e He) as (s & t & H). exists (s, t). exact H. }
  rewrite all_slots_places. change (list_prod (seq 0 (length (p_cross d))) (seq 0 4)) with (places d).
  set (l := flat_map (fun e => [fst (f e); snd (f e)]) (seq 0 (2 * n))).
  assert (ND : NoDup l).
  { assert (G : forall k a, a + k <= 2 * n -> NoDup (flat_map (fun e => [fst (f e); snd (f e)]) (seq a k))).
    { induction k as [|k IH]; intros a Ha; [constructor|]. cbn [seq flat_map app]. destruct (F a ltac:(lia)) as (N & S1 & S2).
      assert (NI : forall s, In s (flat_map (fun e => [fst (f e); snd (f e)]) (seq (S a) k)) -> s <> fst (f a) /\ s <> snd (f a)).
      { intros s I. apply in_flat_map in I as (e & Ie & I). apply in_seq in Ie. destruct (F e ltac:(lia)) as (_ & T1 & T2).
        destruct I as [<-|[<-|[]]]; split; intros Q; first [rewrite Q in T1|rewrite Q in T2]; (assert (e = a); [first [exact (slot_fun _ _ _ _ _ T1 S1)|exact (slot_fun _ _ _ _ _ T1 S2)|exact (slot_fun _ _ _ _ _ T2 S1)|exact (slot_fun _ _ _ _ _ T2 S2)]|lia]). }
      constructor; [intros [E|I]; [congruence|destruct (NI _ I); congruence]|]. constructor; [intros I; destruct (NI _ I); congruence|]. apply IH. lia. }
    apply G. lia. }
  assert (PL : Permutation (places d) l).
  { assert (INC : incl l (places d)).
    { intros s I. apply in_flat_map in I as (e & Ie & I). apply in_seq in Ie. destruct (F e ltac:(lia)) as (_ & T1 & T2).
      apply slot_lt in T1, T2. destruct I as [<-|[<-|[]]]; [destruct (fst (f e))|destruct (snd (f e))]; apply in_places; auto. }
    assert (LL : length l = 4 * n).
    { unfold l. assert (G : forall k a, length (flat_map (fun e => [fst (f e); snd (f e)]) (seq a k)) = 2 * k) by (induction k as [|k IH]; intros a; cbn [seq flat_map app length]; [auto|rewrite IH; lia]). rewrite G. lia. }
    assert (LP : length (places d) = 4 * n) by (unfold places; rewrite prod_length, !seq_length; lia).
    symmetry. apply NoDup_Permutation_bis; auto. lia. }
  rewrite PL. unfold l, twice. clear PL ND l. assert (G : forall q, (forall e, In e q -> e < 2 * n) -> map (edge_in (p_cross d)) (flat_map (fun e => [fst (f e); snd (f e)]) q) = flat_map (fun e => [e; e]) q).
  { induction q as [|e q IH]; intros H; auto. cbn [flat_map app map]. destruct (F e (H e (or_introl eq_refl))) as (_ & S1 & S2). apply slot_in in S1, S2. rewrite <- !surjective_pairing in S1, S2. rewrite S1, S2, IH; auto.
    intros e' I. apply H. right. auto. }
  rewrite G; auto. intros e I. apply in_seq in I. lia.
Qed.
Lemma layout_twice : each_edge_twice d.
Proof.
  intros e He. change (flat_map cross_edges (p_cross d)) with (all_slots (p_cross d)).
  rewrite (proj1 (Permutation_count_occ Nat.eq_dec _ _) layout_perm). apply twice_count; auto.
Qed.
Lemma layout_range : forall c p e, slot d c p e -> e < 2 * n.
Proof.
  intros c p e (Hp & x & Hx & E). apply twice_in. eapply Permutation_in; [apply layout_perm|]. apply in_all_slots. eauto 6.
Qed.

(** ** with edge records *)
Section Records.
Context (es : list edge).
Notation d0 := (with_edges (drop_signs d) es).
Context (R : ends_recorded d0) (G : goes_through d0) (T : two_ended d0).

Lemma slot0 : forall c p e, slot d0 c p e <-> slot d c p e.
Proof. intros c p e. change (slot (drop_signs d) c p e <-> slot d c p e). apply drop_slots. Qed.
Lemma ncross0 : ncross d0 = n.
Proof. apply drop_ncross. Qed.
Lemma nedges0 : nedges d0 = 2 * n.
Proof. rewrite (proj1 R), ncross0. auto. Qed.

Definition turn (s : nat * nat) : nat * nat := (fst s, (snd s + 3) mod 4).
Context (FS : list (list (nat * nat))).
Context (F1 : forall f, In f FS -> f <> [] /\ cyclically (fun s t => wire d (turn s) t) f).
Context (F2 : length (concat FS) <= 4 * n).
Context (F3 : forall c p, c < n -> p < 4 -> In (c, p) (concat FS)).
Context (F4 : forall c p, In (c, p) (concat FS) -> c < n /\ p < 4).
Context (F5 : length FS = n + 2).
Context (F6 : forall f, In f FS -> length f <= 2 * n).

Lemma dfrom : forall b t s, is_dart d0 b -> dto d0 b = t -> wire d s t -> dto d0 (flip b) = s.
Proof.
  intros b t s Hb Eb (N & e & S1 & S2). rewrite <- slot0 in S1, S2.
  pose proof (dto_slot d0 b R Hb) as S3. rewrite Eb in S3. pose proof (slot_fun _ _ _ _ _ S2 S3) as Q. subst e.
  destruct (edge_at_ex d0 (fst b)) as (E & HE); [apply Hb|].
  pose proof (slot_end d0 _ _ _ E R T S1 HE) as Q1. pose proof (slot_end d0 _ _ _ E R T S2 HE) as Q2. rewrite <- !surjective_pairing in Q1, Q2.
  unfold dto, edge_at in *. unfold flip. destruct b as (e, o). cbn [fst snd] in *. rewrite HE in *.
  destruct Hb as (_ & Ho). cbn [snd] in Ho. destruct Ho as [->| ->]; destruct Q1, Q2; congruence.
Qed.
Lemma layout_planar : planar d0.
Proof.
  set (h := fun s : nat * nat => arr d0 (fst s) (snd s)).
  assert (HS : forall s, In s (concat FS) -> is_dart d0 (h s) /\ dto d0 (h s) = s).
  { intros (c, p) I. apply F4 in I as (Hc & Hp). apply (arr_spec d0 R T c p); auto. rewrite ncross0. auto. }
  assert (ND : NoDup (concat FS)).
  { apply (NoDup_incl_NoDup (l := places d)).
    - unfold places. apply NoDup_list_prod; apply seq_NoDup.
    - unfold places. rewrite prod_length, !seq_length. lia.
    - intros (c, p) I. apply in_places in I. apply F3; apply I. }
  exists (map (map h) FS). split; [|split].
  - split; [|split].
    + intros f I. apply in_map_iff in I as (g & <- & I). destruct (F1 g I) as (NE & CY). split; [destruct g; [congruence|discriminate]|].
      assert (IG : forall s, In s g -> In s (concat FS)) by (intros s Is; apply in_concat; eauto).
      eapply (DartMap.cyclically_map (nat * nat) dart (fun s t => wire d (turn s) t)); [|exact CY].
      intros s t Is It W. apply left_turn_dto. destruct (HS s (IG s Is)) as (D1 & E1). destruct (HS t (IG t It)) as (D2 & E2).
      split; auto. split; auto. rewrite E1. split.
      * specialize (IG s Is). destruct s. apply F4 in IG. apply IG.
      * exact (dfrom (h t) t (turn s) D2 E2 W).
    + rewrite <- concat_map. apply NoDup_map_inj; auto. intros s t Is It Q. destruct (HS s Is) as (_ & E1). destruct (HS t It) as (_ & E2). congruence.
    + intros a. rewrite <- concat_map, in_map_iff. split.
      * intros (s & <- & I). apply HS. auto.
      * intros Ha. exists (dto d0 a). pose proof (dto_slot d0 a R Ha) as S. split.
        -- apply (arr_dto d0 R T a Ha).
        -- destruct (dto d0 a) as (c, p). apply slot_lt in S. rewrite ncross0 in S. apply F3; apply S.
  - rewrite map_length, ncross0. auto.
  - apply Forall_forall. intros f I. apply in_map_iff in I as (g & <- & I). rewrite map_length, nedges0. auto.
Qed.

(** ** strands *)
Definition across (e e' : nat) : Prop := exists c p, slot d c p e /\ slot d c ((p + 2) mod 4) e'.
Context (col : nat -> nat) (k : nat).
Context (C1 : forall e e', across e e' -> col e = col e').
Context (C2 : forall e, e < 2 * n -> col e < k).
Context (C3 : forall i, i < k -> exists e, e < 2 * n /\ col e = i).
Context (C4 : forall e e', e < 2 * n -> e' < 2 * n -> col e = col e' -> clos_refl_sym_trans nat across e e').

Lemma continues_across : forall a b, continues d0 a b -> across a b.
Proof.
  intros a b (A & B & HA & HB & Q1 & Q2). exists (e_head A), (e_headpos A). destruct (proj2 R a A HA) as (S1 & _). destruct (proj2 R b B HB) as (_ & S2).
  rewrite Q1, Q2 in S2. rewrite <- !slot0. auto.
Qed.
Lemma across_continues : forall a b, across a b -> continues d0 a b \/ continues d0 b a.
Proof.
  intros a b (c & p & S1 & S2). rewrite <- slot0 in S1, S2.
  destruct (slot_edge d0 _ _ _ R T S1) as (A & HA). destruct (slot_edge d0 _ _ _ R T S2) as (B & HB).
  destruct (slot_end d0 _ _ _ A R T S1 HA) as [Q|Q]; unfold head_slot, tail_slot in Q; apply pair_equal_spec in Q as (-> & ->).
  - left. destruct (proj1 (G a A HA)) as (b' & B' & HB' & S3 & Q3). assert (b' = b) by (eapply slot_fun; eauto). subst b'. unfold edge_at in *. rewrite HB in HB'. injection HB' as <-.
    unfold tail_slot in Q3. apply pair_equal_spec in Q3 as (Q3 & Q4). exists A, B. auto.
  - right. destruct (proj2 (G a A HA)) as (b' & B' & HB' & S3 & Q3). assert (b' = b) by (eapply slot_fun; eauto). subst b'. unfold edge_at in *. rewrite HB in HB'. injection HB' as <-.
    unfold head_slot in Q3. apply pair_equal_spec in Q3 as (Q3 & Q4). exists B, A. split; auto. split; auto. rewrite Q3, Q4. split; auto.
    destruct (proj2 R a A HA) as (_ & S4). apply slot_lt in S4 as (_ & L4). destruct (small4 _ L4) as [->|[->|[->| ->]]]; reflexivity.
Qed.
Lemma layout_strands : forall L, strand_partition d0 L -> length L = k.
Proof.
  intros L SP. pose proof SP as (B & ND & CV). rewrite nedges0 in CV.
  assert (CP : cycle_partition (succ d0) (seq 0 (nedges d0)) L) by (apply strand_cycle; auto).
  assert (SC : forall b a a', In b L -> In a b -> continues d0 a a' -> In a' b).
  { intros b a a' Ib Ia C. apply (continues_succ d0 R G) in C as (_ & ->). exact (block_closed (succ d0) (seq 0 (nedges d0)) L b a 1 CP Ib Ia). }
  assert (SB : forall b a a', In b L -> In a b -> continues d0 a' a -> In a' b).
  { intros b a a' Ib Ia C. assert (La : a' < nedges d0) by (destruct C as (A & _ & HA & _); eapply edge_at_lt; eauto).
    assert (Ia' : In a' (concat L)) by (apply CV; rewrite <- nedges0; auto). apply in_concat in Ia' as (b' & Ib' & Ia').
    pose proof (SC b' a' a Ib' Ia' C) as Ia2. apply In_nth_error in Ib as (i & Hi). apply In_nth_error in Ib' as (j & Hj).
    assert (i = j) by (eapply Cycles.blocks_disjoint; eauto). subst j. congruence. }
  assert (SA : forall b a a', In b L -> clos_refl_sym_trans nat across a a' -> (In a b <-> In a' b)).
  { intros b a a' Ib C. induction C as [x y C|x|x y C IH|x y z C1' IH1 C2' IH2]; [|tauto|tauto|tauto].
    destruct (across_continues x y C) as [K|K]; split; intros I; eauto. }
  set (g := fun b => col (hd 0 b)).
  assert (HD : forall b, In b L -> In (hd 0 b) b) by (intros b I; destruct (B b I) as (NE & _); destruct b; [congruence|left; auto]).
  assert (HL : forall b, In b L -> hd 0 b < 2 * n) by (intros b I; apply CV, in_concat; eauto).
  assert (NG : NoDup (map g L)).
  { apply NoDup_nth_error. intros i j Hi Q. rewrite map_length in Hi. destruct (nth_error L i) as [b|] eqn:Eb; [|apply nth_error_None in Eb; lia].
    rewrite !nth_error_map, Eb in Q. destruct (nth_error L j) as [b'|] eqn:Eb'; [|discriminate]. cbn in Q. injection Q as Q.
    pose proof (nth_error_In _ _ Eb) as Ib. pose proof (nth_error_In _ _ Eb') as Ib'.
    assert (I : In (hd 0 b') b) by (apply (SA b (hd 0 b) (hd 0 b') Ib); auto; apply C4; auto).
    eapply Cycles.blocks_disjoint; eauto. }
  assert (P : Permutation (map g L) (seq 0 k)).
  { apply NoDup_Permutation; auto; [apply seq_NoDup|]. intros i. rewrite in_map_iff, in_seq. split.
    - intros (b & <- & Ib). specialize (C2 (hd 0 b) (HL b Ib)). unfold g. lia.
    - intros Hi. destruct (C3 i ltac:(lia)) as (e & He & <-). assert (Ie : In e (concat L)) by (apply CV; auto). apply in_concat in Ie as (b & Ib & Ie).
      exists b. split; auto. unfold g. assert (CC : clos_refl_sym_trans nat across (hd 0 b) e).
      { destruct (B b Ib) as (NE & CY). apply in_split in Ie as (x & y & ->).
        assert (Hd : hd 0 (x ++ e :: y) = hd e x) by (destruct x; auto). rewrite Hd. clear Hd.
        destruct x as [|z x]; [apply rst_refl|]. cbn [hd].
        assert (Q : forall j a, j <= S (length x) -> nth_error ((z :: x) ++ e :: y) j = Some a -> clos_refl_sym_trans nat across z a).
        { induction j as [|j IH]; intros a Lj Ea; [injection Ea as ->; apply rst_refl|].
          destruct (nth_error ((z :: x) ++ e :: y) j) as [b0|] eqn:Eb; [|apply nth_error_None in Eb; rewrite app_length in Eb; cbn in Eb; lia].
          eapply rst_trans; [apply (IH b0); auto; lia|]. apply rst_step, continues_across. eapply CY; eauto.
          rewrite Nat.mod_small; [rewrite Nat.add_1_r; exact Ea|]. assert (Le := proj1 (nth_error_Some ((z :: x) ++ e :: y) (S j)) ltac:(congruence)). lia. }
        apply (Q (S (length x)) e); [lia|]. cbn [app nth_error]. rewrite nth_error_app2 by lia. rewrite Nat.sub_diag. reflexivity. }
      clear - CC C1. induction CC as [u v H|u|u v H IH|u v w H1 IH1 H2 IH2]; auto; [congruence]. }
  apply Permutation_length in P. rewrite map_length, seq_length in P. auto.
Qed.
End Records.
End Layout.

(** * Making all crossings positive *)
Lemma pos_slot : forall d c p e, slot (all_positive d) c p e <-> slot d c p e.
Proof.
  intros d c p e. unfold slot. cbn [all_positive with_cross p_cross]. rewrite nth_error_map. split.
  - intros (Hp & x & Hx & E). split; auto. destruct (nth_error (p_cross d) c) as [y|]; [|discriminate]. cbn in Hx. injection Hx as <-. exists y. split; [auto|exact E].
  - intros (Hp & x & Hx & E). split; auto. rewrite Hx. eexists. split; [reflexivity|exact E].
Qed.
Lemma pos_ncross : forall d, ncross (all_positive d) = ncross d.
Proof. intros. apply map_length. Qed.
Lemma pos_sign : forall d c s, sign_at (all_positive d) c s -> s = Pos.
Proof. intros d c s (x & Hx & <-). cbn [all_positive with_cross p_cross] in Hx. rewrite nth_error_map in Hx. destruct (nth_error (p_cross d) c); [|discriminate]. cbn in Hx. injection Hx as <-. reflexivity. Qed.
Lemma pos_edges : forall d, map cross_edges (p_cross (all_positive d)) = map cross_edges (p_cross d).
Proof. intros. cbn [all_positive with_cross p_cross]. rewrite map_map. apply map_ext. reflexivity. Qed.
Lemma pos_all : forall d, all_slots (p_cross (all_positive d)) = all_slots (p_cross d).
Proof. intros. unfold all_slots. rewrite !flat_map_concat_map, pos_edges. reflexivity. Qed.
Lemma pos_recorded : forall d, ends_recorded d -> ends_recorded (all_positive d).
Proof.
  intros d (R1 & R2). split; [rewrite pos_ncross; exact R1|]. intros e E HE. rewrite !pos_slot. apply R2. exact HE.
Qed.
Lemma pos_through : forall d, goes_through d -> goes_through (all_positive d).
Proof.
  intros d G e E HE. destruct (G e E HE) as ((a & A & HA & SA & QA) & (b & B & HB & SB & QB)).
  split; [exists a, A|exists b, B]; rewrite pos_slot; auto.
Qed.
Lemma pos_regular : forall d, regular d -> regular (all_positive d).
Proof.
  intros d [R1 R2 R3 R4 R5 R6 R7 R8 R9 R10]. constructor; auto using pos_recorded, pos_through.
  - destruct R4 as (A & B). split; [|unfold crossings_sorted; rewrite pos_edges; exact B].
    intros x I. cbn [all_positive with_cross p_cross] in I. apply in_map_iff in I as (y & <- & I). exact (A y I).
  - rewrite pos_ncross. exact R8.
Qed.
Lemma pos_ok : forall d, 0 < ncross d -> pd_ok d = Ok true -> pd_ok (all_positive d) = Ok true.
Proof.
  intros d Hn H. unfold pd_ok in *.
  assert (AND : forall a b, and_ok a b = Ok true <-> a = Ok true /\ b = Ok true) by (intros [[|]| | |] b; cbn; split; intros; try tauto; try (destruct H0; congruence); try discriminate).
  rewrite !AND in *. destruct H as (H1 & H2 & H3 & H4).
  apply edges_ok_spec in H2; auto. destruct H2 as (R & G). apply cross_ok_spec in H1; auto. apply faces_ok_spec in H3; auto. apply comps_ok_spec in H4; auto.
  assert (Hp : 0 < ncross (all_positive d)) by (rewrite pos_ncross; auto). pose proof (pos_recorded d R) as R'.
  split; [|split; [|split]].
  - apply cross_ok_spec; auto. destruct H1 as (A & B & C). split; [intros c p e S; rewrite pos_slot in S; exact (A c p e S)|]. split; [intros e E; rewrite pos_all; exact (B e E)|].
    unfold crossings_sorted. rewrite pos_edges. exact C.
  - apply edges_ok_spec; auto. split; auto. apply pos_through; auto.
  - apply faces_ok_spec; auto.
  - apply comps_ok_spec; auto.
Qed.

(** * The whole construction *)
Lemma regenerate_fresh_records : forall d d', 0 < ncross d -> ncross d <= p_maxv d ->
  ends_in_range d -> each_edge_twice d -> no_edge_across d -> unsigned d \/ nedges d <> 2 * ncross d ->
  pd_regenerate d = Ok d' ->
  exists es sigma rho pi, let d0 := with_edges (drop_signs d) es in
    ends_recorded d0 /\ goes_through d0 /\ two_ended d0 /\ relabelled d0 d' sigma rho pi /\ regular d' /\ unsigned d' /\
    p_maxv d' = p_maxv d /\ p_uid d' = p_uid d /\ (ncomps d' <= 64 -> pd_ok d' = Ok true).
Proof.
  intros d d' Hn Hm Hr H2 HA HU E.
  unfold pd_regenerate in E. apply bind_ok in E as (d1 & E1 & E).
  destruct (fresh_step d d1 Hn Hr H2 HA HU E1) as (d2 & es & s & r & q & E2 & R & G & T & S & N2 & M2 & U2 & R0 & G0 & T0 & RL).
  rewrite E2 in E. cbn [bind] in E. change (regenerate_rest d2 = Ok d') in E.
  destruct (rest_inv d2 d') as (P & L & HL & LL); auto; try lia.
  destruct (regenerate_rest_ok d2 L) as (x & s' & r' & q' & E' & RL2 & Rg & Nc & Mv & Ui & _ & _ & Ok1); auto; try lia.
  rewrite E in E'. apply ok_inj in E'. subst x.
  pose proof (rl_trans _ _ _ _ _ _ _ _ _ R0 RL RL2) as RT.
  exists es. do 3 eexists. split; auto. split; auto. split; auto. split; [exact RT|]. split; auto. split.
  - apply (relabelled_unsigned _ _ _ _ _ RT). intros c o (x & Hx & <-). cbn in Hx. rewrite nth_error_map in Hx.
    destruct (nth_error (p_cross d) c); [|discriminate]. cbn in Hx. injection Hx as <-. reflexivity.
  - rewrite Mv, Ui. auto.
Qed.

Record layout (d : pd) (k : nat) (FS : list (list (nat * nat))) (col : nat -> nat) : Prop := {
  ly_pos : 0 < ncross d;
  ly_room : ncross d <= p_maxv d;
  ly_none : p_edge d = [];
  ly_two : forall e, e < 2 * ncross d -> exists s t, s <> t /\ slot d (fst s) (snd s) e /\ slot d (fst t) (snd t) e;
  ly_across : no_edge_across d;
  ly_faces : forall f, In f FS -> f <> [] /\ cyclically (fun s t => wire d (turn s) t) f;
  ly_total : length (concat FS) <= 4 * ncross d;
  ly_cover : forall c p, c < ncross d -> p < 4 -> In (c, p) (concat FS);
  ly_places : forall c p, In (c, p) (concat FS) -> c < ncross d /\ p < 4;
  ly_nfaces : length FS = ncross d + 2;
  ly_short : forall f, In f FS -> length f <= 2 * ncross d;
  ly_col : forall e e', across d e e' -> col e = col e';
  ly_col_lt : forall e, e < 2 * ncross d -> col e < k;
  ly_col_ex : forall i, i < k -> exists e, e < 2 * ncross d /\ col e = i;
  ly_col_conn : forall e e', e < 2 * ncross d -> e' < 2 * ncross d -> col e = col e' -> clos_refl_sym_trans nat (across d) e e';
  ly_few : k <= p_maxv d / 2 + 2 }.

Lemma layout_regenerated : forall d k FS col, layout d k FS col ->
  exists d', pd_regenerate d = Ok d' /\ regular d' /\ ncomps d' = k /\ p_maxv d' = p_maxv d /\ (ncomps d' <= 64 -> pd_ok d' = Ok true) /\
    ncross d' = ncross d /\ exists sigma rho pi, bij_on (ncross d) sigma /\ (forall c, c < ncross d -> rho c < 4) /\ bij_on (2 * ncross d) pi /\
      forall c p e, slot d c p e -> slot d' (sigma c) (snd (moved sigma rho c p)) (pi e).
Proof.
  intros d k FS col [Hn Hm NE TW NA F1 F2 F3 F4 F5 F6 C1 C2 C3 C4 FEW].
  assert (IR : ends_in_range d) by (intros e E HE; unfold edge_at in HE; rewrite NE in HE; destruct e; discriminate).
  pose proof (layout_twice d Hn TW) as E2.
  assert (HU : unsigned d \/ nedges d <> 2 * ncross d) by (right; unfold nedges; rewrite NE; cbn; lia).
  assert (ANY : forall es, let d0 := with_edges (drop_signs d) es in ends_recorded d0 -> goes_through d0 -> two_ended d0 ->
     planar d0 /\ forall L, strand_partition d0 L -> length L = k).
  { intros es d0 R G T. split.
    - eapply (layout_planar d Hn es R T FS); auto.
    - intros L HL. eapply (layout_strands d Hn es R G T); eauto. }
  destruct (regenerate_unsigned_total d Hn Hm IR E2 NA HU) as (d' & E).
  { intros es d0 R G T. destruct (ANY es R G T) as (P & Q). split; auto. intros L HL. unfold MAXCOMPONENTS. rewrite (Q L HL). auto. }
  destruct (regenerate_fresh_records d d' Hn Hm IR E2 NA HU E) as (es & s & r & q & R0 & G0 & T0 & RL & Rg & U & M & Ui & OK).
  destruct (ANY es R0 G0 T0) as (P & Q).
  assert (NC : ncomps d' = k).
  { destruct (rl_sym _ _ _ _ _ R0 T0 RL) as (s' & r' & q' & RS).
    pose proof (relabelled_strand_partition _ _ _ _ _ RS (rg_recorded _ Rg) (rg_through _ Rg) _ (comps_partition d' (rg_comps _ Rg))) as S.
    rewrite <- (Q _ S). rewrite !map_length. reflexivity. }
  assert (Nx : ncross d' = ncross d) by (rewrite (rl_ncross _ _ _ _ _ RL); apply drop_ncross).
  exists d'. split; auto. split; auto. split; auto. split; auto. split; auto. split; auto.
  pose proof (rl_sigma _ _ _ _ _ RL) as B1. pose proof (rl_rho _ _ _ _ _ RL) as B2. pose proof (rl_pi _ _ _ _ _ RL) as B3.
  rewrite (proj1 R0) in B3. change (ncross (with_edges (drop_signs d) es)) with (ncross (drop_signs d)) in *. rewrite drop_ncross in B1, B2, B3.
  exists s, r, q. split; [exact B1|]. split; [exact B2|]. split; [exact B3|].
  intros c p e S. apply (rl_slot _ _ _ _ _ RL). change (slot (drop_signs d) c p e). rewrite drop_slots. exact S.
Qed.
Theorem layout_built : forall d k FS col, layout d k FS col -> k <= 64 ->
  exists d', make_positive d = Ok d' /\ regular d' /\ pd_ok d' = Ok true /\ ncomps d' = k /\ (forall c s, sign_at d' c s -> s = Pos) /\
    p_maxv d' = p_maxv d /\
    ncross d' = ncross d /\ exists sigma rho pi, bij_on (ncross d) sigma /\ (forall c, c < ncross d -> rho c < 4) /\ bij_on (2 * ncross d) pi /\
      forall c p e, slot d c p e -> slot d' (sigma c) (snd (moved sigma rho c p)) (pi e).
Proof.
  intros d k FS col LY K64. destruct (layout_regenerated d k FS col LY) as (d' & E & Rg & NC & M & OK & Nx & s & r & q & B1 & B2 & B3 & SL). pose proof (ly_pos _ _ _ _ LY) as Hn.
  exists (all_positive d'). split; [|split; [|split; [|split; [|split; [|split; [|split]]]]]].
  - unfold make_positive. rewrite E. cbn [bind]. rewrite (pos_ok d'); [reflexivity|lia|apply OK; lia].
  - apply pos_regular; auto.
  - apply pos_ok; [lia|apply OK; lia].
  - exact NC.
  - apply pos_sign.
  - exact M.
  - rewrite pos_ncross. auto.
  - exists s, r, q. split; auto. split; auto. split; auto. intros c p e S. rewrite pos_slot. auto.
Qed.
(** more than 64 components cannot all have tags *)
Lemma layout_refused : forall d k FS col, layout d k FS col -> 65 <= k -> forall d', make_positive d <> Ok d'.
Proof.
  intros d k FS col LY K x. destruct (layout_regenerated d k FS col LY) as (d' & E & Rg & NC & _ & _ & Nx & _). pose proof (ly_pos _ _ _ _ LY) as Hn.
  unfold make_positive. rewrite E. cbn [bind]. intros Q. apply bind_ok in Q as (b & Q & Qb). destruct b; [|discriminate]. clear Qb.
  unfold pd_ok in Q.
  assert (AND : forall a b, and_ok a b = Ok true -> a = Ok true /\ b = Ok true) by (intros [[|]| | |] b; cbn; intros; try tauto; discriminate).
  apply AND in Q as (_ & Q). apply AND in Q as (Q2 & Q). apply AND in Q as (_ & Q). rewrite <- Nx, <- (pos_ncross d') in Hn.
  apply edges_ok_spec in Q2; auto. apply comps_ok_spec in Q; [|auto|tauto]. destruct Q as (_ & _ & _ & _ & TG). change (p_comp (all_positive d')) with (p_comp d') in TG.
  unfold ncomps in NC. destruct (nth_error (p_comp d') 63) as [C|] eqn:H1; [|apply nth_error_None in H1; lia]. destruct (nth_error (p_comp d') 64) as [C'|] eqn:H2; [|apply nth_error_None in H2; lia].
  pose proof (rg_tags _ Rg _ _ H1) as T1. pose proof (rg_tags _ Rg _ _ H2) as T2. specialize (TG (cp_tag C) (cp_tag C') (in_map _ _ _ (nth_error_In _ _ H1)) (in_map _ _ _ (nth_error_In _ _ H2))).
  rewrite T1, T2 in TG. vm_compute in TG. specialize (TG eq_refl). congruence.
Qed.
