(** Proofs about pd_regenerate_edges. *)
From Coq Require Import List ZArith Lia Bool Arith Permutation.
From Verif Require Import Base Iterators ListAux Orbits Pd PdSpec PdProofs RelabelProofs SlotCount PdCross PdCrossProofs PdEdges Places.
Import ListNotations.
Open Scope nat_scope.

Section E.
Context (cs : list crossing) (H4 : Permutation (all_slots cs) (twice (2 * length cs))).
Notation n := (length cs).
Notation pl := (place_list (length cs)).
Notation edg := (edge_in cs).
Notation mate := (mate cs).
Notation psi := (psi cs).

Definition good (d : pd) : Prop := p_cross d = cs /\ ends_recorded d /\ two_ended d.

Lemma slot_place : forall d c p e, p_cross d = cs -> slot d c p e -> In (c, p) pl /\ edg (c, p) = e.
Proof.
  intros d c p e E S. pose proof (slot_lt _ _ _ _ S) as (L1 & L2). destruct S as (_ & x & Hx & K). split.
  - apply in_pl. unfold ncross in L1. rewrite E in L1. auto.
  - unfold edge_in. cbn [fst snd]. rewrite <- E, Hx. auto.
Qed.
Lemma place_slot : forall d s, p_cross d = cs -> In s pl -> slot d (fst s) (snd s) (edg s).
Proof.
  intros d (c, p) E H. apply in_pl in H as (H1 & H2). split; auto. rewrite E. unfold edge_in. cbn [fst snd].
  destruct (nth_error cs c) as [x|] eqn:Hx; eauto. apply nth_error_None in Hx. lia.
Qed.
Lemma good_nedges : forall d, good d -> nedges d = 2 * n.
Proof. intros d (E & (R & _) & _). unfold ncross in R. rewrite E in R. auto. Qed.
Lemma good_edge : forall d e E, good d -> edge_at d e E ->
  In (head_slot E) pl /\ edg (head_slot E) = e /\ tail_slot E = mate (head_slot E).
Proof.
  intros d e E (C & (_ & R) & T) HE. destruct (R e E HE) as (S1 & S2).
  apply slot_place in S1 as (A1 & A2); auto. apply slot_place in S2 as (B1 & B2); auto.
  split; auto. split; auto. apply mate_unique; auto; unfold head_slot, tail_slot.
  - congruence.
  - intros K. apply (T e E HE). symmetry. exact K.
Qed.
Definition is_head (d : pd) (s : nat * nat) : Prop := exists E, edge_at d (edg s) E /\ head_slot E = s.
Lemma head_or_mate : forall d s, good d -> In s pl -> is_head d s \/ is_head d (mate s).
Proof.
  intros d s G Hs. assert (L : edg s < nedges d) by (rewrite (good_nedges d G); apply edge_bound; auto).
  destruct (edge_at_ex d _ L) as (E & HE). destruct (good_edge d _ E G HE) as (A & B & C).
  destruct (mate_spec cs H4 s Hs) as (_ & K2 & _ & K). destruct (K _ A B) as [Q|Q].
  - left. exists E. auto.
  - right. exists E. split; auto. rewrite K2. auto.
Qed.
Lemma head_not_mate : forall d s, good d -> In s pl -> is_head d s -> is_head d (mate s) -> False.
Proof.
  intros d s G Hs (E & HE & K) (E' & HE' & K'). rewrite (mate_edge cs H4 s Hs) in HE'. unfold edge_at in *.
  assert (E' = E) by congruence. subst E'. apply (mate_neq cs H4 s Hs). congruence.
Qed.

Lemma next_step : forall d e E, good d -> edge_at d e E ->
  exists N o N', next_comp_edge d e = Ok (edg (opp (head_slot E)), o) /\
    edge_at d (edg (opp (head_slot E))) N /\ pd_oriented_edge N o = Ok N' /\
    tail_slot N' = opp (head_slot E) /\ head_slot N' = psi (head_slot E) /\ (o = Pos \/ o = Neg).
Proof.
  intros d e E G HE. destruct (good_edge d e E G HE) as (A & B & C). pose proof G as (C1 & _).
  set (h := head_slot E) in *. pose proof (opp_in cs h A) as Ao.
  assert (L : edg (opp h) < nedges d) by (rewrite (good_nedges d G); apply edge_bound; auto).
  destruct (edge_at_ex d _ L) as (N & HN). destruct (good_edge d _ N G HN) as (A1 & A2 & A3).
  assert (Q : next_comp_edge d e =
    if (e_head E =? e_tail N) && ((e_headpos E + 2) mod 4 =? e_tailpos N) then Ok (edg (opp h), Pos)
    else if (e_head E =? e_head N) && ((e_headpos E + 2) mod 4 =? e_headpos N) then Ok (edg (opp h), Neg) else Fail).
  { unfold next_comp_edge. pose proof (edge_at_lt _ _ _ HE) as Le. rewrite (proj2 (Nat.ltb_lt _ _) Le).
    rewrite (proj2 (get_ok _ _ _ _) HE). cbn [bind].
    destruct (place_slot d (opp h) C1 Ao) as (_ & x & Hx & Ex). unfold opp, h, head_slot in Hx, Ex. cbn [fst snd] in Hx, Ex.
    rewrite (proj2 (get_ok _ _ _ _) Hx). cbn [bind]. rewrite Ex.
    change (edg (e_head E, (e_headpos E + 2) mod 4)) with (edg (opp h)).
    unfold edge_at in HN. rewrite (proj2 (get_ok _ _ _ _) HN). cbn [bind]. reflexivity. }
  destruct (mate_spec cs H4 (opp h) Ao) as (M1 & M2 & M3 & M4). destruct (M4 _ A1 A2) as [W|W].
  - (* the head of N is there *)
    exists N, Neg, (mkEdge (e_tail N) (e_tailpos N) (e_head N) (e_headpos N)). rewrite Q.
    assert (T : tail_slot N = psi h) by (rewrite A3, W; reflexivity).
    assert (X : (e_head E =? e_tail N) && ((e_headpos E + 2) mod 4 =? e_tailpos N) = false).
    { apply not_true_is_false. intros X. apply andb_true_iff in X as (X1 & X2). apply Nat.eqb_eq in X1, X2.
      apply (mate_neq cs H4 _ Ao). change (mate (opp h)) with (psi h). rewrite <- T. unfold tail_slot, opp, h, head_slot. cbn [fst snd]. congruence. }
    rewrite X. unfold head_slot in W. unfold opp, h, head_slot in W. cbn [fst snd] in W.
    apply pair_equal_spec in W as (W1 & W2). rewrite W1, W2, !Nat.eqb_refl. cbn [andb].
    split; auto. split; auto. split; [cbn; rewrite W1, W2; reflexivity|]. split; [|split; auto].
    unfold tail_slot, opp, h, head_slot. cbn [e_tail e_tailpos fst snd]. reflexivity.
  - exists N, Pos, N. rewrite Q.
    assert (T : tail_slot N = opp h) by (rewrite A3, W; apply mate_mate; auto).
    unfold tail_slot, opp, h, head_slot in T. cbn [fst snd] in T. apply pair_equal_spec in T as (T1 & T2).
    rewrite T1, T2, !Nat.eqb_refl. cbn [andb]. split; auto. split; auto. split; auto. split; [|split; auto].
    unfold tail_slot, opp, h, head_slot. cbn [fst snd]. rewrite T1, T2. reflexivity.
Qed.

Lemma oriented_ends : forall N o N', pd_oriented_edge N o = Ok N' ->
  head_slot N' = head_slot N /\ tail_slot N' = tail_slot N \/ head_slot N' = tail_slot N /\ tail_slot N' = head_slot N.
Proof. intros N [| |] N' H; cbn in H; try discriminate; apply ok_inj in H; subst; auto. Qed.

Lemma good_update : forall d e N o N', good d -> edge_at d e N -> pd_oriented_edge N o = Ok N' ->
  good (with_edges d (upd e N' (p_edge d))).
Proof.
  intros d e N o N' (C & (R1 & R2) & T) HN Ho. apply oriented_ends in Ho. unfold head_slot, tail_slot in Ho.
  split; auto.
  assert (K : forall x X, edge_at (with_edges d (upd e N' (p_edge d))) x X -> edge_at d x X \/ (x = e /\ X = N')).
  { intros x X H. unfold edge_at in *. cbn [with_edges p_edge] in H. rewrite nth_error_upd in H.
    destruct (Nat.eqb_spec e x); auto. subst x. destruct (e <? length (p_edge d)); [|discriminate]. right. split; congruence. }
  split; [split|].
  - unfold nedges, ncross in *. cbn [with_edges p_edge p_cross]. rewrite upd_length. auto.
  - intros x X H. change (slot (with_edges d (upd e N' (p_edge d)))) with (slot d). apply K in H as [H|(-> & ->)]; auto.
    destruct (R2 e N HN) as (S1 & S2).
    destruct Ho as [(U & V)|(U & V)]; apply pair_equal_spec in U as (-> & ->); apply pair_equal_spec in V as (-> & ->); auto.
  - intros x X H. apply K in H as [H|(-> & ->)]; [exact (T x X H)|]. specialize (T e N HN). unfold head_slot, tail_slot in *.
    destruct Ho as [(-> & ->)|(-> & ->)]; congruence.
Qed.

(** * Marks *)
Record marks (cm : list crossmark) (M : list (nat * nat)) : Prop := {
  mk_len : length cm = n;
  mk_nodup : NoDup M;
  mk_incl : incl M pl;
  mk_one : forall c m, nth_error cm c = Some m -> length (m_used m) = 4 /\
    (forall p, p < 4 -> (nth p (m_used m) true = true <-> In (c, p) M)) /\
    m_num m = length (filter (fun s => fst s =? c) M) }.

Lemma marks_new : marks (crossmark_new n) [].
Proof.
  unfold crossmark_new. split.
  - apply repeat_length.
  - constructor.
  - intros s [].
  - intros c m H. apply nth_error_In, repeat_spec in H. subst. cbn. split; auto. split; auto.
    intros p Hp. destruct (small4 p Hp) as [-> |[-> |[-> | ->]]]; cbn; intuition discriminate.
Qed.
Lemma mark_place_ok : forall cm M s, marks cm M -> In s pl -> ~ In s M ->
  exists cm', mark_place cm s = Ok cm' /\ marks cm' (s :: M).
Proof.
  intros cm M (c, p) [L N I K] Hs Hn. pose proof Hs as Hs'. apply in_pl in Hs' as (Hc & Hp).
  unfold mark_place. cbn [fst snd]. destruct (nth_error cm c) as [m|] eqn:Hm.
  2:{ apply nth_error_None in Hm. lia. }
  rewrite (proj2 (get_ok _ _ _ _) Hm). cbn [bind]. destruct (Nat.leb_spec 4 p); [lia|].
  eexists. split; [reflexivity|]. destruct (K c m Hm) as (K1 & K2 & K3). split.
  - rewrite upd_length. auto.
  - constructor; auto.
  - intros t [<-|Ht]; auto.
  - intros c' m' H'. rewrite nth_error_upd in H'. destruct (Nat.eqb_spec c c') as [<-|Nc].
    + destruct (c <? length cm) eqn:Q; [|discriminate]. injection H' as <-. cbn [m_used m_num].
      split; [rewrite upd_length; auto|]. split.
      * intros q Hq. destruct (Nat.eq_dec p q) as [<-|Nq].
        { rewrite nth_upd_eq by lia. cbn. tauto. }
        rewrite nth_upd_neq by auto. rewrite K2 by auto. cbn. split; auto. intros [E|E]; auto.
        apply pair_equal_spec in E. lia.
      * cbn [filter fst]. rewrite Nat.eqb_refl. cbn [length]. congruence.
    + destruct (K c' m' H') as (A1 & A2 & A3). split; auto. split.
      * intros q Hq. rewrite A2 by auto. cbn. split; auto. intros [E|E]; auto. apply pair_equal_spec in E. lia.
      * cbn [filter fst]. destruct (Nat.eqb_spec c c'); [contradiction|]. auto.
Qed.
Lemma mark_edge_ok : forall cm M E, marks cm M -> In (head_slot E) pl -> In (tail_slot E) pl -> head_slot E <> tail_slot E ->
  ~ In (head_slot E) M -> ~ In (tail_slot E) M ->
  exists cm', mark_edge cm E = Ok cm' /\ marks cm' (tail_slot E :: head_slot E :: M).
Proof.
  intros cm M E K H1 H2 H3 N1 N2. unfold mark_edge.
  destruct (mark_place_ok cm M (head_slot E) K H1 N1) as (cm1 & E1 & K1). unfold head_slot in E1 at 1.
  rewrite E1. cbn [bind].
  destruct (mark_place_ok cm1 _ (tail_slot E) K1 H2) as (cm2 & E2 & K2).
  - intros [W|W]; auto.
  - exists cm2. split; auto.
Qed.
Lemma filter_find : forall A (f : A -> bool) l, find f l = hd_error (filter f l).
Proof. induction l as [|x l IH]; auto. cbn. destruct (f x); auto. Qed.
Lemma find_unused_ok : forall cm M, marks cm M ->
  match find_unused_cross cm with
  | Some s => In s pl /\ ~ In s M
  | None => forall s, In s pl -> In s M
  end.
Proof.
  intros cm M [L N I K]. unfold find_unused_cross. rewrite L.
  match goal with |- context[find ?g _] => set (f := g) end.
  assert (F : forall s, In s pl -> (f s = true <-> ~ In s M)).
  { intros (c, p) Hs. apply in_pl in Hs as (Hc & Hp). unfold f. cbn [fst snd].
    destruct (nth_error cm c) as [m|] eqn:Hm; [|apply nth_error_None in Hm; lia].
    destruct (K c m Hm) as (K1 & K2 & K3). rewrite andb_true_iff, !negb_true_iff, Nat.eqb_neq.
    specialize (K2 p Hp). split.
    - intros (_ & X) Y. apply K2 in Y. congruence.
    - intros X. split.
      + rewrite K3. intros Q.
        assert (N' : NoDup (filter (fun s => fst s =? c) M)) by (apply NoDup_filter; auto).
        assert (J : incl ((c, p) :: filter (fun s => fst s =? c) M) (map (fun q => (c, q)) (seq 0 4))).
        { intros (a, b) [E|H].
          - apply pair_equal_spec in E as (<- & <-). apply in_map, in_seq. lia.
          - apply filter_In in H as (H & E). cbn in E. apply Nat.eqb_eq in E. subst a.
            apply I, in_pl in H. apply in_map, in_seq. lia. }
        apply NoDup_incl_length in J.
        * cbn [length] in J. rewrite Q in J. cbn in J. lia.
        * constructor; auto. intros H. apply filter_In in H. tauto.
      + destruct (nth p (m_used m) true) eqn:W; auto. exfalso. tauto. }
  destruct (find f pl) as [s|] eqn:E.
  - apply find_some in E as (E1 & E2). split; auto. apply F; auto.
  - intros s Hs. pose proof (find_none _ _ E s Hs) as W. destruct (in_dec place_dec s M) as [Y|Y]; auto.
    apply F in Y; auto. congruence.
Qed.

Lemma with_edges_same : forall d, with_edges d (p_edge d) = d.
Proof. intros []; reflexivity. Qed.

(** * One component *)
Section Comp.
Context (s : nat * nat) (Hs : In s pl) (k : nat) (Pk : period psi k s).
Notation at_ i := (iter i psi s).

Lemma at_in : forall i, In (at_ i) pl.
Proof. intros. apply iter_psi_in; auto. Qed.
Lemma at_edge_neq : forall i j, i < k -> j < k -> i <> j -> edg (at_ i) <> edg (at_ j).
Proof.
  intros i j Hi Hj N E. apply N. eapply period_distinct; eauto. apply same_edge_iter; auto.
Qed.

Lemma orient_loop_ok : forall m i d cm M fuel nx, i + m = k -> 1 <= i -> m < fuel -> good d ->
  (forall j, j < i -> is_head d (at_ j)) -> next_comp_edge d (edg (at_ (i - 1))) = Ok nx -> marks cm M ->
  (forall j, i <= j -> j < k -> ~ In (at_ j) M /\ ~ In (mate (at_ j)) M) ->
  exists es cm' M', orient_loop fuel d (edg s) nx (i - 1) cm = Ok (with_edges d es, cm') /\
    good (with_edges d es) /\ (forall j, j < k -> is_head (with_edges d es) (at_ j)) /\ marks cm' M' /\
    (forall t, In t M' <-> In t M \/ exists j, i <= j < k /\ (t = at_ j \/ t = mate (at_ j))) /\
    length M' = length M + 2 * m /\
    (forall e, (forall j, i <= j < k -> e <> edg (at_ j)) -> nth_error es e = nth_error (p_edge d) e).
Proof.
  induction m as [|m IH]; intros i d cm M fuel nx Him Hi Hf G Hh Hn K Hd.
  - assert (i = k) by lia. subst i. destruct fuel as [|f]; [lia|]. cbn [orient_loop].
    destruct (Hh (k - 1) ltac:(lia)) as (E & HE & Hhd). destruct (next_step d _ E G HE) as (N & o & N' & Q & _).
    rewrite Q in Hn. apply ok_inj in Hn. subst nx. cbn [fst].
    assert (W : edg (opp (head_slot E)) = edg s).
    { rewrite Hhd. destruct Pk as (_ & P2 & _). rewrite <- P2 at 2. replace k with (S (k - 1)) at 2 by lia. cbn [iter].
      unfold psi. rewrite (mate_edge cs H4); auto. apply opp_in, at_in. }
    rewrite W, Nat.eqb_refl. exists (p_edge d), cm, M. rewrite with_edges_same. split; auto. split; auto. split; auto. split; auto.
    split; [|split; auto]. intros t. split; auto. intros [|(j & Hj & _)]; auto; lia.
  - destruct fuel as [|f]; [lia|]. cbn [orient_loop].
    destruct (Hh (i - 1) ltac:(lia)) as (E & HE & Hhd). destruct (next_step d _ E G HE) as (N & o & N' & Q & HN & Ho & Ht & Hh' & _).
    rewrite Q in Hn. apply ok_inj in Hn. subst nx. cbn [fst snd]. rewrite Hhd in *.
    assert (Pi : psi (at_ (i - 1)) = at_ i) by (replace i with (S (i - 1)) at 2 by lia; reflexivity).
    assert (We : edg (opp (at_ (i - 1))) = edg (at_ i)).
    { rewrite <- Pi. unfold psi. rewrite (mate_edge cs H4); auto. apply opp_in, at_in. }
    rewrite Pi in Hh'. rewrite We in *.
    assert (Wt : tail_slot N' = mate (at_ i)) by (rewrite Ht, <- Pi, mate_psi; auto using at_in).
    destruct (Nat.eqb_spec (edg (at_ i)) (edg s)) as [X|_].
    { exfalso. apply (at_edge_neq i 0); auto; lia. }
    unfold edge_at in HN. rewrite (proj2 (get_ok _ _ _ _) HN). cbn [bind]. rewrite Ho. cbn [bind].
    set (d1 := with_edges d (upd (edg (at_ i)) N' (p_edge d))).
    pose proof (good_update d _ N o N' G HN Ho) as G1. fold d1 in G1.
    destruct (Hd i ltac:(lia) ltac:(lia)) as (D1 & D2).
    destruct (mark_edge_ok cm M N' K) as (cm1 & Em & K1).
    + rewrite Hh'. apply at_in.
    + rewrite Wt. apply mate_in; auto. apply at_in.
    + rewrite Hh', Wt. intros X. symmetry in X. revert X. apply mate_neq; auto. apply at_in.
    + rewrite Hh'. auto.
    + rewrite Wt. auto.
    + rewrite Em. cbn [bind]. rewrite Wt, Hh' in K1.
      assert (Kn : k <= 2 * n) by (eapply period_edges; eauto).
      rewrite (good_nedges d G). destruct (Nat.leb_spec (2 * n) (i - 1)); [lia|].
      assert (Lt : edg (at_ i) < length (p_edge d)) by (apply nth_error_Some; congruence).
      assert (HE1 : edge_at d1 (edg (at_ i)) N').
      { unfold edge_at, d1. cbn [with_edges p_edge]. rewrite nth_error_upd, Nat.eqb_refl, (proj2 (Nat.ltb_lt _ _) Lt). auto. }
      assert (Hother : forall e, e <> edg (at_ i) -> nth_error (p_edge d1) e = nth_error (p_edge d) e).
      { intros e Ne. unfold d1. cbn [with_edges p_edge]. rewrite nth_error_upd. destruct (Nat.eqb_spec (edg (at_ i)) e); congruence. }
      assert (Hh1 : forall j, j < S i -> is_head d1 (at_ j)).
      { intros j Hj. destruct (Nat.eq_dec j i) as [->|Nj]; [exists N'; auto|].
        destruct (Hh j ltac:(lia)) as (X & HX & Y). exists X. split; auto. unfold edge_at. rewrite Hother; auto.
        apply at_edge_neq; lia. }
      destruct (next_step d1 _ N' G1 HE1) as (N2 & o2 & N2' & Q2 & _). rewrite Q2. cbn [bind].
      destruct (IH (S i) d1 cm1 (mate (at_ i) :: at_ i :: M) f (edg (opp (head_slot N')), o2))
        as (es & cm' & M' & R1 & R2 & R3 & R4 & R5 & R6 & R7); auto; try lia.
      * rewrite Nat.sub_succ, Nat.sub_0_r. exact Q2.
      * intros j Hj1 Hj2. destruct (Hd j ltac:(lia) Hj2) as (D3 & D4). split.
        -- intros [X|[X|X]]; [|apply (at_edge_neq i j); try lia; congruence|auto].
           apply (no_mates cs H4 j i s Hs). auto.
        -- intros [X|[X|X]]; [|apply (no_mates cs H4 i j s Hs); auto|auto].
           apply (at_edge_neq i j); try lia.
           rewrite <- (mate_edge cs H4 (at_ i)), X, (mate_edge cs H4); auto using at_in.
      * replace (S i - 1) with (S (i - 1)) in R1 by lia. rewrite R1. cbn [with_edges] in *.
        exists es, cm', M'. split; [unfold d1; reflexivity|]. split; [exact R2|]. split; [exact R3|]. split; [auto|].
        split; [|split].
        -- intros t. rewrite R5. cbn [In]. split.
           ++ intros [[X|[X|X]]|(j & Hj & X)]; auto; right.
              ** exists i. split; [lia|auto].
              ** exists i. split; [lia|auto].
              ** exists j. split; [lia|auto].
           ++ intros [X|(j & Hj & X)]; auto. destruct (Nat.eq_dec j i) as [->|Nj].
              ** left. destruct X as [X|X]; auto.
              ** right. exists j. split; [lia|auto].
        -- rewrite R6. cbn [length]. lia.
        -- intros e He. rewrite R7 by (intros j Hj; apply He; lia). apply Hother. apply He. lia.
Qed.
End Comp.

(** heads seen so far are followed by heads *)
Definition through (d : pd) (M : list (nat * nat)) : Prop := forall t, In t M -> is_head d t -> is_head d (psi t).
Definition closed_set (M : list (nat * nat)) : Prop := forall t, In t M -> In (mate t) M /\ In (psi t) M.
(** no edge runs from a place to the opposite place of the same crossing *)
Definition no_across : Prop := forall t, In t pl -> edg (opp t) <> edg t.

Lemma across_period : forall t k, In t pl -> period psi k t -> no_across -> 2 <= k.
Proof.
  intros t k Ht (P1 & P2 & _) N. destruct k as [|[|k]]; try lia. exfalso. cbn [iter] in P2.
  apply (N t Ht). rewrite <- P2 at 2. unfold psi. rewrite (mate_edge cs H4); auto. apply opp_in; auto.
Qed.

Lemma orient_comps_ok : forall fuel d failsafe cm M, good d -> marks cm M -> through d M -> closed_set M ->
  ncross d + 2 <= fuel + failsafe -> failsafe <= ncross d -> (no_across -> 4 * failsafe <= length M) ->
  (exists es, orient_comps fuel d failsafe cm = Ok (with_edges d es) /\ good (with_edges d es) /\
     through (with_edges d es) pl) \/
  (orient_comps fuel d failsafe cm = Fail /\ ~ no_across).
Proof.
  induction fuel as [|f IH]; intros d fs cm M G K T C F1 F2 F3; [lia|]. cbn [orient_comps].
  pose proof (find_unused_ok cm M K) as U. destruct (find_unused_cross cm) as [(i, j)|].
  2:{ left. exists (p_edge d). rewrite with_edges_same. split; auto. split; auto. intros t Ht. apply T; auto. }
  destruct U as (U1 & U2). pose proof G as (Gc & _).
  destruct (place_slot d (i, j) Gc U1) as (_ & x & Hx & Ex). cbn [fst snd] in Hx, Ex.
  rewrite (proj2 (get_ok _ _ _ _) Hx). cbn [bind]. rewrite Ex.
  assert (L : edg (i, j) < nedges d) by (rewrite (good_nedges d G); apply edge_bound; auto).
  destruct (edge_at_ex d _ L) as (E & HE). pose proof HE as HE'. unfold edge_at in HE'. rewrite (proj2 (get_ok _ _ _ _) HE'). cbn [bind].
  destruct (good_edge d _ E G HE) as (A & B & Ct). set (h := head_slot E) in *.
  assert (Nh : ~ In h M).
  { destruct (mate_spec cs H4 _ U1) as (_ & _ & _ & W). destruct (W h A B) as [-> | ->]; auto.
    intros X. apply C in X as (X & _). rewrite (mate_mate cs H4) in X by auto. auto. }
  destruct (psi_period cs H4 h A) as (k & Pk).
  assert (Cm : forall q, In q M -> In (psi q) M) by (intros q Hq; apply C; auto).
  assert (Dis : forall q, q < k -> ~ In (iter q psi h) M /\ ~ In (mate (iter q psi h)) M).
  { intros q Hq. assert (Z : ~ In (iter q psi h) M).
    { intros X. apply Nh. eapply (cyc_meets psi M k h); eauto. apply in_cyc. eauto. }
    split; auto. intros X. apply C in X as (X & _). rewrite (mate_mate cs H4) in X by (apply iter_psi_in; auto). auto. }
  assert (k0 : 0 < k) by apply Pk.
  destruct (mark_edge_ok cm M E K) as (cm1 & Em & K1).
  { exact A. } { rewrite Ct. apply mate_in; auto. } { fold h. rewrite Ct. intros X. symmetry in X. revert X. apply mate_neq; auto. }
  { exact Nh. } { rewrite Ct. apply (Dis 0 k0). }
  rewrite Em. cbn [bind]. rewrite Ct in K1. fold h in K1.
  destruct (next_step d _ E G HE) as (N & o & N' & Q & _). rewrite Q. cbn [bind].
  destruct (orient_loop_ok h A k Pk (k - 1) 1 d cm1 (mate h :: h :: M) (nedges d + 2) (edg (opp (head_slot E)), o))
    as (es & cm' & M' & R1 & R2 & R3 & R4 & R5 & R6 & R7); auto; try lia.
  { rewrite (good_nedges d G). pose proof (period_edges cs H4 k h A Pk). lia. }
  { intros q Hq. assert (q = 0) by lia. subst q. exists E. rewrite <- B in HE. auto. }
  { cbn [Nat.sub iter]. rewrite B. exact Q. }
  { intros q Hq1 Hq2. destruct (Dis q Hq2) as (Z1 & Z2). split.
    - intros [X|[X|X]]; auto; [apply (no_mates cs H4 q 0 h A); auto|].
      apply (at_edge_neq h A k Pk 0 q); try lia. cbn [iter]. congruence.
    - intros [X|[X|X]]; auto; [|apply (no_mates cs H4 0 q h A); auto].
      apply (at_edge_neq h A k Pk 0 q); try lia. cbn [iter].
      rewrite <- (mate_edge cs H4 h A), X, (mate_edge cs H4); auto. apply iter_psi_in; auto. }
  rewrite B in R1. cbn [Nat.sub] in R1. rewrite R1. cbn [bind fst snd].
  assert (Ic : forall t, In t M' <-> In t M \/ exists q, q < k /\ (t = iter q psi h \/ t = mate (iter q psi h))).
  { intros t. rewrite R5. cbn [In]. split.
    - intros [[X|[X|X]]|(q & Hq & X)]; auto; right; [exists 0; subst; auto|exists 0; subst; auto|exists q; split; [lia|auto]].
    - intros [X|(q & Hq & X)]; auto. destruct q as [|q]; [left; cbn [iter] in X; intuition congruence|].
      right. exists (S q). split; [lia|auto]. }
  assert (Cl : closed_set M').
  { intros t Ht. apply Ic in Ht. rewrite !Ic. destruct Ht as [Ht|(q & Hq & X)].
    - destruct (C t Ht). auto.
    - assert (Iq : In (iter q psi h) pl) by (apply iter_psi_in; auto). destruct X as [-> | ->].
      + split; [right; exists q; auto|]. right.
        assert (Y : In (psi (iter q psi h)) (cyc psi k h)) by (apply cyc_closed; auto; apply in_cyc; eauto).
        apply in_cyc in Y as (q' & Hq' & Y). exists q'. auto.
      + rewrite (mate_mate cs H4) by auto. split; [right; exists q; auto|]. right.
        assert (Y : exists q', q' < k /\ iter q psi h = psi (iter q' psi h)).
        { destruct q as [|q]; [|exists q; split; [lia|auto]]. exists (k - 1). split; [lia|].
          change (psi (iter (k - 1) psi h)) with (iter (S (k - 1)) psi h). replace (S (k - 1)) with k by lia.
          symmetry. apply Pk. }
        destruct Y as (q' & Hq' & Y). exists q'. split; auto. right.
        change (mate (opp (mate (iter q psi h))) = mate (iter q' psi h)). rewrite Y at 1.
        rewrite (mate_psi cs H4) by (apply iter_psi_in; auto). rewrite (opp_opp cs) by (apply iter_psi_in; auto). reflexivity. }
  assert (Th : through (with_edges d es) M').
  { intros t Ht Hh. apply Ic in Ht. destruct Ht as [Ht|(q & Hq & X)].
    - assert (Same : forall u, In u M -> nth_error es (edg u) = nth_error (p_edge d) (edg u)).
      { intros u Hu. apply R7. intros q Hq Xe. destruct (Dis q ltac:(lia)) as (Z1 & Z2).
        assert (Ipl : In u pl) by (apply K; auto).
        destruct (mate_spec cs H4 _ (iter_psi_in cs H4 q h A)) as (_ & _ & _ & W). destruct (W u Ipl Xe); subst; auto. }
      destruct Hh as (X & HX & Y). unfold edge_at in HX. cbn [with_edges p_edge] in HX. rewrite Same in HX by auto.
      destruct (T t Ht) as (X2 & HX2 & Y2); [exists X; auto|]. exists X2. split; auto.
      unfold edge_at. cbn [with_edges p_edge]. rewrite Same; auto.
    - destruct X as [-> | ->].
      + assert (Y : In (psi (iter q psi h)) (cyc psi k h)) by (apply cyc_closed; auto; apply in_cyc; eauto).
        apply in_cyc in Y as (q' & Hq' & ->). auto.
      + exfalso. apply (head_not_mate _ (iter q psi h) R2); auto. apply iter_psi_in; auto. }
  assert (Fl : no_across -> 4 * S fs <= length M').
  { intros NA. specialize (F3 NA). pose proof (across_period h k A Pk NA). rewrite R6. cbn [length]. lia. }
  destruct (Nat.ltb_spec (ncross d) (S fs)) as [Z|Z].
  - right. split; auto. intros NA. specialize (Fl NA).
    pose proof (NoDup_incl_length (mk_nodup _ _ R4) (mk_incl _ _ R4)) as Y. rewrite pl_length in Y.
    unfold ncross in Z. rewrite Gc in Z. lia.
  - destruct (IH (with_edges d es) (S fs) cm' M' R2 R4 Th Cl) as [(es2 & Y1 & Y2 & Y3)|(Y1 & Y2)]; auto.
    + change (ncross (with_edges d es)) with (ncross d). lia.
    + left. exists es2. auto.
Qed.
End E.

(** * The whole function *)
Section Regenerate.
Context (d : pd).
Notation cs := (p_cross d).
Context (H4 : Permutation (all_slots cs) (twice (2 * length cs))).

Lemma first_edges_ok : exists es, map_ok (first_edge cs) (seq 0 (2 * ncross d)) = Ok es /\ good cs (with_edges d es).
Proof.
  assert (K : forall e, e < 2 * ncross d -> exists a b, find_edge_in_crossings cs e = Ok (a, b) /\ a <> b /\
     (In a (place_list (length cs)) /\ edge_in cs a = e) /\ (In b (place_list (length cs)) /\ edge_in cs b = e)).
  { intros e He. destruct (two_places cs H4 e He) as (a & b & F & N). exists a, b. unfold find_edge_in_crossings.
    rewrite F. split; auto. split; auto. split; apply (edge_places cs e a b); auto. }
  set (g := fun e => match find_edge_in_crossings cs e with Ok (a, b) => mkEdge (fst a) (snd a) (fst b) (snd b)
                     | _ => mkEdge 0 0 0 0 end).
  exists (map g (seq 0 (2 * ncross d))). split.
  - apply map_ok_map. intros e He. apply in_seq in He. destruct (K e ltac:(lia)) as (a & b & F & _).
    unfold first_edge, g. rewrite F. reflexivity.
  - assert (Q : forall e E, edge_at (with_edges d (map g (seq 0 (2 * ncross d)))) e E -> e < 2 * ncross d /\ E = g e).
    { intros e E H. unfold edge_at in H. cbn [with_edges p_edge] in H. rewrite nth_error_map in H.
      destruct (nth_error (seq 0 (2 * ncross d)) e) as [x|] eqn:X; [|discriminate]. cbn in H. injection H as <-.
      assert (e < 2 * ncross d) by (rewrite <- (seq_length (2 * ncross d) 0); apply nth_error_Some; congruence).
      apply nth_error_nth with (d := 0) in X. rewrite seq_nth in X by auto. subst x. auto. }
    split; [reflexivity|]. split; [split|].
    + unfold nedges. cbn [with_edges p_edge]. rewrite map_length, seq_length. reflexivity.
    + intros e E H. apply Q in H as (He & ->). destruct (K e He) as (a & b & F & N & (A1 & A2) & (B1 & B2)).
      unfold g. rewrite F. cbn [e_head e_headpos e_tail e_tailpos].
      pose proof (place_slot cs d a eq_refl A1) as S1. pose proof (place_slot cs d b eq_refl B1) as S2.
      rewrite A2 in S1. rewrite B2 in S2. split; [exact S1|exact S2].
    + intros e E H. apply Q in H as (He & ->). destruct (K e He) as (a & b & F & N & _).
      unfold g. rewrite F. unfold head_slot, tail_slot. cbn [e_head e_headpos e_tail e_tailpos].
      destruct a, b. cbn [fst snd]. auto.
Qed.

Lemma through_goes : forall x, good cs x -> through cs x (place_list (length cs)) -> goes_through x.
Proof.
  intros x G T e E HE. destruct (good_edge cs H4 x e E G HE) as (A & B & C). pose proof G as (Gc & _).
  assert (Hh : is_head cs x (head_slot E)) by (exists E; rewrite B; auto).
  assert (Hi : forall j, is_head cs x (iter j (psi cs) (head_slot E))).
  { induction j; auto. cbn [iter]. apply T; auto. apply iter_psi_in; auto. }
  split.
  - destruct (Hi 1) as (E' & HE' & Q). cbn [iter] in *.
    destruct (good_edge cs H4 x _ E' G HE') as (A' & B' & C'). rewrite Q, (mate_psi cs H4) in C' by auto.
    exists (edge_in cs (psi cs (head_slot E))), E'. split; auto. split.
    + pose proof (place_slot cs x _ Gc (opp_in cs _ A)) as S1. unfold psi. rewrite (mate_edge cs H4) by (apply opp_in; auto). exact S1.
    + rewrite C'. reflexivity.
  - destruct (psi_period cs H4 _ A) as (k & Pk). assert (k0 : 0 < k) by apply Pk.
    destruct (Hi (k - 1)) as (E' & HE' & Q). set (q := iter (k - 1) (psi cs) (head_slot E)) in *.
    assert (Iq : In q (place_list (length cs))) by (apply iter_psi_in; auto).
    assert (Pq : psi cs q = head_slot E).
    { unfold q. change (iter (S (k - 1)) (psi cs) (head_slot E) = head_slot E). replace (S (k - 1)) with k by lia. apply Pk. }
    assert (Oq : opp (tail_slot E) = q).
    { rewrite C, <- Pq, (mate_psi cs H4) by auto. apply (opp_opp cs); auto. }
    exists (edge_in cs q), E'. split; auto. split.
    + pose proof (place_slot cs x _ Gc Iq) as S1. rewrite <- Oq in S1 at 1 2. exact S1.
    + rewrite Q, <- Oq. reflexivity.
Qed.

Lemma regenerate_edges_cases : 0 < ncross d ->
  (exists es, pd_regenerate_edges d = Ok (with_edges d es) /\ good cs (with_edges d es) /\ goes_through (with_edges d es)) \/
  (pd_regenerate_edges d = Fail /\ ~ no_across cs).
Proof.
  intros Hn. unfold pd_regenerate_edges. destruct first_edges_ok as (es & E & G). rewrite E. cbn [bind].
  destruct (orient_comps_ok cs H4 (ncross d + 2) (with_edges d es) 0 (crossmark_new (ncross d)) []) as [(es2 & E2 & G2 & T2)|(E2 & N)]; auto.
  - apply marks_new.
  - intros t [].
  - intros t [].
  - change (ncross (with_edges d es)) with (ncross d). lia.
  - lia.
  - left. exists es2. rewrite E2. cbn [bind]. pose proof (through_goes _ G2 T2) as Gt.
    assert (Ok' : pd_edges_ok (with_edges (with_edges d es) es2) = Ok true).
    { apply edges_ok_spec; [exact Hn|]. split; [apply G2|exact Gt]. }
    rewrite Ok'. cbn [bind]. auto.
  - right. rewrite E2. auto.
Qed.
End Regenerate.

Lemma count_bound : forall k l, length l = 2 * k -> (forall e, e < k -> count_occ Nat.eq_dec l e = 2) ->
  forall e, In e l -> e < k.
Proof.
  induction k as [|k IH]; intros l L C e He.
  - destruct l; [destruct He|discriminate].
  - destruct (Nat.eq_dec e k) as [->|N]; [lia|].
    assert (W : forall l', length l' = length (remove Nat.eq_dec k l') + count_occ Nat.eq_dec l' k).
    { induction l' as [|x l' IHl]; auto. cbn [remove count_occ length].
      destruct (Nat.eq_dec k x), (Nat.eq_dec x k); cbn [length]; try congruence; lia. }
    specialize (W l). rewrite L, C in W by lia.
    assert (e < k); [|lia]. apply (IH (remove Nat.eq_dec k l)); [lia| |apply in_in_remove; auto].
    intros x Hx. rewrite <- (C x) by lia. clear - Hx.
    induction l as [|y l IHl]; auto. cbn [remove count_occ].
    destruct (Nat.eq_dec k y), (Nat.eq_dec y x); cbn [count_occ]; try lia; destruct (Nat.eq_dec y x); try lia; congruence.
Qed.
Lemma twice_perm : forall cs, (forall e, e < 2 * length cs -> count_occ Nat.eq_dec (all_slots cs) e = 2) ->
  Permutation (all_slots cs) (twice (2 * length cs)).
Proof.
  intros cs C. apply (Permutation_count_occ Nat.eq_dec). intros e.
  assert (L : length (all_slots cs) = 2 * (2 * length cs)).
  { clear. induction cs as [|x cs IH]; auto. change (all_slots (x :: cs)) with (cross_edges x ++ all_slots cs).
    rewrite app_length, IH. cbn [length cross_edges]. lia. }
  destruct (lt_dec e (2 * length cs)) as [H|H].
  - rewrite C, twice_count; auto.
  - assert (N1 : ~ In e (all_slots cs)) by (intros K; apply (count_bound _ _ L C) in K; lia).
    assert (N2 : ~ In e (twice (2 * length cs))) by (rewrite twice_in; lia).
    apply (count_occ_not_In Nat.eq_dec) in N1, N2. congruence.
Qed.
