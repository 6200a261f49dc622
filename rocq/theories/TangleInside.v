(** Tangles: what the search through the inside finds. *)
From Coq Require Import List ZArith Lia Bool Arith Permutation Sorted Relations.
From Verif Require Import Base ListAux Iterators Sorting Orbits Cycles Containers ContainersProofs Pd PdSpec PdProofs PdFaces PdFacesProofs PdCross PdCompsProofs PdIso Relabel RelabelProofs Strands
  OverUnder OverUnderSpec OverUnderProofs LinkProofs HashSpec HashIso Planar PlanarProofs DartMap Bigon Thm_Faces Thm_Planar Tangle TangleSpec TangleWalk.
Import ListNotations.
Open Scope nat_scope.

(** * Sorted buffers *)
Definition lst (b : option (list nat)) : list nat := match b with Some l => l | None => [] end.
Lemma lists_incr : forall b P, lists_only b P -> incr (lst b).
Proof. intros [l|] P H; cbn in *; [tauto|constructor]. Qed.
Lemma lists_in : forall b P x, lists_only b P -> In x (lst b) -> P x.
Proof. intros [l|] P x H I; cbn in *; [apply H; auto|destruct I]. Qed.
Lemma incr_nodup : forall l, incr l -> NoDup l.
Proof.
  intros l S. induction S as [|x l S IH F]; constructor; auto. intros I. rewrite Forall_forall in F. specialize (F x I). lia.
Qed.
Lemma insert_lists : forall b P x, lists_only b P -> P x -> exists b', pd_sortedbuf_insert b x = Ok b' /\ lists_only b' P /\
  forall y, In y (lst b') <-> y = x \/ In y (lst b).
Proof.
  intros [l|] P x H Px.
  - destruct H as (NE & S & Q). destruct (sortedbuf_insert_ok l x NE S) as (l' & E & S' & NE' & I). exists (Some l'). split; auto.
    split; [|exact I]. cbn. split; auto. split; auto. intros y Hy. apply I in Hy as [->|]; auto.
  - exists (Some [x]). cbn. split; auto. split; [|intuition]. split; [discriminate|]. split; [repeat constructor|]. intros y [<-|[]]; auto.
Qed.
Lemma occurs_ok : forall b P c, lists_only b P -> exists v, occurs b c = Ok v /\ (v = true <-> In c (lst b)).
Proof.
  intros b P c H. unfold occurs. fold (lst b). unfold pd_sortedbuf_contains. destruct (bsearch_all_ok c (lst b) (lists_incr b P H)) as [(p & -> & Hp)|(-> & N)]; cbn [bind].
  - exists true. split; auto. split; auto. intros _. eapply nth_error_In; eauto.
  - exists false. split; auto. split; [discriminate|tauto].
Qed.
Lemma bounded_length : forall l n, incr l -> (forall x, In x l -> x < n) -> length l <= n.
Proof.
  intros l n S B. rewrite <- (seq_length n 0). apply NoDup_incl_length; [apply incr_nodup; auto|]. intros x I. apply in_seq. apply B in I. lia.
Qed.
Lemma incl_length : forall l m, incr l -> incl l m -> length l <= length m.
Proof. intros. apply NoDup_incl_length; auto. apply incr_nodup; auto. Qed.

Section Tangle.
Context (d : pd) (SD : sphere d) (es fs : list nat) (inside : nat -> bool).
Context (CC : closed_curve d es fs) (TS : two_sides_of d es fs inside).
Notation R := (sp_recorded d SD). Notation G := (sp_through d SD). Notation T := (sp_ends d SD). Notation FP := (sp_faces d SD).
Notation succ := (succ d).
Notation hi := (hi d inside). Notation ti := (ti d inside). Notation os := (map (dir d inside) es).

Definition good (st : contents) : Prop := lists_only (fst st) (inside_cross d inside) /\ lists_only (snd st) (inner d inside).
Definition visited (st : contents) (e : nat) : Prop := hi e = false \/ In (hd d e) (lst (fst st)) /\ (In e es \/ In e (lst (snd st))).
Definition grows (st st' : contents) : Prop := incl (lst (fst st)) (lst (fst st')) /\ incl (lst (snd st)) (lst (snd st')).
Definition new_closed (st st' : contents) : Prop :=
  no_right_curl d inside -> forall c f, In c (lst (fst st')) -> ~ In c (lst (fst st)) -> f < nedges d -> e_tail (rec d f) = c -> visited st' f.
Lemma grows_refl : forall st, grows st st.
Proof. intros st. split; intros x; auto. Qed.
Lemma grows_trans : forall a b c, grows a b -> grows b c -> grows a c.
Proof. intros a b c (A1 & A2) (B1 & B2). split; intros x I; auto. Qed.
Lemma visited_grows : forall a b e, grows a b -> visited a e -> visited b e.
Proof. intros a b e (A1 & A2) [H|(H1 & H2)]; [left; auto|right; split; [apply A1; auto|destruct H2; auto]]. Qed.
Lemma closed_trans : forall a b c, grows b c -> new_closed a b -> new_closed b c -> new_closed a c.
Proof.
  intros a b c Gr A B NC x f I N L E. destruct (in_dec Nat.eq_dec x (lst (fst b))) as [J|J].
  - eapply visited_grows; [exact Gr|]. eapply A; eauto.
  - eapply B; eauto.
Qed.
Lemma hd_lt : forall e, e < nedges d -> hd d e < ncross d.
Proof. intros e L. destruct (proj2 R e (rec d e) (rec_at d e L)) as (S1 & _). apply slot_lt in S1. exact (proj1 S1). Qed.
Lemma good_lt : forall st, good st -> length (lst (fst st)) <= ncross d.
Proof. intros st (A & _). apply bounded_length; [eapply lists_incr; eauto|]. intros x I. eapply lists_in in I; eauto. apply I. Qed.
Lemma good_grows : forall st st', good st -> grows st st' -> length (lst (fst st)) <= length (lst (fst st')).
Proof. intros st st' (A & _) (B & _). apply incl_length; auto. eapply lists_incr; eauto. Qed.

(** the edges that depart from the crossing at the head of an edge *)
Lemma around : forall e x, e < nedges d -> nth_error (p_cross d) (hd d e) = Some x ->
  let p := e_headpos (rec d e) in let u := cedge x ((p + 1) mod 4) in let v := cedge x ((p + 3) mod 4) in
  u < nedges d /\ v < nedges d /\ (e_tail (rec d u) = hd d e \/ e_tail (rec d v) = hd d e) /\
  (no_right_curl d inside -> hi e = true -> forall f, f < nedges d -> e_tail (rec d f) = hd d e ->
     f = succ e \/ f = (if e_tail (rec d u) =? hd d e then u else v)).
Proof.
  intros e x L Hx p u v. set (c := hd d e) in *. pose proof (hd_lt e L) as Lc. fold c in Lc.
  assert (A : arrives d c p e) by (exists (rec d e); split; [apply rec_at; auto|reflexivity]).
  assert (Lp : p < 4) by (apply (arrives_slot d R) in A; apply slot_lt in A; tauto).
  assert (M1 : (p + 1) mod 4 < 4) by (apply Nat.mod_upper_bound; lia). assert (M3 : (p + 3) mod 4 < 4) by (apply Nat.mod_upper_bound; lia).
  assert (Su : slot d c ((p + 1) mod 4) u) by (split; [lia|exists x; auto]).
  assert (Sv : slot d c ((p + 3) mod 4) v) by (split; [lia|exists x; auto]).
  destruct (either d R T c _ Lc M1) as (u' & Su' & Ku). assert (u' = u) by (eapply slot_fun; eauto). subst u'.
  destruct (either d R T c _ Lc M3) as (v' & Sv' & Kv). assert (v' = v) by (eapply slot_fun; eauto). subst v'.
  assert (Lu : u < nedges d) by (destruct Ku as [(U & HU & _)|(U & HU & _)]; eapply edge_at_lt; eauto).
  assert (Lv : v < nedges d) by (destruct Kv as [(U & HU & _)|(U & HU & _)]; eapply edge_at_lt; eauto).
  assert (TL : forall q f, departs d c q f -> e_tail (rec d f) = c).
  { intros q f (F & HF & K). pose proof (rec_at d f (edge_at_lt _ _ _ HF)) as K2. unfold edge_at in *. assert (F = rec d f) by congruence. subst F.
    unfold tail_slot in K. apply pair_equal_spec in K. tauto. }
  assert (E13 : ((p + 1) mod 4 + 2) mod 4 = (p + 3) mod 4) by (destruct p as [|[|[|[|?]]]]; cbn; lia).
  assert (AV : arrives d c ((p + 1) mod 4) u -> departs d c ((p + 3) mod 4) v).
  { intros K. destruct (arrives_across d G _ _ _ K) as (f & Df & _). rewrite E13 in Df.
    assert (f = v) by (eapply slot_fun; eauto using (departs_slot d R)). subst f. auto. }
  split; auto. split; auto. split.
  { destruct Ku as [K|K]; [right|left]; eapply TL; eauto. }
  intros NC He f Lf Tf. pose proof (rec_at d f Lf) as HF. set (q := e_tailpos (rec d f)).
  assert (Df : departs d c q f) by (exists (rec d f); split; auto; unfold tail_slot; rewrite Tf; reflexivity).
  pose proof (departs_slot d R _ _ _ Df) as Sf. pose proof (slot_lt _ _ _ _ Sf) as (_ & Lq).
  assert (q <> p) by (intros Q; rewrite Q in Df; eapply (OverUnderProofs.not_both d R T); eauto).
  assert (Cq : q = (p + 1) mod 4 \/ q = (p + 2) mod 4 \/ q = (p + 3) mod 4) by (destruct p as [|[|[|[|?]]]]; cbn; lia).
  destruct Cq as [Q|[Q|Q]]; rewrite Q in *.
  - right. assert (f = u) by (eapply slot_fun; eauto). subst f. rewrite Tf, Nat.eqb_refl. auto.
  - left. destruct (arrives_across d G _ _ _ A) as (g & Dg & CN). apply (continues_succ d R G) in CN as (_ & ->).
    eapply slot_fun; eauto using (departs_slot d R).
  - right. assert (f = v) by (eapply slot_fun; eauto). subst f. destruct (Nat.eqb_spec (e_tail (rec d u)) c) as [Tu|]; auto. exfalso.
    assert (Au : arrives d c ((p + 1) mod 4) u).
    { destruct Ku as [K|K]; auto. exfalso. destruct (departs_across d R G _ _ _ K) as (g & Ag & _). rewrite E13 in Ag. eapply (OverUnderProofs.not_both d R T); eauto. }
    pose proof (rec_at d u Lu) as HU. set (t := e_tailpos (rec d u)).
    assert (Du : departs d c t u) by (exists (rec d u); split; auto; unfold tail_slot; rewrite Tu; reflexivity).
    pose proof (departs_slot d R _ _ _ Du) as St. pose proof (slot_lt _ _ _ _ St) as (_ & Lt).
    assert (Hu : head_slot (rec d u) = (c, (p + 1) mod 4)).
    { destruct Au as (U & HU' & K). unfold edge_at in *. assert (U = rec d u) by congruence. subst U. exact K. }
    unfold head_slot in Hu. apply pair_equal_spec in Hu as (Hu1 & Hu2).
    assert (t <> p) by (intros X; rewrite X in Du; exact (OverUnderProofs.not_both d R T _ _ _ _ A Du)).
    assert (t <> (p + 1) mod 4) by (intros X; rewrite X in Du; exact (OverUnderProofs.not_both d R T _ _ _ _ Au Du)).
    assert (t <> (p + 3) mod 4).
    { intros X. rewrite X in St. apply (planar_no_edge_across d R T FP (sp_nfaces d SD) (sp_connected d SD) c ((p + 1) mod 4) u); auto. rewrite E13. exact St. }
    apply (NC u (rec d u) HU).
    + rewrite Hu1. exact He.
    + split; [congruence|]. fold t. rewrite Hu2. destruct p as [|[|[|[|?]]]]; cbn in *; lia.
Qed.

Lemma worker_ok : forall k e st, ncross d - length (lst (fst st)) < k -> good st -> e < nedges d -> ti e = true \/ hi e = true ->
  exists st', contents_worker k d es os e st = Ok st' /\ good st' /\ grows st st' /\ visited st' e /\ new_closed st st'.
Proof.
  induction k as [|k IH]; intros e st K Gd L W; [lia|]. cbn [contents_worker].
  assert (X : hi e = true -> exists p in', tangle_pos es e = Ok p /\
     (match p with Some i => get os i | None => Ok Inward end) = Ok Inward /\
     (match p with Some _ => Ok (snd st) | None => pd_sortedbuf_insert (snd st) e end) = Ok in' /\
     lists_only in' (inner d inside) /\ incl (lst (snd st)) (lst in') /\ (In e es \/ In e (lst in'))).
  { intros H. destruct Gd as (_ & Gi). destruct (look d es fs inside CC TS e L) as [(i & Hi & _ & E1 & E2)|(Ni & E0 & E1)].
    - exists (Some i), (snd st). split; auto. unfold dir in E2 at 2. rewrite H in E2. split; auto. split; auto. split; auto.
      split; [intros y; auto|]. left. eapply nth_error_In; eauto.
    - assert (In1 : inner d inside e) by (apply inner_iff; auto; split; auto; split; congruence).
      destruct (insert_lists (snd st) _ e Gi In1) as (b' & E & Lb & I). exists None, b'. split; auto. split; auto. split; auto.
      split; auto. split; [intros y Hy; apply I; auto|]. right. apply I. auto. }
  destruct (hi e) eqn:H.
  - destruct (X eq_refl) as (p & in' & E1 & E2 & E3 & Li & Ii & Ie). clear X. rewrite E1. cbn [bind]. rewrite E2. cbn [bind is_out]. rewrite E3. cbn [bind].
    pose proof (rec_at d e L) as He. unfold edge_at in He. rewrite (proj2 (get_ok _ _ _ _) He). cbn [bind]. change (e_head (rec d e)) with (hd d e).
    destruct Gd as (Gc & Gi). destruct (occurs_ok (fst st) _ (hd d e) Gc) as (b & Eb & Kb). rewrite Eb. cbn [bind]. destruct b.
    + exists (fst st, in'). split; auto. split; [split; auto|]. split; [split; cbn [fst snd]; [intros y; auto|auto]|].
      split; [right; cbn [fst snd]; split; [apply Kb; auto|auto]|]. intros _ c f I N. cbn [fst] in I. tauto.
    + assert (Ncr : ~ In (hd d e) (lst (fst st))) by (intros I; apply Kb in I; discriminate).
      assert (Ic : inside_cross d inside (hd d e)) by (split; [apply hd_lt; auto|exact H]).
      destruct (insert_lists (fst st) _ (hd d e) Gc Ic) as (cs & Ec & Lc & Icc). rewrite Ec. cbn [bind]. rewrite (next_is d SD e L). cbn [bind].
      assert (Len : S (length (lst (fst st))) <= length (lst cs)).
      { change (S (length (lst (fst st)))) with (length (hd d e :: lst (fst st))). apply NoDup_incl_length.
        - constructor; auto. apply incr_nodup. eapply lists_incr; eauto.
        - intros y [<-|Hy]; apply Icc; auto. }
      assert (Lcn : length (lst cs) <= ncross d) by (apply (good_lt (cs, in')); split; auto).
      destruct (IH (succ e) (cs, in')) as (st1 & R1 & G1 & Gr1 & V1 & C1); [cbn [fst]; lia|split; auto|apply succ_lt; auto; exact G| |].
      { left. rewrite (ti_succ d SD inside e L). exact H. }
      rewrite R1. cbn [bind]. destruct (nth_error (p_cross d) (hd d e)) as [x|] eqn:Hx; [|apply nth_error_None in Hx; pose proof (hd_lt e L); unfold ncross in *; lia].
      rewrite (proj2 (get_ok _ _ _ _) Hx). cbn [bind]. pose proof (around e x L Hx) as AR. cbv zeta in AR.
      set (u := cedge x ((e_headpos (rec d e) + 1) mod 4)) in *. set (v := cedge x ((e_headpos (rec d e) + 3) mod 4)) in *.
      destruct AR as (Lu & Lv & UV & AR). pose proof (rec_at d u Lu) as Hu. unfold edge_at in Hu. rewrite (proj2 (get_ok _ _ _ _) Hu). cbn [bind].
      set (w := if e_tail (rec d u) =? hd d e then u else v) in *.
      assert (Lw : w < nedges d) by (unfold w; destruct (_ =? _); auto).
      assert (Tw : ti w = true).
      { unfold TangleWalk.ti. assert (e_tail (rec d w) = hd d e) as ->; [|exact H]. unfold w. destruct (Nat.eqb_spec (e_tail (rec d u)) (hd d e)); [auto|tauto]. }
      pose proof (good_grows (cs, in') st1 (conj Lc Li) Gr1) as GL1. cbn [fst] in GL1.
      destruct (IH w st1) as (st2 & R2 & G2 & Gr2 & V2 & C2); auto; [lia|].
      assert (Grs : grows st (cs, in')) by (split; cbn [fst snd]; [intros y Hy; apply Icc; auto|auto]).
      assert (Gr0 : grows (cs, in') st2) by (eapply grows_trans; eauto).
      exists st2. split.
      { unfold w in R2. destruct (Nat.eqb_spec (e_tail (rec d u)) (hd d e)) as [Q|Q]; auto.
        pose proof (rec_at d v Lv) as Hv. unfold edge_at in Hv. rewrite (proj2 (get_ok _ _ _ _) Hv). cbn [bind].
        assert (e_tail (rec d v) =? hd d e = true) as -> by (apply Nat.eqb_eq; tauto). auto. }
      split; auto. split; [eapply grows_trans; eauto|]. split.
      { apply (visited_grows (cs, in') st2); auto. right. cbn [fst snd]. split; auto. apply Icc; auto. }
      assert (CL : new_closed (cs, in') st2) by exact (closed_trans _ st1 _ Gr2 C1 C2).
      intros NC c f I N Lf Tf. destruct (Nat.eq_dec c (hd d e)) as [->|Nc].
      * destruct (AR NC H f Lf Tf) as [Q|Q]; rewrite Q; [exact (visited_grows st1 st2 _ Gr2 V1)|exact V2].
      * apply (CL NC c f); auto. cbn [fst]. rewrite Icc. tauto.
  - clear X. assert (Ht : ti e = true) by (destruct W; congruence).
    destruct (look d es fs inside CC TS e L) as [(i & Hi & _ & E1 & E2)|(Ni & E0 & E1)]; [|congruence].
    rewrite E1. cbn [bind]. rewrite E2. cbn [bind]. unfold dir at 1. rewrite H. cbn [is_out]. exists st. split; auto. split; auto. split; [apply grows_refl|].
    split; [left; auto|]. intros _ c f I N. tauto.
Qed.

Lemma seed_strand_ok : forall n e st, good st -> e < nedges d -> (forall i, i < n -> ti (iter i succ e) = true \/ hi (iter i succ e) = true) ->
  exists st', seed_strand n d es os e st = Ok st' /\ good st' /\ grows st st' /\ (0 < n -> visited st' e) /\ new_closed st st'.
Proof.
  induction n as [|n IH]; intros e st Gd L Q; cbn [seed_strand].
  - exists st. split; auto. split; auto. split; [apply grows_refl|]. split; [lia|]. intros _ c f I N. tauto.
  - destruct (worker_ok (S (nedges d)) e st) as (st1 & R1 & G1 & Gr1 & V1 & C1); auto.
    { destruct R as (N & _). lia. }
    { apply (Q 0). lia. }
    rewrite R1. cbn [bind]. rewrite (next_is d SD e L). cbn [bind].
    destruct (IH (succ e) st1) as (st2 & R2 & G2 & Gr2 & V2 & C2); auto.
    { apply succ_lt; auto. exact G. }
    { intros i Hi. rewrite iter_front. apply Q. lia. }
    exists st2. split; auto. split; auto. split; [eapply grows_trans; eauto|]. split; [intros _; eapply visited_grows; eauto|exact (closed_trans _ st1 _ Gr2 C1 C2)].
Qed.
Lemma seed_ok : forall i s st a, strand_at d es inside i s -> nth_error es i = Some a -> good st ->
  exists st', seed d es os st s = Ok st' /\ good st' /\ grows st st' /\ visited st' a /\ new_closed st st'.
Proof.
  intros i s st a (E & a' & r & m & Hi & L & Ta & Ha & P & R0 & Rm & Q & X & Y & He & Hn & OC & _) Hi' Gd.
  assert (a' = a) by congruence. subst a'. unfold seed. rewrite E, (proj2 (get_ok _ _ _ _) Hi). cbn [bind].
  assert (Nse : i =? end_edge s = false).
  { apply Nat.eqb_neq. intros Z. rewrite <- Z, Hi in He. injection He as He. rewrite <- He in Y. congruence. }
  rewrite Nse, Nat.sub_0_r, Hn. destruct (seed_strand_ok (r + 1) a st) as (st1 & R1 & G1 & Gr1 & V1 & C1); auto.
  - intros j Hj. destruct (Nat.eq_dec j 0) as [->|]; [right; exact Ha|]. left. destruct (Nat.eq_dec j r) as [->|]; auto. apply Q. lia.
  - exists st1. split; auto. split; auto. split; auto. split; auto. apply V1. lia.
Qed.
Lemma seeds_ok : forall l st, incl l (entries d es inside) -> good st ->
  exists st', fold_ok (seed d es os) (map (the_strand d es inside) l) st = Ok st' /\ good st' /\ grows st st' /\
    (forall i a, In i l -> nth_error es i = Some a -> visited st' a) /\ new_closed st st'.
Proof.
  induction l as [|i l IH]; intros st I Gd; cbn [map fold_ok].
  - exists st. split; auto. split; auto. split; [apply grows_refl|]. split; [intros i a []|]. intros _ c f J N. tauto.
  - assert (Ii : In i (entries d es inside)) by (apply I; cbn; auto).
    destruct (the_strand_ok d SD es fs inside CC TS i Ii) as (_ & SA). apply entries_in in Ii as (a & Hi & Ha).
    destruct (seed_ok i _ st a SA Hi Gd) as (st1 & R1 & G1 & Gr1 & V1 & C1). rewrite R1. cbn [bind].
    destruct (IH st1) as (st2 & R2 & G2 & Gr2 & V2 & C2); auto; [intros x Hx; apply I; cbn; auto|].
    exists st2. split; auto. split; auto. split; [eapply grows_trans; eauto|]. split; [|exact (closed_trans _ st1 _ Gr2 C1 C2)].
    intros j b [->|J] Hj; [|eauto]. assert (b = a) by congruence. subst b. eapply visited_grows; eauto.
Qed.

(** * Nothing is missed when no edge of the inside curls to the right *)
Lemma complete : forall st, no_right_curl d inside -> good st ->
  (forall a, In a es -> hi a = true -> visited st a) ->
  (forall c f, In c (lst (fst st)) -> f < nedges d -> e_tail (rec d f) = c -> visited st f) ->
  (forall c, inside_cross d inside c -> In c (lst (fst st))) /\ (forall e, inner d inside e -> In e (lst (snd st))).
Proof.
  intros st NC Gd En Cl. set (W := fun c => In c (lst (fst st)) \/ inside c = false).
  assert (Fw : forall e, e < nedges d -> W (e_tail (rec d e)) -> W (hd d e)).
  { intros e L [I|O].
    - destruct (Cl _ e I L eq_refl) as [H|(H & _)]; [right; exact H|left; exact H].
    - destruct (hi e) eqn:H; [|right; exact H]. assert (I : In e es).
      { apply (es_iff d es fs inside CC TS e L). unfold TangleWalk.ti. rewrite O. congruence. }
      destruct (En e I H) as [H'|(H' & _)]; [congruence|left; exact H']. }
  assert (TS1 : forall e, e < nedges d -> e_tail (rec d (succ e)) = hd d e).
  { intros e L. destruct (succ_spec d G e (rec d e) (rec_at d e L)) as (N & HN & _ & K). pose proof (rec_at d (succ e) (succ_lt d G e L)) as K2.
    unfold edge_at in *. assert (N = rec d (succ e)) by congruence. subst N. unfold tail_slot in K. apply pair_equal_spec in K as (K1 & _). exact K1. }
  assert (It : forall n e, e < nedges d -> W (hd d e) -> W (hd d (iter n succ e))).
  { induction n as [|n IH]; intros e L H; auto. cbn [iter]. apply Fw; [apply succ_lt; [exact G|apply iter_lt; auto; exact G]|].
    rewrite TS1 by (apply iter_lt; auto; exact G). auto. }
  assert (Bw : forall e, e < nedges d -> W (hd d e) -> W (e_tail (rec d e))).
  { intros e L H. destruct (period_exists succ (seq 0 (nedges d)) Nat.eq_dec (D_closed d G) (D_inj d R G) e) as (k & _ & K0 & P & _); [apply in_seq; lia|].
    destruct k as [|k]; [lia|]. rewrite <- P. cbn [iter]. rewrite TS1 by (apply iter_lt; auto; exact G). apply It; auto. }
  assert (Ends : forall e c p, slot d c p e -> e < nedges d /\ (c = hd d e \/ c = e_tail (rec d e))).
  { intros e c p S. pose proof (slot_lt _ _ _ _ S) as (Lc & Lp). destruct (either d R T c p Lc Lp) as (e' & S' & K).
    assert (e' = e) by (eapply slot_fun; eauto). subst e'. destruct K as [(E & HE & K)|(E & HE & K)]; pose proof (edge_at_lt _ _ _ HE) as L; split; auto;
    pose proof (rec_at d e L) as K2; unfold edge_at in *; assert (E = rec d e) by congruence; subst E; apply pair_equal_spec in K as (K & _); auto. }
  assert (J : forall c c', joined d c c' -> W c -> W c').
  { intros c c' (e & p & p' & S & S') H. destruct (Ends e c p S) as (L & X). destruct (Ends e c' p' S') as (_ & Y).
    destruct X as [->| ->], Y as [->| ->]; auto. }
  assert (J2 : forall c c', clos_refl_trans nat (joined d) c c' -> W c -> W c').
  { intros c c' H. induction H; eauto. }
  assert (All : forall c, c < ncross d -> W c).
  { intros c Lc. destruct CC as (NE & _). destruct es as [|e0 es'] eqn:Ees; [congruence|]. rewrite <- Ees in *.
    assert (I0 : In e0 es) by (rewrite Ees; cbn; auto). pose proof (es_lt d es fs inside CC TS e0 I0) as L0.
    pose proof (proj1 (es_iff d es fs inside CC TS e0 L0) I0) as N0. destruct (proj2 R e0 (rec d e0) (rec_at d e0 L0)) as (S1 & S2).
    destruct (hi e0) eqn:H0.
    - apply (J2 (e_tail (rec d e0)) c); [apply (sp_connected d SD); [apply slot_lt in S2; tauto|auto]|]. right. unfold TangleWalk.ti in N0. destruct (inside (e_tail (rec d e0))); congruence.
    - apply (J2 (hd d e0) c); [apply (sp_connected d SD); [apply slot_lt in S1; unfold hd; tauto|auto]|]. right. exact H0. }
  split.
  - intros c (Lc & Ic). destruct (All c Lc) as [I|O]; auto. congruence.
  - intros e I. apply inner_iff in I; auto. destruct I as (L & Te & He). destruct (proj2 R e (rec d e) (rec_at d e L)) as (_ & S2).
    apply slot_lt in S2 as (Lt & _). destruct (All _ Lt) as [I|O]; [|unfold TangleWalk.ti in Te; congruence].
    destruct (Cl _ e I L eq_refl) as [H|(_ & [H|H])]; auto; [congruence|]. apply (es_iff d es fs inside CC TS e L) in H. congruence.
Qed.
End Tangle.
