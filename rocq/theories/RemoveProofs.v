(** Proofs about the removal of crossings: strands and places of the remaining diagram. *)
From Coq Require Import List ZArith Lia Bool Arith Permutation Relations.
From Verif Require Import Base Iterators ListAux Pd PdSpec PdProofs Relabel RelabelProofs Strands CycleSurgery PdFaces PdFacesProofs LinkProofs Planar RegenSpec
  Thm_Faces Thm_Planar MoveProofs DeloopSpec DeloopProofs RemoveSpec CutProofs.
Import ListNotations.
Open Scope nat_scope.

(** the two places an edge joins *)
Definition ends (d : pd) (s t : nat * nat) : Prop :=
  exists e E, edge_at d e E /\ (s = tail_slot E /\ t = head_slot E \/ s = head_slot E /\ t = tail_slot E).
Definition lturn (s : nat * nat) : nat * nat := (fst s, (snd s + 3) mod 4).
Definition opposite (s : nat * nat) : nat * nat := (fst s, (snd s + 2) mod 4).
Definition place (d : pd) (s : nat * nat) : Prop := fst s < ncross d /\ snd s < 4.
(** from the place [s] along the edge there and straight through crossings of [gone] *)
Inductive pruns (d : pd) (gone : list nat) (s : nat * nat) : nat * nat -> Prop :=
| pruns_one : forall t, ends d s t -> pruns d gone s t
| pruns_more : forall u t, pruns d gone s u -> In (fst u) gone -> ends d (opposite u) t -> pruns d gone s t.

Lemma leads_trans : forall d gone x y z, leads d gone x y -> leads d gone y z -> leads d gone x z.
Proof. intros d gone x y z H K. induction K as [|z w Z K IH HZ IZ C]; auto. eapply leads_on; eauto. Qed.
Lemma leads_step : forall d gone x y X, edge_at d x X -> In (e_head X) gone -> continues d x y -> leads d gone x y.
Proof. intros. eapply leads_on; eauto. apply leads_here. Qed.
Inductive leads_left (d : pd) (gone : list nat) (y : nat) : nat -> Prop :=
| ll_here : leads_left d gone y y
| ll_on : forall x w X, edge_at d x X -> In (e_head X) gone -> continues d x w -> leads_left d gone y w -> leads_left d gone y x.
Lemma leads_left_iff : forall d gone x y, leads_left d gone y x <-> leads d gone x y.
Proof.
  intros d gone x y. split; intro H.
  - induction H as [|x w X HX IX C H IH]; [apply leads_here|]. eapply leads_trans; [eapply leads_step; eauto|exact IH].
  - induction H as [|y z Y H IH HY IY C]; [apply ll_here|]. clear H. induction IH as [|x w X HX IX Cx H IH].
    + eapply ll_on; eauto. apply ll_here.
    + eapply ll_on; eauto.
Qed.
Lemma leads_end : forall d gone x y y' Y Y', ends_recorded d -> leads d gone x y -> leads d gone x y' -> edge_at d y Y -> edge_at d y' Y' ->
  ~ In (e_head Y) gone -> ~ In (e_head Y') gone -> y = y'.
Proof.
  intros d gone x y y' Y Y' R H K HY HY' NY NY'. apply leads_left_iff in H, K. induction H as [|x w X HX IX C H IH].
  - destruct K as [|x w X HX IX C K]; auto. exfalso. unfold edge_at in *. rewrite HY in HX. injection HX as <-. auto.
  - destruct K as [|x w' X' HX' IX' C' K].
    + exfalso. unfold edge_at in *. rewrite HY' in HX. injection HX as <-. auto.
    + apply IH. rewrite (continues_fun d R _ _ _ C C'). exact K.
Qed.

Section Removed.
Context (d o : pd) (gone ge : list nat) (kc ke : nat -> nat) (H : crossings_removed d o gone kc (fun _ => 0) ke).
Context (R : ends_recorded d) (G : goes_through d) (T : two_ended d).
Context (NDe : NoDup ge) (Lge : length ge = 2 * length gone) (Hge : forall x, In x ge -> x < nedges d).
Context (GE : forall x X, edge_at d x X -> (In x ge <-> In (e_tail X) gone)).
Context (BK : forall y Y, edge_at d y Y -> ~ In (e_head Y) gone -> exists x X, edge_at d x X /\ ~ In (e_tail X) gone /\ leads d gone x y).

Lemma at_rest : forall v p, p < 4 -> moved kc (fun _ => 0) v p = (kc v, p).
Proof. intros v p Hp. unfold moved. f_equal. clear -Hp. destruct p as [|[|[|[|?]]]]; cbn; lia. Qed.
Lemma slots_lt : forall x X, edge_at d x X -> e_tail X < ncross d /\ e_tailpos X < 4 /\ e_head X < ncross d /\ e_headpos X < 4.
Proof. intros x X HX. pose proof R as (_ & Rr). destruct (Rr _ _ HX) as (S1 & S2). apply slot_lt in S1, S2. tauto. Qed.
Lemma new_edge : forall x X y Y, edge_at d x X -> ~ In (e_tail X) gone -> leads d gone x y -> edge_at d y Y -> ~ In (e_head Y) gone ->
  exists X', edge_at o (ke x) X' /\ tail_slot X' = (kc (e_tail X), e_tailpos X) /\ head_slot X' = (kc (e_head Y), e_headpos Y).
Proof.
  intros x X y Y HX KX L HY KY. destruct (cr_edge _ _ _ _ _ _ H x X y Y HX KX L HY KY) as (X' & HX' & T1 & T2).
  pose proof (slots_lt x X HX). pose proof (slots_lt y Y HY). rewrite at_rest in T1, T2 by tauto. eauto.
Qed.
Lemma new_edge_lt : forall x X, edge_at d x X -> ~ In (e_tail X) gone -> ke x < nedges o.
Proof.
  intros x X HX KX. destruct (cr_ends _ _ _ _ _ _ H x X HX KX) as (y & Y & L & HY & KY).
  destruct (new_edge x X y Y HX KX L HY KY) as (X' & HX' & _). eapply edge_at_lt; eauto.
Qed.
Lemma counts : ncross d = ncross o + length gone /\ nedges d = nedges o + length ge.
Proof.
  pose proof (cr_ncross _ _ _ _ _ _ H) as N. pose proof (cr_recorded _ _ _ _ _ _ H) as (Ro & _). destruct R as (Rd & _). split; lia.
Qed.
Lemma not_ge : forall x X, edge_at d x X -> (~ In x ge <-> ~ In (e_tail X) gone).
Proof. intros x X HX. pose proof (GE x X HX). tauto. Qed.
Lemma rem_edge_onto : forall y, y < nedges o -> exists x X, edge_at d x X /\ ~ In (e_tail X) gone /\ ke x = y.
Proof.
  intros y Hy. destruct (onto (nedges d) (nedges o) ge ke) with (y := y) as (x & Lx & N & Q); auto.
  - apply counts.
  - intros x Lx N. destruct (edge_at_ex d x Lx) as (X & HX). apply (new_edge_lt x X HX). apply (not_ge x X HX). auto.
  - intros x z Lx N Lz N' Q. destruct (edge_at_ex d x Lx) as (X & HX). destruct (edge_at_ex d z Lz) as (Z & HZ).
    apply (cr_ke_inj _ _ _ _ _ _ H x X z Z); auto; eapply not_ge; eauto.
  - destruct (edge_at_ex d x Lx) as (X & HX). exists x, X. split; auto. split; auto. eapply not_ge; eauto.
Qed.
Lemma rem_cross_onto : forall w, w < ncross o -> exists v, v < ncross d /\ ~ In v gone /\ kc v = w.
Proof.
  intros w Hw. apply (onto (ncross d) (ncross o) gone kc); auto.
  - apply (cr_nodup _ _ _ _ _ _ H).
  - apply (cr_gone _ _ _ _ _ _ H).
  - apply (cr_ncross _ _ _ _ _ _ H).
  - apply (cr_kc _ _ _ _ _ _ H).
  - apply (cr_kc_inj _ _ _ _ _ _ H).
Qed.
Lemma rem_edge_back : forall y Y, edge_at o y Y -> exists x X z Z, y = ke x /\ edge_at d x X /\ ~ In (e_tail X) gone /\ leads d gone x z /\ edge_at d z Z /\ ~ In (e_head Z) gone /\
  tail_slot Y = (kc (e_tail X), e_tailpos X) /\ head_slot Y = (kc (e_head Z), e_headpos Z).
Proof.
  intros y Y HY. destruct (rem_edge_onto y (edge_at_lt _ _ _ HY)) as (x & X & HX & KX & <-).
  destruct (cr_ends _ _ _ _ _ _ H x X HX KX) as (z & Z & L & HZ & KZ). destruct (new_edge x X z Z HX KX L HZ KZ) as (X' & HX' & T1 & T2).
  unfold edge_at in HY, HX'. rewrite HY in HX'. injection HX' as <-. exists x, X, z, Z. tauto.
Qed.
Lemma rem_two_ended : two_ended o.
Proof.
  intros y Y HY. destruct (rem_edge_back y Y HY) as (x & X & z & Z & -> & HX & KX & L & HZ & KZ & T1 & T2). rewrite T1, T2. intro Q. apply pair_eq in Q as (Q1 & Q2).
  pose proof (slots_lt x X HX). pose proof (slots_lt z Z HZ). apply (slots_differ d R T x X z Z HX HZ). unfold head_slot, tail_slot. f_equal; auto.
  apply (cr_kc_inj _ _ _ _ _ _ H); tauto.
Qed.
Lemma rem_through : goes_through o.
Proof.
  intros y Y HY. destruct (rem_edge_back y Y HY) as (x & X & z & Z & -> & HX & KX & L & HZ & KZ & T1 & T2). pose proof (cr_recorded _ _ _ _ _ _ H) as (_ & Ro).
  unfold head_slot, tail_slot in T1, T2. apply pair_eq in T1 as (-> & ->). apply pair_eq in T2 as (-> & ->). split.
  - destruct (G z Z HZ) as ((a & A & HA & SA & TA) & _). unfold tail_slot in TA. apply pair_eq in TA as (TA & TA').
    destruct (cr_ends _ _ _ _ _ _ H a A HA ltac:(congruence)) as (w & W & La & HW & KW). destruct (new_edge a A w W HA ltac:(congruence) La HW KW) as (A' & HA' & U1 & U2).
    exists (ke a), A'. split; auto. destruct (Ro _ _ HA') as (_ & S). unfold tail_slot in *. apply pair_eq in U1 as (U1 & U1'). rewrite U1, U1', TA, TA' in *. auto.
  - destruct (G x X HX) as (_ & (a & A & HA & SA & TA)). unfold head_slot in TA. apply pair_eq in TA as (TA & TA').
    destruct (BK a A HA ltac:(congruence)) as (w & W & HW & KW & La). destruct (new_edge w W a A HW KW La HA ltac:(congruence)) as (A' & HA' & U1 & U2).
    exists (ke w), A'. split; auto. destruct (Ro _ _ HA') as (S & _). unfold head_slot in *. apply pair_eq in U2 as (U2 & U2'). rewrite U2, U2', TA, TA' in *. auto.
Qed.

(** ** strands *)
Definition stays (x : nat) : bool := if in_dec Nat.eq_dec x ge then false else true.
Lemma stays_spec : forall x X, edge_at d x X -> (stays x = true <-> ~ In (e_tail X) gone).
Proof. intros x X HX. pose proof (not_ge x X HX) as Q. unfold stays. destruct (in_dec Nat.eq_dec x ge); intuition congruence. Qed.
Lemma rem_continues : forall x y z Y Z, edge_at d x Y -> ~ In (e_tail Y) gone -> leads d gone x y -> continues d y z -> edge_at d z Z -> ~ In (e_tail Z) gone -> continues o (ke x) (ke z).
Proof.
  intros x y z X Z HX KX L (A & B & HA & HB & C1 & C2) HZ KZ. unfold edge_at in HB, HZ. rewrite HB in HZ. injection HZ as <-.
  destruct (new_edge x X y A HX KX L HA ltac:(congruence)) as (X' & HX' & _ & T2).
  destruct (cr_ends _ _ _ _ _ _ H z B HB KZ) as (w & W & Lw & HW & KW). destruct (new_edge z B w W HB KZ Lw HW KW) as (Z' & HZ' & T1 & _).
  exists X', Z'. split; auto. split; auto. unfold head_slot, tail_slot in *. apply pair_eq in T1 as (-> & ->). apply pair_eq in T2 as (-> & ->). rewrite C1, C2. auto.
Qed.
Lemma rem_strands : forall L, strand_partition d L -> strand_partition o (map (map ke) (filter nonempty (map (filter stays) L))).
Proof.
  intros L HL.
  assert (X : cpart (fun a b => continues o (ke a) (ke b)) (fun x => x < nedges d /\ stays x = true) (filter nonempty (map (filter stays) L))).
  { apply (cpart_erase nat (continues d)); [exact HL|]. intros a b Da Db Ka Kb S. destruct (edge_at_ex d a Da) as (A & HA). destruct (edge_at_ex d b Db) as (B & HB).
    assert (I : exists a', leads d gone a a' /\ continues d a' b).
    { clear Kb Db HB B. induction S as [a b (Da1 & Db1 & C)|a b b' S IH K (Db1 & _ & C)].
      - exists a. split; auto. apply leads_here.
      - destruct (IH Da Ka HA) as (a' & La & Ca). destruct (edge_at_ex d b Db1) as (B & HB). exists b. split; auto.
        destruct Ca as (A' & B' & HA' & HB' & C1 & C2). unfold edge_at in HB, HB'. rewrite HB in HB'. injection HB' as <-.
        eapply leads_on; [exact La|exact HA'| |exists A', B; auto]. rewrite <- C1. destruct (in_dec Nat.eq_dec (e_tail B) gone) as [|N]; auto.
        apply (stays_spec b B HB) in N. congruence. }
    destruct I as (a' & La & Ca). apply (rem_continues a a' b A B); auto; eapply stays_spec; eauto. }
  apply (cpart_map nat nat _ (continues o) ke _ (fun y => y < nedges o) _ X).
  - intros a b _ _ C. exact C.
  - intros a b (La & Ka) (Lb & Kb). destruct (edge_at_ex d a La) as (A & HA). destruct (edge_at_ex d b Lb) as (B & HB).
    apply (cr_ke_inj _ _ _ _ _ _ H a A b B); auto; eapply stays_spec; eauto.
  - intro y. split.
    + intro Hy. destruct (rem_edge_onto y Hy) as (x & X0 & HX & KX & <-). exists x. split; auto. split; [eapply edge_at_lt; eauto|]. apply (stays_spec x X0 HX). auto.
    + intros (x & (Lx & Kx) & ->). destruct (edge_at_ex d x Lx) as (X0 & HX). apply (new_edge_lt x X0 HX). apply (stays_spec x X0 HX). auto.
Qed.
Context (SV : forall x X, edge_at d x X -> In (e_tail X) gone -> exists z Z, leads d gone x z /\ edge_at d z Z /\ ~ In (e_head Z) gone).
Lemma rem_strands_all : forall L, strand_partition d L -> strand_partition o (map (fun l => map ke (filter stays l)) L).
Proof.
  intros L HL. pose proof (rem_strands L HL) as P. assert (Q : filter nonempty (map (filter stays) L) = map (filter stays) L).
  { destruct HL as (H1 & _ & H3). clear P. assert (H4 : forall l x, In l L -> In x l -> x < nedges d) by (intros l x Hl Hx; apply H3, in_concat; eauto). clear H3.
    induction L as [|l L IH]; [reflexivity|]. cbn [map filter].
    destruct (H1 l (or_introl eq_refl)) as (N & C).
    assert (Z : filter stays l <> []).
    { destruct l as [|x l0]; [congruence|]. destruct (edge_at_ex d x (H4 (x :: l0) x (or_introl eq_refl) (or_introl eq_refl))) as (X & HX).
      set (l := x :: l0) in *.
      assert (Cl : forall y z, In y l -> continues d y z -> In z l).
      { intros y z Iy Cy. destruct (cyclic_next _ _ _ y C Iy) as (z' & Iz & Cz). rewrite (continues_fun d R _ _ _ Cy Cz). exact Iz. }
      assert (K : exists z Z, In z l /\ edge_at d z Z /\ ~ In (e_tail Z) gone).
      { destruct (in_dec Nat.eq_dec (e_tail X) gone) as [g|g]; [|exists x, X; split; [left; reflexivity|auto]].
        destruct (SV x X HX g) as (z & Z & Lz & HZ & KZ).
        assert (Iz : In z l).
        { clear HZ KZ. assert (Ix : In x l) by (left; reflexivity). induction Lz as [|y z Y Lz IHz HY IY Cy]; auto. eapply Cl; eauto. }
        destruct (cyclic_next _ _ _ z C Iz) as (w & Iw & Cw). pose proof Cw as (Z' & W & HZ' & HW & C1 & C2). exists w, W. split; auto. split; auto.
        unfold edge_at in *. rewrite HZ in HZ'. injection HZ' as <-. congruence. }
      destruct K as (z & Z & Iz & HZ & KZ). intro Q. assert (I : In z (filter stays l)) by (apply filter_In; split; auto; apply (stays_spec z Z HZ); auto). rewrite Q in I. destruct I. }
    destruct (filter stays l); [congruence|]. cbn [nonempty]. rewrite IH; auto. intros; apply H1; simpl; auto. intros; eapply H4; simpl; eauto. }
  rewrite Q, map_map in P. exact P.
Qed.

(** ** places *)
Definition pmap (s : nat * nat) : nat * nat := (kc (fst s), snd s).
Lemma runs_back : forall s t, pruns d gone s t -> ~ In (fst s) gone ->
  exists x X y Y, edge_at d x X /\ edge_at d y Y /\ leads d gone x y /\ (s = tail_slot X /\ t = head_slot Y \/ s = head_slot Y /\ t = tail_slot X).
Proof.
  intros s t Hr Ks. induction Hr as [t (e & E & HE & Q)|u t Hr IH Gu (e & E & HE & Q)].
  - exists e, E, e, E. split; auto. split; auto. split; [apply leads_here|]. exact Q.
  - destruct IH as (x & X & y & Y & HX & HY & L & [(-> & ->)|(-> & ->)]).
    + destruct (G y Y HY) as ((a & A & HA & SA & TA) & _).
      assert (OU : opposite (head_slot Y) = tail_slot A) by (rewrite TA; reflexivity). rewrite OU in Q. destruct Q as [(Q1 & ->)|(Q1 & ->)].
      * assert (e = a) as ->.
        { pose proof R as (_ & Rr). destruct (Rr _ _ HA) as (_ & S1). destruct (Rr _ _ HE) as (_ & S2). unfold tail_slot in Q1. apply pair_eq in Q1 as (Q1 & Q2).
          rewrite <- Q1, <- Q2 in S2. exact (slot_fun _ _ _ _ _ S2 S1). }
        exists x, X, a, E. split; auto. split; auto. split; [|auto]. eapply leads_on; [exact L|exact HY|exact Gu|].
        exists Y, E. split; auto. split; auto. unfold edge_at in *. rewrite HA in HE. injection HE as <-. unfold tail_slot in TA. apply pair_eq in TA. tauto.
      * exfalso. apply (slots_differ d R T a A e E HA HE). auto.
    + destruct (G x X HX) as (_ & (a & A & HA & SA & TA)).
      assert (OU : opposite (tail_slot X) = head_slot A) by (rewrite TA; reflexivity). rewrite OU in Q. destruct Q as [(Q1 & ->)|(Q1 & ->)].
      * exfalso. apply (slots_differ d R T e E a A HE HA). auto.
      * assert (e = a) as ->.
        { pose proof R as (_ & Rr). destruct (Rr _ _ HA) as (S1 & _). destruct (Rr _ _ HE) as (S2 & _). unfold head_slot in Q1. apply pair_eq in Q1 as (Q1 & Q2).
          rewrite <- Q1, <- Q2 in S2. exact (slot_fun _ _ _ _ _ S2 S1). }
        assert (E = A) as -> by (unfold edge_at in *; congruence). exists a, A, y, Y. split; auto. split; auto. split; [|auto].
        eapply leads_trans; [|exact L]. unfold head_slot in TA. apply pair_eq in TA as (TA & TA').
        eapply leads_step; [exact HA|rewrite TA; exact Gu|]. exists A, X. split; auto. split; auto. rewrite TA, TA'. split; auto.
        pose proof (slots_lt x X HX) as (_ & Lp & _). clear -Lp. destruct (e_tailpos X) as [|[|[|[|?]]]]; cbn; lia.
Qed.
Lemma runs_ends : forall s t, pruns d gone s t -> ~ In (fst s) gone -> ~ In (fst t) gone -> ends o (pmap s) (pmap t).
Proof.
  intros s t Hr Ks Kt. destruct (runs_back s t Hr Ks) as (x & X & y & Y & HX & HY & L & [(-> & ->)|(-> & ->)]); cbn [head_slot tail_slot fst] in Ks, Kt;
    destruct (new_edge x X y Y HX ltac:(auto) L HY ltac:(auto)) as (X' & HX' & T1 & T2); exists (ke x), X'; split; auto; rewrite T1, T2; cbn; auto.
Qed.
Lemma pmap_onto : forall w, place o w <-> exists s, (place d s /\ ~ In (fst s) gone) /\ w = pmap s.
Proof.
  intros (w, p). unfold place. cbn [fst snd]. split.
  - intros (Hw & Hp). destruct (rem_cross_onto w Hw) as (v & Hv & Nv & <-). exists (v, p). auto.
  - intros ((v, q) & ((Hv & Hq) & Nv) & E). unfold pmap in E. cbn [fst snd] in *. apply pair_eq in E as (-> & ->). split; auto. apply (cr_kc _ _ _ _ _ _ H); auto.
Qed.
Lemma pmap_inj : forall s t, place d s -> ~ In (fst s) gone -> place d t -> ~ In (fst t) gone -> pmap s = pmap t -> s = t.
Proof.
  intros (v, p) (w, q) (Hv & _) Nv (Hw & _) Nw E. unfold pmap in E. cbn [fst snd] in *. apply pair_eq in E as (E & ->). f_equal. apply (cr_kc_inj _ _ _ _ _ _ H); auto.
Qed.
Lemma rem_cycles : forall L, cpart (fun s t => pruns d gone (lturn s) t) (fun s => place d s /\ ~ In (fst s) gone) L ->
  cpart (fun s t => ends o (lturn s) t) (place o) (map (map pmap) L).
Proof.
  intros L HL. apply (cpart_map _ _ _ _ pmap _ (place o) L HL).
  - intros s t (Ps & Ks) (Pt & Kt) Q. apply (runs_ends (lturn s) t); auto.
  - intros s t (Ps & Ks) (Pt & Kt). apply pmap_inj; auto.
  - apply pmap_onto.
Qed.
End Removed.
