(** Regenerating a diagram without signs: some strands may come out turned around, and nothing else changes. *)
From Coq Require Import List ZArith Lia Bool Arith Permutation Relations.
From Verif Require Import Base Iterators ListAux Pd PdSpec PdProofs Relabel RelabelProofs RelabelSym Strands SlotCount CycleSurgery
  PdCross PdCrossProofs PdEdges PdComps PdCompsProofs PdRegen RegenSpec RegenProofs Carry CarryProofs Planar Thm_Faces Thm_Edges Thm_Comps Thm_Regen Thm_Planar FewComps PdOps.
From Verif Require DeloopProofs DeloopComps ReorientProofs Exchange.
Import ListNotations.
Open Scope nat_scope.

Definition none_turned : nat -> bool := fun _ => false.

(** ** reversing lists *)
Lemma linked_rev : forall A (R S : A -> A -> Prop) l, (forall a b, In a l -> In b l -> R a b -> S b a) -> linked R l -> linked S (rev l).
Proof.
  intros A R S. induction l as [|x l IH]; intros H L; [constructor|]. cbn [rev]. destruct l as [|y l]; [constructor|]. destruct L as (Rxy & L).
  assert (Q : linked S (rev (y :: l))) by (apply IH; auto; intros a b Ha Hb; apply H; simpl in *; tauto).
  cbn [rev] in *. rewrite <- app_assoc. cbn [app]. apply Exchange.linked_split; auto. constructor; [apply H; simpl; auto|constructor].
Qed.
Lemma cyclically_rev : forall A (R S : A -> A -> Prop) l, (forall a b, In a l -> In b l -> R a b -> S b a) -> cyclically R l -> cyclically S (rev l).
Proof.
  intros A R S [|x l] H C; [intros i a b Ha; destruct i; discriminate|]. apply cyclically_linked in C.
  assert (Q : linked S (rev (x :: l ++ [x]))) by (apply (linked_rev A R); auto; intros a b Ha Hb; apply H; simpl in *; rewrite in_app_iff in *; simpl in *; tauto).
  change (x :: l ++ [x]) with ((x :: l) ++ [x]) in Q. rewrite rev_app_distr in Q. cbn [rev app] in Q.
  apply (CycleMatch.cyclically_rotation A S (x :: rev l)).
  - exists [x], (rev l). auto.
  - apply cyclically_linked. exact Q.
Qed.

(** ** strands of a diagram some of whose strands are turned around *)
Section Rev.
Context (d : pd) (F : nat -> bool) (R : ends_recorded d) (G : goes_through d) (T : two_ended d).
Context (K : forall a b, continues d a b -> F a = F b).
Lemma turned_alike : forall l, cyclically (continues d) l -> forall a b, In a l -> In b l -> F a = F b.
Proof.
  intros [|x l] C a b Ha Hb; [destruct Ha|]. apply cyclically_linked in C.
  assert (Z : forall l x, linked (continues d) (x :: l) -> forall y, In y (x :: l) -> F y = F x).
  { clear -K. induction l as [|z l IH]; intros x L y Hy; [destruct Hy as [<-|[]]; auto|]. destruct L as (C & L). destruct Hy as [<-|Hy]; auto.
    rewrite (IH z L y Hy). symmetry. auto. }
  change (x :: l ++ [x]) with (x :: (l ++ [x])) in C.
  transitivity (F x); [|symmetry]; apply (Z (l ++ [x]) x C); simpl in *; rewrite in_app_iff; tauto.
Qed.
Lemma rev_strands : forall H L, strand_partition d L -> strand_partition (rev_pd d F H) (map (fun l => if F (hd 0 l) then rev l else l) L).
Proof.
  intros H L (P1 & P2 & P3).
  assert (PM : Permutation (concat (map (fun l => if F (hd 0 l) then rev l else l) L)) (concat L)).
  { clear. induction L as [|l L IH]; [constructor|]. cbn [map concat]. apply Permutation_app; auto. destruct (F (hd 0 l)); auto. apply Permutation_sym, Permutation_rev. }
  split; [|split].
  - intros c Hc. apply in_map_iff in Hc as (l & <- & Hl). destruct (P1 l Hl) as (N & C). split.
    + destruct (F (hd 0 l)); auto. intro Q. apply N. apply length_zero_iff_nil. rewrite <- rev_length, Q. reflexivity.
    + assert (HD : forall a, In a l -> F a = F (hd 0 l)) by (intros a Ha; apply (turned_alike l C); auto; destruct l; [destruct Ha|simpl; auto]).
      destruct (F (hd 0 l)) eqn:E.
      * apply (cyclically_rev _ (continues d)); auto. intros a b Ha Hb Q. pose proof (rev_continues d F H R K a b Q) as Z. rewrite (HD a Ha) in Z. exact Z.
      * intros i a b Ha Hb. pose proof (C i a b Ha Hb) as Q. pose proof (rev_continues d F H R K a b Q) as Z. rewrite (HD a) in Z; auto. eapply nth_error_In; eauto.
  - eapply Permutation_NoDup; [symmetry; exact PM|exact P2].
  - intro e. rewrite rev_nedges, <- P3. split; apply Permutation_in; [exact PM|symmetry; exact PM].
Qed.
End Rev.

(** ** other edge records for the same crossings *)
Definition same_slot (s t : nat * nat) : bool := (fst s =? fst t) && (snd s =? snd t).
Definition turned_in (d : pd) (es : list edge) (e : nat) : bool :=
  match nth_error (p_edge d) e, nth_error es e with
  | Some E, Some E' => negb (same_slot (head_slot E) (head_slot E'))
  | _, _ => false
  end.
Lemma other_records : forall d es, ends_recorded d -> two_ended d -> ends_recorded (with_edges d es) -> two_ended (with_edges d es) ->
  with_edges d es = rev_pd d (turned_in d es) none_turned.
Proof.
  intros d es R T R' T'.
  assert (LE : length es = nedges d) by (destruct R as (Q & _), R' as (Q' & _); change (nedges (with_edges d es)) with (length es) in Q'; change (ncross (with_edges d es)) with (ncross d) in Q'; lia).
  assert (EQ : es = imap (turned_edge (turned_in d es)) 0 (p_edge d)).
  { apply list_ext. intro e. rewrite nth_error_imap. cbn [plus]. destruct (nth_error (p_edge d) e) as [E|] eqn:HE; cbn [option_map].
    - destruct (nth_error es e) as [E'|] eqn:HE'.
      2:{ apply nth_error_None in HE'. assert (e < length (p_edge d)) by (apply nth_error_Some; congruence). unfold nedges in LE. lia. }
      f_equal. destruct (proj2 R' e E' HE') as (S1 & S2). pose proof (T' e E' HE') as N'.
      assert (K1 : (e_head E', e_headpos E') = head_slot E \/ (e_head E', e_headpos E') = tail_slot E) by (apply (DeloopProofs.slot_end d _ _ e E R T S1 HE)).
      assert (K2 : (e_tail E', e_tailpos E') = head_slot E \/ (e_tail E', e_tailpos E') = tail_slot E) by (apply (DeloopProofs.slot_end d _ _ e E R T S2 HE)).
      unfold turned_edge, turned_in. rewrite HE, HE'. unfold same_slot. pose proof (T e E HE) as N. destruct E as [h hp t tp], E' as [h' hp' t' tp'].
      unfold head_slot, tail_slot, flip_edge in *. cbn [e_head e_headpos e_tail e_tailpos fst snd] in *.
      destruct K1 as [K1|K1], K2 as [K2|K2]; apply MoveProofs.pair_eq in K1 as (-> & ->); apply MoveProofs.pair_eq in K2 as (-> & ->).
      + destruct N'. reflexivity.
      + rewrite !Nat.eqb_refl. reflexivity.
      + destruct (Nat.eqb_spec h t) as [->|Q1]; cbn [andb negb]; auto. destruct (Nat.eqb_spec hp tp) as [->|Q2]; cbn [negb]; auto. congruence.
    - apply nth_error_None. apply nth_error_None in HE. unfold nedges in LE. lia. }
  unfold rev_pd. rewrite <- EQ. unfold none_turned, turned_sign. rewrite (ReorientProofs.imap_id _ _ (p_cross d)) by reflexivity. destruct d; reflexivity.
Qed.
(** if strands go straight through both before and after, whole strands are turned *)
Lemma turned_strands : forall d F, ends_recorded d -> goes_through d -> two_ended d -> goes_through (rev_pd d F none_turned) ->
  forall a b, continues d a b -> F a = F b.
Proof.
  intros d F R G T G' a b (A & B & HA & HB & C1 & C2).
  assert (HA' : edge_at (rev_pd d F none_turned) a (turned_edge F a A)) by (apply rev_edge_at; eauto).
  assert (HB' : edge_at (rev_pd d F none_turned) b (turned_edge F b B)) by (apply rev_edge_at; eauto).
  pose proof (rev_ends_recorded d F none_turned R) as R'. pose proof (rev_two_ended d F none_turned T) as T'.
  destruct (proj2 R a A HA) as (SA & _). pose proof (slot_lt _ _ _ _ SA) as (_ & PA).
  destruct (F a) eqn:Fa, (F b) eqn:Fb; auto; exfalso; unfold turned_edge in HA', HB'; rewrite Fa in HA'; rewrite Fb in HB'.
  - (* a ends here turned: its tail is at the crossing, and so is that of b *)
    destruct (G' b _ HB') as (_ & (e & E & HE & SE & QE)). cbn [flip_edge] in *. unfold head_slot in QE. apply MoveProofs.pair_eq in QE as (Q1 & Q2).
    rewrite C1, C2, across_back in * by auto. destruct (proj2 R' _ _ HA') as (_ & SA'). cbn [flip_edge e_tail e_tailpos] in SA'.
    assert (e = a) as -> by (eapply slot_fun; eauto). assert (E = flip_edge A) as -> by (unfold edge_at in *; congruence).
    apply (T a A HA). unfold head_slot, tail_slot. cbn [flip_edge e_head e_headpos] in Q1, Q2. congruence.
  - destruct (G' a _ HA') as ((e & E & HE & SE & QE) & _). unfold tail_slot in QE. apply MoveProofs.pair_eq in QE as (Q1 & Q2).
    destruct (proj2 R' _ _ HB') as (SB' & _). cbn [flip_edge e_head e_headpos] in SB'. rewrite C1, C2 in SB'.
    assert (e = b) as -> by (eapply slot_fun; eauto). assert (E = flip_edge B) as -> by (unfold edge_at in *; congruence).
    apply (T b B HB). unfold head_slot, tail_slot. cbn [flip_edge e_tail e_tailpos] in Q1, Q2. congruence.
Qed.
Lemma rev_connected : forall d F G, connected d -> connected (rev_pd d F G).
Proof.
  intros d F G CN v v' Hv Hv'. rewrite rev_ncross in Hv, Hv'. specialize (CN v v' Hv Hv'). clear Hv Hv'. induction CN as [a b (e & p & p' & S1 & S2)|a|a b c _ IH1 _ IH2].
  - apply rt_step. exists e, p, p'. split; apply rev_slot; auto.
  - apply rt_refl.
  - eapply rt_trans; eauto.
Qed.

Lemma sign_lt : forall d c s, sign_at d c s -> c < ncross d.
Proof. intros d c s (x & H & _). apply nth_error_Some. congruence. Qed.
Lemma sign_ex : forall d c, c < ncross d -> exists s, sign_at d c s.
Proof. intros d c H. destruct (nth_error (p_cross d) c) as [x|] eqn:E; [exists (csign x), x; auto|]. apply nth_error_None in E. unfold ncross in H. lia. Qed.
Lemma sign_fun : forall d c s s', sign_at d c s -> sign_at d c s' -> s = s'.
Proof. intros d c s s' (x & H & <-) (y & H' & <-). congruence. Qed.
(** undoing the turns in the new numbering *)
Lemma turned_back : forall d d' s r w F, ends_recorded d -> relabelled (rev_pd d F none_turned) d' s r w ->
  exists F', relabelled d (rev_pd d' F' none_turned) s r w /\ forall e, e < nedges d -> F' (w e) = F e.
Proof.
  intros d d' s r w F R RL. apply carried_rev in RL; auto. destruct RL as [H1 H2 H3 H4 H5 H6 H7 H8].
  assert (HF : forall e, e < nedges d -> F (inv_on (nedges d) w (w e)) = F e) by (intros e He; rewrite inv_left; auto).
  exists (fun e => F (inv_on (nedges d) w e)). split; auto. constructor; rewrite ?rev_ncross, ?rev_nedges; auto.
  - intros c p e S. apply rev_slot, H6, S.
  - intros c z S. apply H7 in S. exact (rev_sign _ _ none_turned _ _ S).
  - intros e E HE. destruct (H8 e E HE) as (E' & K1 & K2 & K3). exists (turned_edge (fun e => F (inv_on (nedges d) w e)) (w e) E').
    split; [apply rev_edge_at; eauto|]. unfold turned_edge. rewrite HF by (eapply edge_at_lt; eauto). destruct (F e); cbn [flip_edge e_head e_headpos e_tail e_tailpos]; auto.
Qed.

Lemma regenerate_unsigned_records : forall d d', 0 < ncross d -> ncross d <= p_maxv d ->
  ends_in_range d -> each_edge_twice d -> no_edge_across d -> unsigned d ->
  pd_regenerate d = Ok d' ->
  exists es sigma rho pi, let d0 := with_edges (drop_signs d) es in
    ends_recorded d0 /\ goes_through d0 /\ two_ended d0 /\ relabelled d0 d' sigma rho pi /\ regular d' /\ unsigned d' /\
    p_maxv d' = p_maxv d /\ p_uid d' = p_uid d /\ (ncomps d' <= 64 -> pd_ok d' = Ok true).
Proof.
  intros d d' Hn Hm Hr H2 HA HU E.
  unfold pd_regenerate in E. apply bind_ok in E as (d1 & E1 & E).
  destruct (fresh_step d d1 Hn Hr H2 HA (or_introl HU) E1) as (d2 & es & s & r & q & E2 & R & G & T & S & N2 & M2 & U2 & R0 & G0 & T0 & RL).
  rewrite E2 in E. cbn [bind] in E. change (regenerate_rest d2 = Ok d') in E.
  destruct (rest_inv d2 d') as (P & L & HL & LL); auto; try lia.
  destruct (regenerate_rest_ok d2 L) as (x & s' & r' & q' & E' & RL2 & Rg & Nc & Mv & Ui & _ & _ & Ok1); auto; try lia.
  rewrite E in E'. apply ok_inj in E'. subst x.
  pose proof (rl_trans _ _ _ _ _ _ _ _ _ R0 RL RL2) as RT.
  exists es. do 3 eexists. split; auto. split; auto. split; auto. split; [exact RT|]. split; auto. split.
  - apply (relabelled_unsigned _ _ _ _ _ RT). intros c o (x & Hx & <-). cbn in Hx. rewrite nth_error_map in Hx.
    destruct (nth_error (p_cross d) c); [|discriminate]. cbn in Hx. injection Hx as <-. reflexivity.
  - rewrite Mv, Ui. auto.
Qed.

(** For a connected planar diagram without signs pd_regenerate succeeds.  The result is the diagram with some of its
    strands turned around, in another numbering; it has as many components as the diagram has strands. *)
Theorem regenerate_unsigned_planar : forall d L, 0 < ncross d -> ncross d <= p_maxv d ->
  ends_recorded d -> goes_through d -> two_ended d -> unsigned d -> strand_partition d L -> planar d -> connected d ->
  exists d' F sigma rho pi, pd_regenerate d = Ok d' /\ (forall a b, continues d a b -> F a = F b) /\
    relabelled (rev_pd d F none_turned) d' sigma rho pi /\ regular d' /\ unsigned d' /\ ncomps d' = length L /\ p_maxv d' = p_maxv d /\ p_uid d' = p_uid d /\
    (ncomps d' <= 64 -> pd_ok d' = Ok true).
Proof.
  intros d L Hn Hm R G T U HL P CN.
  assert (TW : each_edge_twice d) by (intros e He; apply consistent_count; auto; destruct R; lia).
  assert (NA : no_edge_across d).
  { destruct P as (fs & FP & NF & _). exact (planar_no_edge_across (with_faces d fs) R T FP NF CN). }
  assert (ANY : forall es, let d0 := with_edges (drop_signs d) es in ends_recorded d0 -> goes_through d0 -> two_ended d0 ->
     d0 = rev_pd d (turned_in d es) none_turned /\ (forall a b, continues d a b -> turned_in d es a = turned_in d es b)).
  { intros es d0 R0 G0 T0. unfold d0 in *. rewrite drop_unsigned in * by auto. pose proof (other_records d es R T R0 T0) as Q. split; auto.
    rewrite Q in G0. intros a b. apply turned_strands; auto. }
  assert (FEW : forall d L, ends_recorded d -> goes_through d -> two_ended d -> planar d -> connected d -> 0 < ncross d -> strand_partition d L -> 2 * length L <= ncross d + 2).
  { clear. intros d L R G T (fs & FP & NF & _) CN Hn HL.
    set (d1 := with_comps (with_faces d fs) (map (fun l => mkComp l 0%Z) L)).
    assert (HL1 : strand_partition d1 (map cp_edge (p_comp d1))).
    { cbn [d1 with_comps with_faces p_comp]. rewrite map_map. cbn [cp_edge]. rewrite map_id. exact HL. }
    pose proof (components_few d1 R G T HL1 FP NF CN Hn) as Z. unfold ncomps in Z. cbn [d1 with_comps p_comp] in Z. rewrite map_length in Z. exact Z. }
  destruct (regenerate_unsigned_total d) as (d' & E); auto; [apply recorded_in_range; auto| |].
  { intros es d0 R0 G0 T0. destruct (ANY es R0 G0 T0) as (Q & K). fold d0 in Q.
    assert (PL : planar d0) by (rewrite Q; apply rev_planar; auto). split; auto. intros L' HL'.
    assert (CN0 : connected d0) by (rewrite Q; apply rev_connected; auto).
    assert (NX : ncross d0 = ncross d) by (rewrite Q; apply rev_ncross).
    pose proof (FEW d0 L' R0 G0 T0 PL CN0 ltac:(lia) HL') as Z. unfold MAXCOMPONENTS.
    pose proof (Nat.div_mod (p_maxv d) 2 ltac:(lia)) as Q1. pose proof (Nat.mod_upper_bound (p_maxv d) 2 ltac:(lia)) as Q2. lia. }
  destruct (regenerate_unsigned_records d d') as (es & s & r & q & R0 & G0 & T0 & RL & Rg & U' & M & Ui & OK); auto; [apply recorded_in_range; auto|].
  destruct (ANY es R0 G0 T0) as (Q & K). set (F := turned_in d es) in *. rewrite Q in RL, R0, G0, T0.
  exists d', F, s, r, q. split; auto. split; auto. split; auto. split; auto. split; auto. split; auto.
  pose proof (rev_strands d F R K none_turned L HL) as S1.
  pose proof (relabelled_strand_partition _ _ _ _ _ RL R0 G0 _ S1) as S2.
  pose proof (strand_length d' _ _ (rg_recorded _ Rg) (rg_through _ Rg) S2 (comps_partition d' (rg_comps _ Rg))) as Z.
  rewrite !map_length in Z. unfold ncomps. symmetry. exact Z.
Qed.
Print Assumptions regenerate_unsigned_planar.
