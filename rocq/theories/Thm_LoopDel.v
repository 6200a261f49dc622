(** C32: removing a loop by the first Reidemeister move. *)
From Coq Require Import List ZArith Lia Bool Arith Permutation Sorted Relations.
From Verif Require Import Base Iterators Sorting Orbits Cycles Pd PdSpec PdProofs Relabel RelabelProofs RelabelSym
  Strands SlotCount PdCross PdCrossProofs PdEdges PdComps PdCompsProofs PdFaces PdFacesProofs PdHash HashSpec HashProofs HashIso PdRegen RegenSpec RegenProofs
  Planar PdExamples Thm_Pd Thm_Faces Thm_Comps Thm_Planar OverUnder Compact Thm_Compact Moves MoveSpec MoveProofs
  Thm_LoopAdd Deloop DeloopSpec DeloopProofs DeloopComps.
Import ListNotations.
Open Scope nat_scope.

(** ** a relabelling after the removal *)
Lemma removed_relabelled : forall d o d' c e0 e1 e2 kc ke s r q, ends_recorded d -> loop_removed d o c e0 e1 e2 kc (fun _ => 0) ke -> relabelled o d' s r q ->
  loop_removed d d' c e0 e1 e2 (fun v => s (kc v)) (fun v => r (kc v)) (fun x => q (ke x)).
Proof.
  intros d o d' c e0 e1 e2 kc ke s r q R [N1 N2 LP DF KC KCI KE KEI RH SL SG ED JN] RL.
  pose proof (rl_sigma _ _ _ _ _ RL) as (S1 & S2). pose proof (rl_pi _ _ _ _ _ RL) as (P1 & P2).
  assert (MV : forall v p, p < 4 -> moved kc (fun _ => 0) v p = (kc v, p)).
  { intros v p Hp. unfold moved. f_equal. destruct p as [|[|[|[|?]]]]; cbn; lia. }
  pose proof R as (_ & Rr). constructor; auto.
  - rewrite (rl_ncross _ _ _ _ _ RL). auto.
  - rewrite (rl_nedges _ _ _ _ _ RL). auto.
  - intros v Hv Nv. rewrite (rl_ncross _ _ _ _ _ RL). auto.
  - intros x Hx A B. rewrite (rl_nedges _ _ _ _ _ RL). auto.
  - intros v Hv Nv. apply (rl_rho _ _ _ _ _ RL). auto.
  - intros v p x Nv Sx. pose proof (slot_lt _ _ _ _ Sx) as (_ & Hp). pose proof (SL v p x Nv Sx) as K. rewrite MV in K by auto. cbn [snd] in K.
    apply (rl_slot _ _ _ _ _ RL) in K. exact K.
  - intros v g Nv Sv. apply (rl_sign _ _ _ _ _ RL). auto.
  - intros x X A B C HX. destruct (ED x X A B C HX) as (X' & HX' & Q1 & Q2). destruct (Rr _ _ HX) as (Sh & St). apply slot_lt in Sh, St.
    rewrite MV in Q1, Q2 by tauto. unfold head_slot, tail_slot in Q1, Q2. apply pair_eq in Q1 as (Q1 & Q1'). apply pair_eq in Q2 as (Q2 & Q2').
    destruct (rl_edge _ _ _ _ _ RL _ _ HX') as (X2 & HX2 & Z1 & Z2). exists X2. split; auto. rewrite Z1, Z2, Q1, Q1', Q2, Q2'. auto.
  - intros E0 E2 H0 H2. destruct (JN E0 E2 H0 H2) as (X' & HX' & Q1 & Q2). destruct (Rr _ _ H0) as (_ & St). destruct (Rr _ _ H2) as (Sh & _). apply slot_lt in Sh, St.
    rewrite MV in Q1, Q2 by tauto. unfold head_slot, tail_slot in Q1, Q2. apply pair_eq in Q1 as (Q1 & Q1'). apply pair_eq in Q2 as (Q2 & Q2').
    destruct (rl_edge _ _ _ _ _ RL _ _ HX') as (X2 & HX2 & Z1 & Z2). exists X2. split; auto. rewrite Z1, Z2, Q1, Q1', Q2, Q2'. auto.
Qed.

(** ** the edges found *)
Lemma repeated_some : forall x i, repeated_place x = Some i -> i < 4 /\ cedge x i = cedge x ((i + 1) mod 4).
Proof.
  intros x i H. unfold repeated_place in H. apply find_some in H. destruct H as (I & E). apply in_seq in I. apply Nat.eqb_eq in E. split; [lia|auto].
Qed.
Lemma repeated_none : forall x, repeated_place x = None -> forall i, i < 4 -> cedge x i <> cedge x ((i + 1) mod 4).
Proof.
  intros x H i Hi Q. unfold repeated_place in H. pose proof (find_none _ _ H i) as K. cbv beta in K.
  rewrite Q, Nat.eqb_refl in K. assert (In i (seq 0 4)) as I by (apply in_seq; lia). apply K in I. discriminate.
Qed.
Lemma loop_found : forall d c x p e, ends_recorded d -> goes_through d -> two_ended d -> nth_error (p_cross d) c = Some x ->
  p < 4 -> cedge x p = e -> cedge x ((p + 1) mod 4) = e ->
  exists E, edge_at d e E /\ e_headpos E < 4 /\ e_head E = c /\ cedge x (e_headpos E) = e /\
    loop_here d c (cedge x ((e_tailpos E + 2) mod 4)) e (cedge x ((e_headpos E + 2) mod 4)).
Proof.
  intros d c x p e R G T Hx Hp E1 E2.
  assert (m4 : forall k, k mod 4 < 4) by (intro; apply Nat.mod_upper_bound; lia).
  assert (S1 : slot d c p e) by (split; eauto). assert (S2 : slot d c ((p + 1) mod 4) e) by (split; eauto).
  destruct (slot_edge d c p e R T S1) as (E & HE). exists E. split; auto.
  pose proof (slot_end d c p e E R T S1 HE) as Q1. pose proof (slot_end d c ((p + 1) mod 4) e E R T S2 HE) as Q2.
  assert (PN : (p + 1) mod 4 <> p) by (clear -Hp; destruct p as [|[|[|[|?]]]]; cbn; lia).
  assert (QQ : head_slot E = (c, p) /\ tail_slot E = (c, (p + 1) mod 4) \/ tail_slot E = (c, p) /\ head_slot E = (c, (p + 1) mod 4)).
  { destruct Q1 as [Q1|Q1], Q2 as [Q2|Q2]; rewrite <- Q1 in Q2 || (rewrite <- Q1, <- Q2; auto); apply pair_eq in Q2 as (_ & Q2); congruence. }
  clear Q1 Q2. destruct (G e E HE) as ((f & F & HF & SF & KF) & (g & F' & HG & SG & KG)). pose proof R as (_ & Rr). destruct (Rr _ _ HE) as (SH & ST).
  unfold head_slot, tail_slot in QQ.
  assert (e_head E = c /\ e_tail E = c) as (Ch & Ct).
  { destruct QQ as [(A & B)|(A & B)]; apply pair_eq in A as (A & _); apply pair_eq in B as (B & _); auto. }
  rewrite Ch in *. rewrite Ct in *.
  assert (CS : forall r y, slot d c r y -> y = cedge x r) by (intros r y (_ & z & Hz & <-); rewrite Hx in Hz; injection Hz as <-; auto).
  rewrite (CS _ _ SF) in HF. rewrite (CS _ _ SG) in HG.
  split; [apply slot_lt in SH; tauto|]. split; auto. split; [symmetry; apply CS; exact SH|].
  exists F', E, F, (e_headpos E), (e_tailpos E). split; auto. split; auto. split; auto.
  split; [apply slot_lt in SH; tauto|]. split; [apply slot_lt in ST; tauto|]. split; [exact KG|]. split; [unfold tail_slot; congruence|]. split; [unfold head_slot; congruence|].
  split; [exact KF|]. destruct QQ as [(A & B)|(A & B)]; apply pair_eq in A as (_ & A); apply pair_eq in B as (_ & B); rewrite A, B; auto.
Qed.

Lemma image_kept : forall tbl (f : nat -> nat) e1 e2 n l, (forall x, x < n -> nth x tbl None = if (x =? e1) || (x =? e2) then None else Some (f x)) ->
  (forall x, In x l -> x < n) -> image tbl l = map f (kept_edges e1 e2 l).
Proof.
  intros tbl f e1 e2 n l H. induction l as [|x l IH]; intro HL; [reflexivity|]. unfold image, keep_some, kept_edges in *. cbn [map flat_map filter].
  rewrite H by (apply HL; simpl; auto). destruct ((x =? e1) || (x =? e2)); cbn [negb app map]; rewrite IH by (intros; apply HL; simpl; auto); reflexivity.
Qed.

Lemma comps_lt : forall d, numbered_along d -> forall c e, In c (p_comp d) -> In e (cp_edge c) -> e < nedges d.
Proof.
  intros d (N1 & _) c e Hc He. assert (I : In e (concat (map cp_edge (p_comp d)))) by (apply in_concat; exists (cp_edge c); split; auto; apply in_map; auto).
  rewrite N1 in I. apply in_seq in I. lia.
Qed.
Lemma on_component : forall d, numbered_along d -> forall e, e < nedges d -> on_some_component d e = true.
Proof.
  intros d (N1 & _) e He. assert (I : In e (concat (map cp_edge (p_comp d)))) by (rewrite N1; apply in_seq; lia).
  apply in_concat in I. destruct I as (l & Il & Ie). apply in_map_iff in Il. destruct Il as (k & <- & Hk). unfold on_some_component.
  apply existsb_exists. exists k. split; auto. apply existsb_exists. exists e. split; auto. apply Nat.eqb_refl.
Qed.
Lemma permuted_tags : forall cs cs', Permutation (map cp_tag cs) (map cp_tag cs') ->
  NoDup (map cp_tag cs) /\ (forall t t', In t (map cp_tag cs) -> In t' (map cp_tag cs) -> (t < t')%Z -> (65 <= t')%Z) ->
  NoDup (map cp_tag cs') /\ (forall t t', In t (map cp_tag cs') -> In t' (map cp_tag cs') -> (t < t')%Z -> (65 <= t')%Z).
Proof.
  intros cs cs' P (N & H). split; [eapply Permutation_NoDup; eauto|]. intros t t' A B. apply H; eapply Permutation_in; try (symmetry; exact P); auto.
Qed.

Section Deletion.
Context (d : pd) (W : workable d) (c : nat) (Hc : c < ncross d).

Lemma deletion_found : forall x p e, nth_error (p_cross d) c = Some x -> p < 4 -> cedge x p = e -> cedge x ((p + 1) mod 4) = e -> repeated_place x = Some p ->
  exists e0 e2, loop_here d c e0 e e2 /\
  (e0 = e2 -> pd_R1_loopdeletion d c = if (ncomps d =? 1) && (ncross d =? 1) && (nedges d =? 2) && (nfaces d =? 3) then pd_build_unknot0 else Fail) /\
  (e0 <> e2 -> exists d' kc rho ke, pd_R1_loopdeletion d c = Ok d' /\ loop_removed d d' c e0 e e2 kc rho ke /\ workable d' /\
     Permutation (p_comp d') (map (fun k => mkComp (map ke (kept_edges e e2 (cp_edge k))) (cp_tag k)) (p_comp d)) /\
     crossings_canonical d' /\ pd_ok d' = Ok true /\ p_maxv d' = p_maxv d).
Proof.
  intros x p e Hx Hp E1 E2 RP. destruct W as [Hn Hm R G T NA LC TG FP NF CN].
  destruct (loop_found d c x p e R G T Hx Hp E1 E2) as (E & HE & Lh & Ch & Ce & LH).
  set (e0 := cedge x ((e_tailpos E + 2) mod 4)) in *. set (e2 := cedge x ((e_headpos E + 2) mod 4)) in *. exists e0, e2. split; auto.
  assert (U : pd_R1_loopdeletion d c = if e0 =? e2 then (if (ncomps d =? 1) && (ncross d =? 1) && (nedges d =? 2) && (nfaces d =? 3) then pd_build_unknot0 else Fail)
    else if negb (on_some_component d e0) then Fail else
      bind (loop_cut d c e0 e e2) (fun r => let '(out, new_edge_idx) := r in
        bind (pd_regenerate_crossings out) (fun out => bind (pd_compact_components (p_comp d) out new_edge_idx) (fun out =>
        bind (pd_regenerate_hash out) (fun out => bind (pd_ok out) (fun b =>
          if b then if nfaces out =? nfaces d - 1 then if ncross out =? ncross d - 1 then if nedges out =? nedges d - 2 then Ok out else Fail else Fail else Fail else Fail)))))).
  { unfold pd_R1_loopdeletion. rewrite (proj2 (get_ok _ _ _ _) Hx). cbn [bind]. rewrite RP, E1. unfold edge_at in HE. rewrite (proj2 (get_ok _ _ _ _) HE). cbn [bind].
    destruct (Nat.leb_spec 4 (e_headpos E)); [lia|]. rewrite Ce. reflexivity. }
  rewrite U. clear U. split; intro N02.
  { destruct (Nat.eqb_spec e0 e2); [reflexivity|congruence]. }
  destruct (Nat.eqb_spec e0 e2) as [|_]; [congruence|].
  destruct (loop_cut_ok d c e0 e e2 R T LH N02) as (o & tbl & EC & LR & Lt & Kt & Mo & Uo).
  set (kc := before [c]) in *. set (ke := before [e; e2]) in *.
  assert (L0 : e0 < nedges d).
  { destruct LH as (E0 & _ & _ & _ & _ & H0 & _). eapply edge_at_lt; eauto. }
  rewrite (on_component d NA e0 L0). cbn [negb]. rewrite EC. cbn [bind].
  assert (Ro : ends_recorded o) by (eapply cut_recorded; eauto). assert (To : two_ended o) by (eapply cut_two_ended; eauto).
  assert (Go : goes_through o) by (eapply cut_through; eauto).
  assert (Po : planar o) by (destruct (mono_exists d c e0 e e2 LH) as (om & MS); eapply cut_planar; eauto).
  assert (Co : connected o) by (eapply cut_connected; eauto).
  assert (So : strand_partition o (map (fun l => map ke (filter (kept e e2) l)) (map cp_edge (p_comp d)))).
  { eapply cut_strands_all; eauto. apply comps_partition; auto. }
  destruct (regenerate_spec o (recorded_in_range o Ro)) as (o1 & num & E1o & Ed & _ & _ & _ & RL1 & S1). rewrite E1o. cbn [bind].
  pose proof (rl_ends_recorded _ _ _ _ _ RL1 Ro) as R1. pose proof (rl_two_ended _ _ _ _ _ RL1 Ro To) as T1. pose proof (rl_goes_through _ _ _ _ _ RL1 Ro Go) as G1.
  pose proof (relabelled_planar _ _ _ _ _ RL1 Ro To Po) as P1. pose proof (relabelled_strand_partition _ _ _ _ _ RL1 Ro Go _ So) as SP1.
  assert (No : 0 < ncross o).
  { assert (LT : exists y, y < ncross d /\ y <> c).
    { destruct (loop_facts_gen d c e0 e e2 R T LH N02) as (E0 & E1' & E2' & p' & q' & H0 & H1 & H2 & _ & _ & _ & _ & _ & _ & _ & _ & _ & _ & _ & K0 & _).
      exists (e_tail E0). split; auto. pose proof R as (_ & Rr). destruct (Rr _ _ H0) as (_ & St). apply slot_lt in St. tauto. }
    destruct LT as (y & Hy & Ny). pose proof (lr_kc _ _ _ _ _ _ _ _ _ LR y Hy Ny). lia. }
  assert (IM : map cp_edge (map (image_comp tbl) (p_comp d)) = map (fun l => map ke (filter (kept e e2) l)) (map cp_edge (p_comp d))).
  { rewrite !map_map. apply map_ext_in. intros k Hk. cbn [image_comp cp_edge]. apply (image_kept tbl ke e e2 (nedges d)); auto. intros; eapply comps_lt; eauto. }
  pose proof (rl_ncross _ _ _ _ _ RL1) as Nc1. pose proof (rl_nedges _ _ _ _ _ RL1) as Ne1.
  pose proof (lr_ncross _ _ _ _ _ _ _ _ _ LR) as Nd. pose proof (lr_nedges _ _ _ _ _ _ _ _ _ LR) as Nd2.
  assert (Mv1 : p_maxv o1 = p_maxv d) by (rewrite Ed; exact Mo).
  destruct (compact_components_ok o1 ltac:(lia) ltac:(lia) R1 G1 T1 P1 (p_comp d) tbl) as (o2 & s2 & r2 & q2 & EQ & RL2 & NA2 & PM & CC2 & FP2 & NF2 & LO2 & SO2 & Mv2 & _).
  { intros k y Hk Hy. rewrite Lt. eapply comps_lt; eauto. }
  { rewrite IM. rewrite (map_ext_in _ (fun l => l)) in SP1; [rewrite map_id in SP1; exact SP1|]. intros l _. apply map_id. }
  rewrite EQ. cbn [bind].
  pose proof (rl_ends_recorded _ _ _ _ _ RL2 R1) as R2. pose proof (rl_two_ended _ _ _ _ _ RL2 R1 T1) as T2. pose proof (rl_goes_through _ _ _ _ _ RL2 R1 G1) as G2.
  pose proof (rl_ncross _ _ _ _ _ RL2) as Nc2. pose proof (rl_nedges _ _ _ _ _ RL2) as Ne2.
  assert (Hn2 : 0 < ncross o2) by lia.
  assert (HE2 : pd_edges_ok o2 = Ok true) by (apply edges_ok_spec; auto).
  assert (FD : faced o2) by (apply partition_faced; auto; apply R2).
  unfold pd_regenerate_hash. rewrite (hash_data_ok o2 FD). cbn [bind].
  set (d' := with_hash o2 _).
  assert (PM' : Permutation (p_comp d') (map (fun k => mkComp (map (fun y => q2 (ke y)) (kept_edges e e2 (cp_edge k))) (cp_tag k)) (p_comp d))).
  { change (p_comp d') with (p_comp o2). etransitivity; [exact PM|]. erewrite map_ext_in; [apply Permutation_refl|]. intros k Hk. cbv beta.
    rewrite (image_kept tbl ke e e2 (nedges d)) by (auto; intros; eapply comps_lt; eauto). rewrite map_map. reflexivity. }
  assert (TG' : tags_fine d').
  { unfold tags_fine. apply (permuted_tags (p_comp d)); auto. symmetry. etransitivity; [apply Permutation_map, PM'|]. rewrite map_map. apply Permutation_refl. }
  assert (LC' : ncomps d' = ncomps d).
  { unfold ncomps. rewrite (Permutation_length PM'), map_length. reflexivity. }
  pose proof (rl_trans _ _ _ _ _ _ _ _ _ Ro RL1 RL2) as RL0.
  match type of RL0 with relabelled _ _ ?s ?r ?q => assert (RL : relabelled o d' s r q) by (destruct RL0; constructor; auto) end.
  assert (Md : p_maxv d' = p_maxv d) by (change (p_maxv o2 = p_maxv d); congruence).
  assert (OK : pd_ok d' = Ok true).
  { unfold pd_ok. rewrite !and_ok_true. split; [|split; [|split]].
    - apply consistent_cross_ok; auto. apply CC2.
    - exact HE2.
    - apply (faces_ok_spec d'); auto. split; [change (nfaces o2 <= p_maxv o2 + 2); lia|]. split; [|exact SO2].
      intros f Hf. destruct FP2 as (P4 & P5 & P6). destruct (P4 f Hf) as (K1 & K2). split; auto. split; [|split; auto].
      + intros a Ha. apply P6. apply in_concat. eauto.
      + rewrite Forall_forall in LO2. auto.
    - apply (comps_ok_spec d'); auto. destruct NA2 as (Z1 & Z2 & Z3). split; [rewrite LC'; unfold MAXCOMPONENTS in *; rewrite Md; exact LC|]. split; [exact Z1|]. split; [intros; apply Z2; auto|]. exact TG'. }
  rewrite OK. cbn [bind]. change (nfaces d') with (nfaces o2). change (ncross d') with (ncross o2). change (nedges d') with (nedges o2).
  destruct (Nat.eqb_spec (nfaces o2) (nfaces d - 1)); [|lia]. destruct (Nat.eqb_spec (ncross o2) (ncross d - 1)); [|lia]. destruct (Nat.eqb_spec (nedges o2) (nedges d - 2)); [|lia].
  eexists d', _, _, _. split; [reflexivity|]. split; [exact (removed_relabelled _ _ _ _ _ _ _ _ _ _ _ _ R LR RL)|]. split.
  - constructor; auto.
    + change (ncross o2 <= p_maxv o2). lia.
    + rewrite LC'. unfold MAXCOMPONENTS in *. rewrite Md. exact LC.
    + eapply relabelled_connected; [exact RL|exact Co].
  - split; [exact PM'|]. split; [exact CC2|]. split; [exact OK|exact Md].
Qed.
End Deletion.

Lemma loop_alone : forall d c e1 e0, ends_recorded d -> two_ended d -> connected d -> loop_here d c e0 e1 e0 -> ncross d = 1.
Proof.
  intros d c e1 e0 R T CN (E0 & E1 & E2 & p & q & H0 & H1 & H2 & Hp & Hq & A0 & A1 & B1 & A2 & Hpq).
  unfold edge_at in H0, H2. rewrite H0 in H2. injection H2 as <-. pose proof R as (_ & Rr). destruct (Rr _ _ H0) as (S0 & T0). destruct (Rr _ _ H1) as (S1 & T1).
  pose proof (slot_lt _ _ _ _ S0) as (Hc & _). unfold head_slot, tail_slot in *.
  apply pair_eq in A0 as (A0 & A0'). apply pair_eq in A1 as (A1 & A1'). apply pair_eq in B1 as (B1 & B1'). apply pair_eq in A2 as (A2 & A2').
  rewrite A0 in *. rewrite A1 in *. rewrite A2 in *. rewrite B1 in *. rewrite A0' in *. rewrite A1' in *. rewrite A2' in *. rewrite B1' in *.
  assert (AC : forall r x, slot d c r x -> x = e1 \/ x = e0).
  { intros r x S. pose proof (slot_lt _ _ _ _ S) as (_ & Hr).
    assert (r = p \/ r = q \/ r = (q + 2) mod 4 \/ r = (p + 2) mod 4) as Q.
    { clear -Hp Hq Hpq Hr. destruct p as [|[|[|[|?]]]], q as [|[|[|[|?]]]], r as [|[|[|[|?]]]]; cbn in *; lia. }
    destruct Q as [-> |[-> |[-> | ->]]].
    - left. exact (slot_fun _ _ _ _ _ S S1).
    - left. exact (slot_fun _ _ _ _ _ S T1).
    - right. exact (slot_fun _ _ _ _ _ S S0).
    - right. exact (slot_fun _ _ _ _ _ S T0). }
  assert (J : forall u v, joined d u v -> u = c -> v = c).
  { intros u v (x & r & r' & Su & Sv) ->. destruct (AC _ _ Su) as [-> | ->].
    - destruct (slot_end d v r' e1 E1 R T Sv H1) as [Q|Q]; unfold head_slot, tail_slot in Q; apply pair_eq in Q as (-> & _); auto.
    - destruct (slot_end d v r' e0 E0 R T Sv H0) as [Q|Q]; unfold head_slot, tail_slot in Q; apply pair_eq in Q as (-> & _); auto. }
  assert (JJ : forall u v, clos_refl_trans nat (joined d) u v -> u = c -> v = c) by (intros u v K; induction K; eauto).
  destruct (Nat.eq_dec (ncross d) 1) as [|N]; auto. exfalso.
  assert (Z : exists w, w < ncross d /\ w <> c) by (destruct (Nat.eq_dec c 0); [exists 1|exists 0]; lia). destruct Z as (w & Hw & Nw).
  apply Nw. apply (JJ c w); auto.
Qed.

(** For every connected planar diagram with consistent records and at least two crossings, and every crossing whose
    neighbouring places p and p+1 hold the same edge e, the function succeeds.  The result is the diagram without
    that crossing and without e, in which the edge into the loop ends where the edge out of it ended.  Nothing
    else changes but the numbering: the components keep their edges and tags.  The result again
    meets the hypotheses, has one face fewer, and passes the checks. *)
Theorem loop_deletion : forall d c p e, workable d -> 1 < ncross d -> slot d c p e -> slot d c ((p + 1) mod 4) e ->
  exists d' e0 e2 kc rho ke, pd_R1_loopdeletion d c = Ok d' /\ loop_removed d d' c e0 e e2 kc rho ke /\ workable d' /\
    Permutation (p_comp d') (map (fun k => mkComp (map ke (kept_edges e e2 (cp_edge k))) (cp_tag k)) (p_comp d)) /\
    crossings_canonical d' /\ pd_ok d' = Ok true /\ p_maxv d' = p_maxv d.
Proof.
  intros d c p e W N1 S1 S2. pose proof (slot_lt _ _ _ _ S1) as (Hc & Hp). pose proof (wk_recorded d W) as R. pose proof (wk_ends d W) as T.
  pose proof S1 as (_ & x & Hx & E1). destruct S2 as (_ & x' & Hx' & E2). rewrite Hx in Hx'. injection Hx' as <-.
  destruct (repeated_place x) as [i|] eqn:RP.
  2:{ exfalso. apply (repeated_none x RP p Hp). congruence. }
  destruct (repeated_some x i RP) as (Hi & Ei).
  destruct (deletion_found d W c Hc x i (cedge x i) Hx Hi eq_refl (eq_sym Ei) RP) as (e0 & e2 & LH & _ & D).
  assert (N02 : e0 <> e2).
  { intros <-. pose proof (loop_alone d c _ e0 R T (wk_connected d W) LH). lia. }
  assert (cedge x i = e) as <-.
  { destruct (loop_facts_gen d c e0 _ e2 R T LH N02) as (F0 & F1 & F2 & a & b & H0 & H1 & H2 & Ha & Hb & _ & _ & _ & _ & Hab & N01 & N12 & _ & AC & _).
    assert (m4 : (p + 1) mod 4 < 4) by (apply Nat.mod_upper_bound; lia).
    assert (S2 : slot d c ((p + 1) mod 4) e) by (split; eauto).
    assert (PN : (p + 1) mod 4 <> p) by (clear -Hp; destruct p as [|[|[|[|?]]]]; cbn; lia).
    destruct (AC _ _ S1) as [(_ & ->)|[(Q1 & ->)|(Q1 & ->)]]; auto; destruct (AC _ _ S2) as [(_ & Q2)|[(Q2 & Q3)|(Q2 & Q3)]]; congruence. }
  destruct (D N02) as (d' & kc & rho & ke & K). exists d', e0, e2, kc, rho, ke. exact K.
Qed.
Print Assumptions loop_deletion.

(** The diagram with one crossing becomes the unknot without crossings. *)
Theorem loop_deletion_last : forall d c p e, workable d -> ncross d = 1 -> slot d c p e -> slot d c ((p + 1) mod 4) e ->
  pd_R1_loopdeletion d c = pd_build_unknot0 /\ exists u, pd_build_unknot0 = Ok u /\ ncross u = 0.
Proof.
  intros d c p e W N1 S1 S2. split; [|eexists; split; [vm_compute; reflexivity|reflexivity]].
  pose proof (slot_lt _ _ _ _ S1) as (Hc & Hp). pose proof (wk_recorded d W) as R. pose proof (wk_ends d W) as T.
  pose proof S1 as (_ & x & Hx & E1). destruct S2 as (_ & x' & Hx' & E2). rewrite Hx in Hx'. injection Hx' as <-.
  destruct (repeated_place x) as [i|] eqn:RP.
  2:{ exfalso. apply (repeated_none x RP p Hp). congruence. }
  destruct (repeated_some x i RP) as (Hi & Ei).
  destruct (deletion_found d W c Hc x i (cedge x i) Hx Hi eq_refl (eq_sym Ei) RP) as (e0 & e2 & LH & D & _).
  pose proof R as (Ne & _). rewrite N1 in Ne.
  assert (e0 = e2) as <-.
  { destruct (Nat.eq_dec e0 e2) as [|N02]; auto. exfalso.
    destruct (loop_facts_gen d c e0 _ e2 R T LH N02) as (F0 & F1 & F2 & a & b & H0 & H1 & H2 & Ha & Hb & _ & _ & _ & _ & Hab & N01 & N12 & _).
    apply edge_at_lt in H0, H1, H2. rewrite Ne in H0, H1, H2. lia. }
  rewrite D by auto. assert (Nf : nfaces d = 3) by (rewrite (wk_nfaces d W), N1; reflexivity).
  assert (Nc : ncomps d = 1).
  { destruct LH as (F0 & F1 & F2 & a & b & H0 & H1 & H2 & Ha & Hb & A0 & A1 & B1 & A2 & Hab).
    unfold edge_at in H0, H2. rewrite H0 in H2. injection H2 as <-. set (e1 := cedge x i) in *.
    unfold head_slot, tail_slot in *. apply pair_eq in A0 as (A0 & A0'). apply pair_eq in A1 as (A1 & A1'). apply pair_eq in B1 as (B1 & B1'). apply pair_eq in A2 as (A2 & A2').
    assert (N01 : e0 <> e1).
    { intro Q. rewrite Q in H0. unfold edge_at in H1. rewrite H0 in H1. injection H1 as <-. rewrite B1' in A0'. clear -Ha Hb Hab A0'.
      destruct a as [|[|[|[|?]]]], b as [|[|[|[|?]]]]; cbn in *; lia. }
    pose proof (edge_at_lt _ _ _ H0) as L0. pose proof (edge_at_lt _ _ _ H1) as L1. rewrite Ne in L0, L1.
    assert (C01 : continues d e0 e1).
    { exists F0, F1. split; auto. split; auto. rewrite A0, A0', A1, A1'. split; auto. symmetry. clear -Hb. destruct b as [|[|[|[|?]]]]; cbn; lia. }
    assert (C10 : continues d e1 e0).
    { exists F1, F0. split; auto. split; auto. rewrite A2, A2', B1, B1'. auto. }
    assert (SP : strand_partition d [[e0; e1]]).
    { split; [|split].
      - intros l [<-|[]]. split; [discriminate|]. intros j y z. destruct j as [|[|j]]; cbn; intros Hy Hz; [| |destruct j; discriminate].
        + injection Hy as <-. injection Hz as <-. auto.
        + injection Hy as <-. injection Hz as <-. auto.
      - cbn. repeat constructor; simpl; intuition.
      - intro y. rewrite Ne. cbn. split; [intros [<-|[<-|[]]]; lia|]. intro. lia. }
    pose proof (strand_length d _ _ R (wk_through d W) (comps_partition d (wk_comps d W)) SP) as Q. rewrite map_length in Q. exact Q. }
  rewrite Nc, N1, Nf, Ne. reflexivity.
Qed.
Print Assumptions loop_deletion_last.

(** At a crossing without a loop the program stops. *)
Theorem loop_deletion_none : forall d c, c < ncross d -> (forall p e, slot d c p e -> ~ slot d c ((p + 1) mod 4) e) -> pd_R1_loopdeletion d c = Fail.
Proof.
  intros d c Hc H. unfold pd_R1_loopdeletion. destruct (nth_error (p_cross d) c) as [x|] eqn:X; [|apply nth_error_None in X; unfold ncross in Hc; lia].
  rewrite (proj2 (get_ok _ _ _ _) X). cbn [bind]. destruct (repeated_place x) as [i|] eqn:RP; [|reflexivity]. exfalso.
  destruct (repeated_some x i RP) as (Hi & Ei). apply (H i (cedge x i)); [split; eauto|]. split; [apply Nat.mod_upper_bound; lia|eauto].
Qed.
Print Assumptions loop_deletion_none.

(** Every accepted diagram with all its faces, whose components are not empty and in order of length, meets the hypotheses. *)
Theorem accepted_workable : forall d, 0 < ncross d -> ncross d <= p_maxv d -> pd_ok d = Ok true -> two_ended d ->
  (forall c, In c (p_comp d) -> cp_edge c <> []) -> comps_sorted d -> face_partition d (p_face d) -> nfaces d = ncross d + 2 -> connected d -> workable d.
Proof.
  intros d Hn Hm OK T NE CS FP NF CN. unfold pd_ok in OK. rewrite !and_ok_true in OK. destruct OK as (_ & HE & _ & HC).
  apply edges_ok_spec in HE as (R & G); auto. apply comps_ok_spec in HC; auto. destruct HC as (C1 & C2 & C3 & C4).
  constructor; auto. split; auto.
Qed.
Print Assumptions accepted_workable.

(** the trefoil with a loop on one of its edges *)
Definition curly_trefoil : pd := mkPd 5 0 [32]
  [mkEdge 1 0 0 0; mkEdge 2 0 1 2; mkEdge 0 1 2 2; mkEdge 3 0 0 3; mkEdge 3 3 3 2; mkEdge 1 1 3 1; mkEdge 2 3 1 3; mkEdge 0 2 2 1]
  [mkCross 0 2 7 3 Pos; mkCross 0 5 1 6 Pos; mkCross 1 7 2 6 Pos; mkCross 3 5 4 4 Unset]
  [mkComp [0; 1; 2; 3; 4; 5; 6; 7] 65%Z]
  [[(0, Neg); (3, Pos); (4, Neg); (5, Pos)]; [(1, Neg); (5, Neg); (3, Neg); (7, Neg)]; [(0, Pos); (6, Pos); (2, Pos)];
   [(1, Pos); (6, Neg)]; [(2, Neg); (7, Pos)]; [(4, Pos)]].
Example curly_workable : workable curly_trefoil.
Proof.
  assert (T : two_ended curly_trefoil).
  { intros e E HE. unfold edge_at in HE. do 8 (destruct e as [|e]; [injection HE as <-; discriminate|]). destruct e; discriminate. }
  assert (EO : pd_edges_ok curly_trefoil = Ok true) by reflexivity.
  apply accepted_workable; auto; try (cbn; lia).
  - intros c [<-|[]]. discriminate.
  - repeat constructor.
  - destruct (regenerate_faces_correct curly_trefoil ltac:(cbn; lia) EO T) as [K|(d' & K & _ & FP & _)]; vm_compute in K; [discriminate|].
    injection K as <-. exact FP.
  - assert (J : forall u v, joined curly_trefoil u v -> clos_refl_trans nat (joined curly_trefoil) u v /\ clos_refl_trans nat (joined curly_trefoil) v u).
    { intros u v (e & p & q & A & B). split; apply rt_step; [exists e, p, q|exists e, q, p]; auto. }
    assert (J01 : joined curly_trefoil 0 1) by (exists 0, 0, 0; split; (split; [lia|eexists; split; reflexivity])).
    assert (J02 : joined curly_trefoil 0 2) by (exists 2, 1, 2; split; (split; [lia|eexists; split; reflexivity])).
    assert (J03 : joined curly_trefoil 0 3) by (exists 3, 3, 0; split; (split; [lia|eexists; split; reflexivity])).
    assert (A : forall v, v < 4 -> clos_refl_trans nat (joined curly_trefoil) 0 v /\ clos_refl_trans nat (joined curly_trefoil) v 0).
    { intros v Hv. destruct v as [|[|[|[|v]]]]; [split; apply rt_refl|apply J; auto|apply J; auto|apply J; auto|lia]. }
    intros u v Hu Hv. destruct (A u Hu) as (_ & A1). destruct (A v Hv) as (A2 & _). eapply rt_trans; eauto.
Qed.
Example curly_loop : slot curly_trefoil 3 2 4 /\ slot curly_trefoil 3 ((2 + 1) mod 4) 4 /\
  exists d', pd_R1_loopdeletion curly_trefoil 3 = Ok d' /\ p_cross d' = p_cross trefoil /\ p_face d' = p_face trefoil.
Proof.
  split; [split; [lia|eexists; split; reflexivity]|]. split; [split; [cbn; lia|eexists; split; reflexivity]|].
  eexists. split; [vm_compute; reflexivity|]. split; reflexivity.
Qed.
