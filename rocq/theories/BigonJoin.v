(** Finishing the diagram from which the crossings of a bigon have been cut. *)
From Coq Require Import List ZArith Lia Bool Arith Permutation Sorted Relations.
From Verif Require Import Base Iterators Sorting Orbits Cycles Pd PdSpec PdProofs Relabel RelabelProofs RelabelSym
  Strands SlotCount PdCross PdCrossProofs PdEdges PdComps PdCompsProofs PdFaces PdFacesProofs PdHash HashSpec HashProofs HashIso PdRegen RegenSpec RegenProofs
  Planar PdExamples Thm_Pd Thm_Faces Thm_Comps Thm_Planar OverUnder Compact Thm_Compact Moves MoveSpec MoveProofs
  Thm_LoopAdd Deloop DeloopSpec DeloopProofs DeloopComps Thm_LoopDel Bigon RemoveSpec RemoveProofs.
Import ListNotations.
Open Scope nat_scope.

Lemma gone_relabelled : forall d o d' gone kc ke s r q, ends_recorded d -> ends_recorded d' -> crossings_removed d o gone kc (fun _ => 0) ke -> relabelled o d' s r q ->
  crossings_removed d d' gone (fun v => s (kc v)) (fun v => r (kc v)) (fun x => q (ke x)).
Proof.
  intros d o d' gone kc ke s r q R R' [ND GN NC RO KC KCI RH KEI SG EN ED] RL.
  pose proof (rl_sigma _ _ _ _ _ RL) as (S1 & S2). pose proof (rl_pi _ _ _ _ _ RL) as (P1 & P2).
  assert (MV : forall v p, p < 4 -> moved kc (fun _ => 0) v p = (kc v, p)).
  { intros v p Hp. unfold moved. f_equal. destruct p as [|[|[|[|?]]]]; cbn; lia. }
  pose proof R as (_ & Rr). constructor; auto.
  - rewrite (rl_ncross _ _ _ _ _ RL). auto.
  - intros v Hv Nv. rewrite (rl_ncross _ _ _ _ _ RL). auto.
  - intros v Hv Nv. apply (rl_rho _ _ _ _ _ RL). auto.
  - intros x X y Y HX KX HY KY Q. apply (KEI x X y Y); auto.
    assert (LE : forall z Z, edge_at d z Z -> ~ In (e_tail Z) gone -> ke z < nedges o).
    { intros z Z HZ KZ. destruct (EN z Z HZ KZ) as (w & W & L & HW & KW). destruct (ED z Z w W HZ KZ L HW KW) as (Z' & HZ' & _). eapply edge_at_lt; eauto. }
    apply P2; auto; eapply LE; eauto.
  - intros v g Nv Sv. apply (rl_sign _ _ _ _ _ RL). auto.
  - intros x X y Y HX KX L HY KY. destruct (ED x X y Y HX KX L HY KY) as (X' & HX' & Q1 & Q2). destruct (Rr _ _ HX) as (_ & St). destruct (Rr _ _ HY) as (Sh & _). apply slot_lt in Sh, St.
    rewrite MV in Q1, Q2 by tauto. unfold head_slot, tail_slot in Q1, Q2. apply pair_eq in Q1 as (Q1 & Q1'). apply pair_eq in Q2 as (Q2 & Q2').
    destruct (rl_edge _ _ _ _ _ RL _ _ HX') as (X2 & HX2 & Z1 & Z2). exists X2. split; auto. rewrite Z1, Z2, Q1, Q1', Q2, Q2'. auto.
Qed.

Lemma image_stays : forall tbl (f : nat -> nat) ge n l, (forall x, x < n -> nth x tbl None = if in_dec Nat.eq_dec x ge then None else Some (f x)) ->
  (forall x, In x l -> x < n) -> image tbl l = map f (filter (stays ge) l).
Proof.
  intros tbl f ge n l H. induction l as [|x l IH]; intro HL; [reflexivity|]. unfold image, keep_some, stays in *. cbn [map flat_map filter].
  rewrite H by (apply HL; simpl; auto). destruct (in_dec Nat.eq_dec x ge); cbn [app map]; rewrite IH by (intros; apply HL; simpl; auto); reflexivity.
Qed.

Section Finish.
Context (d : pd) (W : workable d) (s : strands) (o : pd) (tbl : list (option nat)) (kc ke : nat -> nat).
Notation gone := [s_c0 s; s_c1 s].
Notation ge := [a1 s; a2 s; b1 s; b2 s].
Context (EC : cut_out d gone ge (bigon_seams s) = Ok (o, tbl)) (CR : crossings_removed d o gone kc (fun _ => 0) ke).
Context (Lt : length tbl = nedges d) (Kt : forall x, x < nedges d -> nth x tbl None = if in_dec Nat.eq_dec x ge then None else Some (ke x)).
Context (Mo : p_maxv o = p_maxv d) (Ro : ends_recorded o) (To : two_ended o) (Go : goes_through o) (Co : connected o) (Po : planar o).
Context (SPo : forall L, strand_partition d L -> strand_partition o (map (fun l => map ke (filter (stays ge) l)) L)) (N2 : 2 < ncross d).

Lemma joined_done : exists d' kc rho ke, bigon_joined d s = Ok [d'] /\ crossings_removed d d' gone kc rho ke /\ workable d' /\
  Permutation (p_comp d') (map (fun k => mkComp (map ke (filter (stays ge) (cp_edge k))) (cp_tag k)) (p_comp d)) /\
  crossings_canonical d' /\ pd_ok d' = Ok true /\ p_maxv d' = p_maxv d.
Proof.
  destruct W as [Hn Hm R G T NA LC TG FP NF CN]. unfold bigon_joined. rewrite EC. cbn [bind].
  pose proof (cr_ncross _ _ _ _ _ _ CR) as Nd. cbn [length] in Nd.
  assert (So : strand_partition o (map (fun l => map ke (filter (stays ge) l)) (map cp_edge (p_comp d)))) by (apply SPo, comps_partition; auto).
  destruct (regenerate_spec o (recorded_in_range o Ro)) as (o1 & num & E1o & Ed & _ & _ & _ & RL1 & S1). rewrite E1o. cbn [bind].
  pose proof (rl_ends_recorded _ _ _ _ _ RL1 Ro) as R1. pose proof (rl_two_ended _ _ _ _ _ RL1 Ro To) as T1. pose proof (rl_goes_through _ _ _ _ _ RL1 Ro Go) as G1.
  pose proof (relabelled_planar _ _ _ _ _ RL1 Ro To Po) as P1. pose proof (relabelled_strand_partition _ _ _ _ _ RL1 Ro Go _ So) as SP1.
  assert (IM : map cp_edge (map (image_comp tbl) (p_comp d)) = map (fun l => map ke (filter (stays ge) l)) (map cp_edge (p_comp d))).
  { rewrite !map_map. apply map_ext_in. intros k Hk. cbn [image_comp cp_edge]. apply (image_stays tbl ke ge (nedges d)); auto. intros; eapply comps_lt; eauto. }
  pose proof (rl_ncross _ _ _ _ _ RL1) as Nc1. pose proof (rl_nedges _ _ _ _ _ RL1) as Ne1.
  assert (Mv1 : p_maxv o1 = p_maxv d) by (rewrite Ed; exact Mo).
  destruct (compact_components_ok o1 ltac:(lia) ltac:(lia) R1 G1 T1 P1 (p_comp d) tbl) as (o2 & s2 & r2 & q2 & EQ & RL2 & NA2 & PM & CC2 & _ & _ & _ & _ & Mv2 & _).
  { intros k y Hk Hy. rewrite Lt. eapply comps_lt; eauto. }
  { rewrite IM. rewrite (map_ext_in _ (fun l => l)) in SP1; [rewrite map_id in SP1; exact SP1|]. intros l _. apply map_id. }
  rewrite EQ. cbn [bind].
  pose proof (rl_ends_recorded _ _ _ _ _ RL2 R1) as R2. pose proof (rl_two_ended _ _ _ _ _ RL2 R1 T1) as T2. pose proof (rl_goes_through _ _ _ _ _ RL2 R1 G1) as G2.
  pose proof (rl_ncross _ _ _ _ _ RL2) as Nc2. pose proof (rl_nedges _ _ _ _ _ RL2) as Ne2.
  assert (Hn2 : 0 < ncross o2) by lia.
  assert (HE2 : pd_edges_ok o2 = Ok true) by (apply edges_ok_spec; auto).
  destruct (relabelled_planar o1 o2 _ _ _ RL2 R1 T1 P1) as (fs & F1 & F2 & F3).
  destruct (Thm_Faces.loop_cases o2 Hn2 HE2 T2) as [(gs & E4 & FP3 & NF3 & M4 & LO3 & B4 & SO3)|(_ & X)].
  2:{ exfalso. apply (X fs); auto. unfold MAXFACES. lia. }
  rewrite E4. cbn [bind]. set (o3 := with_faces o2 gs) in *.
  assert (FD : faced o3) by (apply partition_faced; auto; apply R2).
  unfold pd_regenerate_hash. rewrite (hash_data_ok o3 FD). cbn [bind].
  set (d' := with_hash o3 _).
  assert (PM' : Permutation (p_comp d') (map (fun k => mkComp (map (fun y => q2 (ke y)) (filter (stays ge) (cp_edge k))) (cp_tag k)) (p_comp d))).
  { change (p_comp d') with (p_comp o2). etransitivity; [exact PM|]. erewrite map_ext_in; [apply Permutation_refl|]. intros k Hk. cbv beta.
    rewrite (image_stays tbl ke ge (nedges d)) by (auto; intros; eapply comps_lt; eauto). rewrite map_map. reflexivity. }
  assert (TG' : tags_fine d').
  { unfold tags_fine. apply (permuted_tags (p_comp d)); auto. symmetry. etransitivity; [apply Permutation_map, PM'|]. rewrite map_map. apply Permutation_refl. }
  assert (LC' : ncomps d' = ncomps d).
  { unfold ncomps. rewrite (Permutation_length PM'), map_length. reflexivity. }
  pose proof (rl_trans _ _ _ _ _ _ _ _ _ Ro RL1 RL2) as RL0.
  match type of RL0 with relabelled _ _ ?s ?r ?q => assert (RL : relabelled o d' s r q) by (destruct RL0; constructor; auto) end.
  assert (Md : p_maxv d' = p_maxv d) by (change (p_maxv o2 = p_maxv d); congruence).
  assert (NF3' : nfaces d' = ncross o2 + 2) by exact NF3.
  assert (OK : pd_ok d' = Ok true).
  { unfold pd_ok. rewrite !and_ok_true. split; [|split; [|split]].
    - apply consistent_cross_ok; auto. apply CC2.
    - exact HE2.
    - apply (faces_ok_spec d'); auto. split; [unfold MAXFACES; rewrite Md; lia|]. split; [|exact SO3].
      intros f Hf. destruct FP3 as (P4 & P5 & P6). destruct (P4 f Hf) as (K1 & K2). split; auto. split; [|split; auto].
      + intros a Ha. apply P6. apply in_concat. eauto.
      + rewrite Forall_forall in LO3. auto.
    - apply (comps_ok_spec d'); auto. destruct NA2 as (Z1 & Z2 & Z3). split; [rewrite LC'; unfold MAXCOMPONENTS in *; rewrite Md; exact LC|]. split; [exact Z1|]. split; [intros; apply Z2; auto|]. exact TG'. }
  rewrite OK. cbn [bind]. pose proof R as (Nd2 & _). pose proof R2 as (Nd3 & _). change (ncross d') with (ncross o2). change (nedges d') with (nedges o2).
  destruct (Nat.eqb_spec (nfaces d') (nfaces d - 2)); [|lia]. destruct (Nat.eqb_spec (ncross o2) (ncross d - 2)); [|lia]. destruct (Nat.eqb_spec (nedges o2) (nedges d - 4)); [|lia].
  eexists d', _, _, _. split; [reflexivity|]. split; [exact (gone_relabelled _ _ d' _ _ _ _ _ _ R R2 CR RL)|]. split.
  - constructor; auto.
    + rewrite Md. change (ncross o2 <= p_maxv d). lia.
    + rewrite LC'. unfold MAXCOMPONENTS in *. rewrite Md. exact LC.
    + eapply relabelled_connected; [exact RL|exact Co].
  - split; [exact PM'|]. split; [exact CC2|]. split; [exact OK|exact Md].
Qed.
End Finish.
