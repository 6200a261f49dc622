(** pd_compact_components, and the cutting out of a loop. *)
From Coq Require Import List ZArith Lia Bool Arith Permutation Sorted Relations.
From Verif Require Import Base Iterators Sorting Orbits Cycles Pd PdSpec PdProofs Relabel RelabelProofs RelabelSym
  Strands SlotCount PdCross PdCrossProofs PdEdges PdEdgesProofs PdComps PdCompsProofs PdFaces PdFacesProofs PdHash HashSpec
  HashProofs PdRegen RegenSpec RegenProofs Planar Thm_Pd Thm_Cross Thm_Faces Thm_Comps OverUnder Compact Thm_Compact Moves MoveSpec MoveProofs
  Thm_LoopAdd CycleSurgery Deloop DeloopSpec DeloopProofs.
From Verif Require Perm.
Import ListNotations.
Open Scope nat_scope.

Lemma relabelled_connected : forall d d' sigma rho pi, relabelled d d' sigma rho pi -> connected d -> connected d'.
Proof.
  intros d d' s r q RL CN v v' Hv Hv'. rewrite (rl_ncross _ _ _ _ _ RL) in Hv, Hv'.
  destruct (bij_surj _ _ _ (rl_sigma _ _ _ _ _ RL) Hv) as (w & Hw & <-). destruct (bij_surj _ _ _ (rl_sigma _ _ _ _ _ RL) Hv') as (w' & Hw' & <-).
  specialize (CN w w' Hw Hw'). clear -RL CN. induction CN as [a b (e & p & p' & S1 & S2)|a|a b c _ IH1 _ IH2].
  - apply rt_step. exists (q e). do 2 eexists. split; eapply rl_slot; eauto.
  - apply rt_refl.
  - eapply rt_trans; eauto.
Qed.

(** the entries that are set *)
Definition keep_some (l : list (option nat)) : list nat := flat_map (fun o => match o with Some x => [x] | None => [] end) l.
Lemma map_ok_index : forall l, map_ok index (filter (fun o => match o with Some _ => true | None => false end) l) = Ok (keep_some l).
Proof.
  induction l as [|[x|] l IH]; [reflexivity| |exact IH]. cbn [filter map_ok index bind keep_some flat_map app]. rewrite IH. reflexivity.
Qed.

Section CC.
Context (o : pd) (Hn : 0 < ncross o) (Hm : ncross o <= p_maxv o) (R : ends_recorded o) (G : goes_through o) (T : two_ended o) (P : planar o).
Context (comps : list component) (tbl : list (option nat)).
Definition image (l : list nat) : list nat := keep_some (map (fun x => nth x tbl None) l).
Definition image_comp (c : component) : component := mkComp (image (cp_edge c)) (cp_tag c).
Context (Ht : forall c e, In c comps -> In e (cp_edge c) -> e < length tbl).
Context (HS : strand_partition o (map cp_edge (map image_comp comps))).

Lemma compacted_ok : map_ok (compacted_comp tbl) comps = Ok (map image_comp comps).
Proof.
  apply PdCrossProofs.map_ok_map. intros c Hc. unfold compacted_comp. rewrite transform_and_compact by (intros; eapply Ht; eauto). cbn [bind].
  rewrite map_ok_index. reflexivity.
Qed.
Lemma until_empty_id : forall l, (forall c, In c l -> cp_edge c <> []) -> until_empty l = l.
Proof.
  induction l as [|c l IH]; intro H; [reflexivity|]. cbn [until_empty]. pose proof (H c (or_introl eq_refl)). destruct (cp_edge c); [congruence|].
  rewrite IH; auto. intros; apply H; simpl; auto.
Qed.

Lemma compact_components_ok : exists d' sigma rho pi, pd_compact_components comps o tbl = Ok d' /\ relabelled o d' sigma rho pi /\
  numbered_along d' /\ Permutation (p_comp d') (map (fun c => mkComp (map pi (image (cp_edge c))) (cp_tag c)) comps) /\
  crossings_canonical d' /\ face_partition d' (p_face d') /\ nfaces d' = ncross d' + 2 /\ Forall starts_low (p_face d') /\ faces_sorted d' /\
  p_maxv d' = p_maxv o /\ p_uid d' = p_uid o.
Proof.
  unfold pd_compact_components. rewrite compacted_ok. cbn [bind]. change (fun a b : component => not_gt (pd_component_cmp a b)) with comp_le.
  set (cs := isort comp_le (map image_comp comps)).
  assert (PC : Permutation cs (map image_comp comps)) by apply isort_perm.
  assert (NE : forall c, In c cs -> cp_edge c <> [] /\ cyclically (continues o) (cp_edge c)).
  { intros c Hc. apply (Permutation_in _ PC) in Hc. destruct HS as (S1 & _). apply S1, in_map. exact Hc. }
  rewrite until_empty_id by (intros; apply NE; auto). set (old := concat (map cp_edge cs)).
  assert (Hp : Permutation old (seq 0 (nedges o))).
  { etransitivity; [apply concat_perm, Permutation_map, PC|]. destruct HS as (_ & N & I). apply NoDup_Permutation; auto using seq_NoDup.
    intro x. rewrite I, in_seq. lia. }
  pose proof (old_length o old Hp) as Ol. destruct (Nat.ltb_spec (nedges o) (length old)); [lia|].
  destruct (renum_ok o old Hp) as (num & E & Ln & K1 & K2). rewrite E. cbn [bind].
  assert (Hb : forall c p e, slot o c p e -> e < nedges o) by (intros c p e S; destruct (slot_edge o c p e R T S) as (X & HX); eapply edge_at_lt; eauto).
  rewrite (reorder_ok o old Hp), (rename_ok o Hb num Ln). cbn [bind].
  set (cs' := map (fun c => mkComp (map (fun e => nth e num 0) (cp_edge c)) (cp_tag c)) cs).
  assert (EC : map_ok (rename_comp num) cs = Ok cs').
  { apply PdCrossProofs.map_ok_map. intros c Hc. unfold rename_comp.
    rewrite (PdCrossProofs.map_ok_map _ _ (get num) (fun e => nth e num 0)); [reflexivity|]. intros e He. apply get_nth. rewrite Ln.
    assert (I : In e old) by (apply in_concat; exists (cp_edge c); split; auto; apply in_map; auto). apply (Permutation_in _ Hp), in_seq in I. lia. }
  rewrite EC. cbn [bind]. rewrite map_length, Ol, Nat.sub_diag. cbn [repeat]. rewrite app_nil_r.
  change (with_comps _ _) with (renamed o old num cs').
  pose proof (renamed_relabels o R old Hp num cs' Ln K1 K2) as RL1. set (d1 := renamed o old num cs') in *.
  pose proof (rl_ends_recorded _ _ _ _ _ RL1 R) as R1.
  destruct (regenerate_spec d1 (recorded_in_range d1 R1)) as (d2 & cnum & E2 & Ed & _ & _ & _ & RL2 & S2). rewrite E2. cbn [bind].
  pose proof (rl_trans _ _ _ _ _ _ _ _ _ R RL1 RL2) as RL.
  pose proof (rl_ncross _ _ _ _ _ RL) as N2.
  pose proof (rl_ends_recorded _ _ _ _ _ RL R) as R2. pose proof (rl_two_ended _ _ _ _ _ RL R T) as T2. pose proof (rl_goes_through _ _ _ _ _ RL R G) as G2.
  assert (HE2 : pd_edges_ok d2 = Ok true) by (apply edges_ok_spec; auto; lia).
  destruct (relabelled_planar o d2 _ _ _ RL R T P) as (fs & F1 & F2 & F3).
  assert (Mv : p_maxv d2 = p_maxv o) by (rewrite Ed; reflexivity).
  assert (Hn2 : 0 < ncross d2) by (rewrite N2; exact Hn).
  destruct (Thm_Faces.loop_cases d2 Hn2 HE2 T2) as [(gs & E4 & P4 & L4 & M4 & W4 & B4 & O4)|(_ & X)].
  2:{ exfalso. apply (X fs); auto. unfold MAXFACES. lia. }
  rewrite E4. match type of RL with relabelled _ _ ?s ?r ?q => exists (with_faces d2 gs), s, r, q end. split; [reflexivity|].
  split; [destruct RL; constructor; auto|].
  assert (Pc : p_comp d2 = cs') by (rewrite Ed; reflexivity).
  assert (Bl : map cp_edge cs' = map cp_edge (renumbered 0 0 cs)).
  { unfold cs'. rewrite map_map. cbn [cp_edge]. symmetry. apply renumbered_block. fold old. rewrite Ol. apply nth_ext with (d := nth 0 num 0) (d' := 0).
    { rewrite map_length, seq_length. auto. }
    intros i Hi. rewrite map_length in Hi. rewrite (map_nth (fun e => nth e num 0)). rewrite seq_nth by lia. rewrite K1 by lia. auto. }
  split; [split; [|split]|].
  - cbn [with_faces p_comp]. rewrite Pc, Bl, renumbered_concat. fold old. rewrite Ol, <- (rl_nedges _ _ _ _ _ RL). reflexivity.
  - intros c Hc. cbn [with_faces p_comp] in Hc. rewrite Pc in Hc. apply in_map_iff in Hc as (c0 & <- & Hc0). cbn [cp_edge]. destruct (NE c0 Hc0) as (N & C). split.
    + intro X. apply map_eq_nil in X. auto.
    + eapply cyclically_map; [|exact C]. intros a b X. exact (rl_continues _ _ _ _ _ RL R a b X).
  - unfold comps_sorted. cbn [with_faces p_comp]. rewrite Pc, Bl. apply renumbered_sorted, comp_sort_sorted.
  - split; [|split].
    + cbn [with_faces p_comp]. rewrite Pc. unfold cs'. etransitivity; [apply Permutation_map, PC|]. rewrite map_map. apply Permutation_refl.
    + exact (regenerate_canonical d1 d2 R1 (rl_two_ended _ _ _ _ _ RL1 R T) E2).
    + split; [exact P4|]. split; [exact L4|]. split; [exact W4|]. split; [exact O4|]. split; [exact Mv|]. cbn. rewrite Ed. reflexivity.
Qed.
End CC.

(** ** the tables of the cut *)
Lemma before_all : forall dels n, NoDup dels -> (forall x, In x dels -> x < n) -> n = before dels n + length dels.
Proof.
  intros dels n ND HB. unfold before. set (good := filter _ _).
  assert (Hg : forall x, In x good <-> x < n /\ ~ In x dels).
  { intro x. unfold good. rewrite filter_In, in_seq. destruct (in_dec Nat.eq_dec x dels); split; intros (A & B); split; auto; try lia; congruence. }
  assert (NG : NoDup good) by (apply NoDup_filter, seq_NoDup).
  assert (P : Permutation (good ++ dels) (seq 0 n)).
  { apply NoDup_Permutation; [|apply seq_NoDup|].
    - apply NoDup_app_intro; auto. intros x Hx. apply Hg in Hx. tauto.
    - intro x. rewrite in_app_iff, Hg, in_seq. split; [intros [K|K]; [lia|apply HB in K; lia]|].
      intros K. destruct (in_dec Nat.eq_dec x dels); auto. left. split; auto. lia. }
  apply Permutation_length in P. rewrite app_length, seq_length in P. lia.
Qed.
Lemma before_inj : forall A (src : list A) dels, (forall i, In i dels -> i < length src) -> forall x y, x < length src -> ~ In x dels -> y < length src -> ~ In y dels ->
  before dels x = before dels y -> x = y.
Proof.
  intros A src dels H x y Lx Nx Ly Ny Q. destruct (compacting_copy A src dels H) as (T & I & E & _ & _ & _ & K).
  destruct (nth_error src x) as [a|] eqn:X; [|apply nth_error_None in X; lia]. destruct (nth_error src y) as [b|] eqn:Y; [|apply nth_error_None in Y; lia].
  destruct (K x a X Nx) as (Ix & _). destruct (K y b Y Ny) as (Iy & _).
  pose proof (compacting_copy_order A src dels T I E x y _ _ Ix Iy). pose proof (compacting_copy_order A src dels T I E y x _ _ Iy Ix). lia.
Qed.

Lemma loop_cut_ok : forall d c e0 e1 e2, ends_recorded d -> two_ended d -> loop_here d c e0 e1 e2 -> e0 <> e2 ->
  exists o tbl, loop_cut d c e0 e1 e2 = Ok (o, tbl) /\ loop_removed d o c e0 e1 e2 (before [c]) (fun _ => 0) (before [e1; e2]) /\
    length tbl = nedges d /\ (forall x, x < nedges d -> nth x tbl None = if (x =? e1) || (x =? e2) then None else Some (before [e1; e2] x)) /\
    p_maxv o = p_maxv d /\ p_uid o = 0.
Proof.
  intros d c e0 e1 e2 R T LH N02. set (kc := before [c]). set (ke := before [e1; e2]).
  destruct (loop_facts_gen d c e0 e1 e2 R T LH N02) as (E0 & E1 & E2 & p & q & H0 & H1 & H2 & Hp & Hq & A0 & A1 & B1 & A2 & Hpq & N01 & N12 & Hc & AC & K0 & K2).
  pose proof R as (_ & Rr). destruct (Rr _ _ H0) as (_ & T0). destruct (Rr _ _ H2) as (S2 & _).
  pose proof (edge_at_lt _ _ _ H0) as L0. pose proof (edge_at_lt _ _ _ H1) as L1. pose proof (edge_at_lt _ _ _ H2) as L2.
  pose proof (slot_lt _ _ _ _ S2) as (Lh & Lhp). pose proof (slot_lt _ _ _ _ T0) as (Lt & Ltp).
  assert (Dc : forall i, In i [c] -> i < length (p_cross d)) by (intros i [<-|[]]; exact Hc).
  assert (De : forall i, In i [e1; e2] -> i < length (p_edge d)) by (intros i [<-|[<-|[]]]; assumption).
  assert (NDe : NoDup [e1; e2]) by (repeat constructor; simpl; intuition).
  assert (NDc : NoDup [c]) by (repeat constructor; simpl; intuition).
  assert (Ne : forall x, x <> e1 -> x <> e2 -> ~ In x [e1; e2]) by (intros x Q1 Q2 [<-|[<-|[]]]; congruence).
  assert (Nc : forall x, x <> c -> ~ In x [c]) by (intros x Q1 [<-|[]]; congruence).
  destruct (compacting_copy _ (p_cross d) [c] Dc) as (xs & I & EI & LI & Lxs & DI & KI). fold kc in KI, Lxs.
  destruct (compacting_copy _ (p_edge d) [e1; e2] De) as (es & J & EJ & LJ & Les & DJ & KJ). fold ke in KJ, Les.
  pose proof (before_all [c] (ncross d) NDc Dc) as Nx. pose proof (before_all [e1; e2] (nedges d) NDe De) as Nd. fold kc in Nx. fold ke in Nd.
  cbn [length] in Nx, Nd. change (length (p_cross d)) with (ncross d) in *. change (length (p_edge d)) with (nedges d) in *. rewrite <- Lxs in Nx. rewrite <- Les in Nd.
  assert (kcs : forall v x, nth_error (p_cross d) v = Some x -> v <> c -> nth_error I v = Some (Some (kc v)) /\ nth_error xs (kc v) = Some x) by (intros; apply KI; auto).
  assert (kes : forall v x, edge_at d v x -> v <> e1 -> v <> e2 -> nth_error J v = Some (Some (ke v)) /\ nth_error es (ke v) = Some x) by (intros; apply KJ; auto).
  assert (kc_i : forall v w, v < ncross d -> v <> c -> w < ncross d -> w <> c -> kc v = kc w -> v = w).
  { intros v w A B C D. apply (before_inj _ (p_cross d) [c] Dc); auto. }
  assert (ke_i : forall v w, v < nedges d -> v <> e1 -> v <> e2 -> w < nedges d -> w <> e1 -> w <> e2 -> ke v = ke w -> v = w).
  { intros v w A B B' C D D'. apply (before_inj _ (p_edge d) [e1; e2] De); auto. }
  assert (kc_l : forall v, v < ncross d -> v <> c -> kc v < length xs /\ nth_error I v = Some (Some (kc v))).
  { intros v Hv Nv. destruct (nth_error (p_cross d) v) as [x|] eqn:X; [|apply nth_error_None in X; unfold ncross in Hv; lia].
    destruct (kcs v x X Nv) as (Q1 & Q2). split; auto. apply nth_error_Some. congruence. }
  assert (ke_l : forall v, v < nedges d -> v <> e1 -> v <> e2 -> ke v < length es /\ nth_error J v = Some (Some (ke v))).
  { intros v Hv Nv Nv'. destruct (edge_at_ex d v Hv) as (X & HX). destruct (kes v X HX Nv Nv') as (Q1 & Q2). split; auto. apply nth_error_Some. congruence. }
  (* the crossings *)
  unfold loop_cut. rewrite EI. cbn [bind]. rewrite (proj2 (get_ok _ _ _ _) H2). cbn [bind].
  assert (Eh : table_get I (e_head E2) = Ok (kc (e_head E2))).
  { unfold table_get. rewrite (proj2 (get_ok _ _ _ _) (proj2 (kc_l _ Lh K2))). reflexivity. }
  rewrite Eh. cbn [bind]. destruct (kc_l _ Lh K2) as (Lk & _).
  destruct (put_ok xs (kc (e_head E2)) (e_headpos E2) e0 Lk Lhp) as (xs1 & P1 & L1x & Q1). rewrite P1. cbn [bind]. rewrite EJ. cbn [bind].
  set (km := fun v => match nth v I None with Some j => j | None => length I end).
  assert (kmk : forall v, v < ncross d -> v <> c -> km v = kc v).
  { intros v Hv Nv. unfold km. rewrite (nth_error_nth _ _ _ (proj2 (kc_l v Hv Nv))). reflexivity. }
  set (me := fun E => mkEdge (km (e_head E)) (e_headpos E) (km (e_tail E)) (e_tailpos E)).
  assert (OE : forall y, y < length es -> exists x, x < nedges d /\ x <> e1 /\ x <> e2 /\ ke x = y).
  { intros y Hy. destruct (onto (nedges d) (length es) [e1; e2] ke NDe De) with (y := y) as (x & Q2 & Q3 & Q4); auto.
    - intros x Hx Nx'. apply ke_l; auto; intros ->; apply Nx'; simpl; auto.
    - intros x y' Hx Nx' Hy' Ny'. apply ke_i; auto; intros ->; solve [apply Nx'; simpl; auto|apply Ny'; simpl; auto].
    - exists x. split; auto. split; [intros ->; apply Q3; simpl; auto|]. split; auto. intros ->. apply Q3. simpl. auto. }
  assert (OC : forall y, y < length xs -> exists x, x < ncross d /\ x <> c /\ kc x = y).
  { intros y Hy. destruct (onto (ncross d) (length xs) [c] kc NDc Dc) with (y := y) as (x & Q2 & Q3 & Q4); auto.
    - intros x Hx Nx'. apply kc_l; auto; intros ->; apply Nx'; simpl; auto.
    - intros x y' Hx Nx' Hy' Ny'. apply kc_i; auto; intros ->; solve [apply Nx'; simpl; auto|apply Ny'; simpl; auto].
    - exists x. split; auto. split; auto. intros ->. apply Q3. simpl. auto. }
  assert (EM : map_ok (moved_ends I) es = Ok (map me es)).
  { apply PdCrossProofs.map_ok_map. intros X HX. apply In_nth_error in HX. destruct HX as (j & Hj).
    destruct (OE j) as (x & Lx & Nx1 & Nx2 & <-); [apply nth_error_Some; congruence|]. destruct (edge_at_ex d x Lx) as (X' & HX').
    pose proof (proj2 (kes x X' HX' Nx1 Nx2)) as QX. rewrite Hj in QX. injection QX as <-.
    destruct (Rr _ _ HX') as (QS1 & QS2). apply slot_lt in QS1, QS2. unfold moved_ends, p_unset.
    rewrite !(get_nth _ I _ None) by (rewrite LI; tauto). reflexivity. }
  rewrite EM. cbn [bind].
  assert (T0J : table_get J e0 = Ok (ke e0)).
  { unfold table_get. rewrite (proj2 (get_ok _ _ _ _) (proj2 (ke_l e0 L0 N01 N02))). reflexivity. }
  rewrite T0J. cbn [bind]. destruct (kes e0 E0 H0 N01 N02) as (_ & Q0). pose proof (map_nth_error me _ _ Q0) as Q0'.
  rewrite (proj2 (get_ok _ _ _ _) Q0'). cbn [bind]. set (E0' := mkEdge (kc (e_head E2)) (e_headpos E2) (e_tail (me E0)) (e_tailpos (me E0))).
  (* renaming the edges at the crossings *)
  set (kx := fun e => match nth e J None with Some j => j | None => 0 end).
  assert (kxk : forall e, e < nedges d -> e <> e1 -> e <> e2 -> kx e = ke e).
  { intros e He A B. unfold kx. rewrite (nth_error_nth _ _ _ (proj2 (ke_l e He A B))). reflexivity. }
  assert (SN : forall v r x, v <> c -> slot d v r x -> x < nedges d /\ x <> e1 /\ (x = e2 <-> (v, r) = head_slot E2)).
  { intros v r x Nv Sx. destruct (slot_edge d v r x R T Sx) as (X & HX). split; [eapply edge_at_lt; eauto|]. split.
    - intros ->. destruct (slot_end d v r e1 E1 R T Sx H1) as [Q|Q]; unfold head_slot, tail_slot in *; congruence.
    - split.
      + intros ->. destruct (slot_end d v r e2 E2 R T Sx H2) as [Q|Q]; auto. unfold head_slot, tail_slot in *; congruence.
      + unfold head_slot. intro Q. apply pair_eq in Q as (-> & ->). exact (slot_fun _ _ _ _ _ Sx S2). }
  assert (XN : forall v x, v < ncross d -> v <> c -> nth_error (p_cross d) v = Some x -> exists x', nth_error xs1 (kc v) = Some x' /\ csign x' = csign x /\
    forall r, r < 4 -> cedge x' r = if cedge x r =? e2 then e0 else cedge x r).
  { intros v x Hv Nv Hx. destruct (kcs v x Hx Nv) as (_ & Hk). destruct (Q1 (kc v) x Hk) as (x' & Hx' & Sg & Ed). exists x'. split; auto. split; auto.
    intros r Hr. rewrite Ed by auto. assert (Sx : slot d v r (cedge x r)) by (split; eauto). destruct (SN v r _ Nv Sx) as (_ & _ & Q).
    destruct (Nat.eqb_spec (cedge x r) e2) as [Ee|Ee].
    - apply Q in Ee. unfold head_slot in Ee. apply pair_eq in Ee as (-> & ->). rewrite !Nat.eqb_refl. reflexivity.
    - destruct (Nat.eqb_spec (kc v) (kc (e_head E2))) as [Ek|Ek]; [|reflexivity]. apply kc_i in Ek; auto.
      destruct (Nat.eqb_spec r (e_headpos E2)) as [Er|Er]; [|reflexivity]. exfalso. apply Ee, Q. subst. reflexivity. }
  set (tc := fun x => mkCross (kx (ce0 x)) (kx (ce1 x)) (kx (ce2 x)) (kx (ce3 x)) (csign x)).
  assert (XE : forall v x', v < ncross d -> v <> c -> nth_error xs1 (kc v) = Some x' -> forall r, r < 4 -> cedge x' r < nedges d /\ cedge x' r <> e1 /\ cedge x' r <> e2).
  { intros v x' Hv Nv Hx' r Hr. destruct (nth_error (p_cross d) v) as [x|] eqn:X; [|apply nth_error_None in X; unfold ncross in Hv; lia].
    destruct (XN v x Hv Nv X) as (x2 & Hx2 & _ & Ed). rewrite Hx' in Hx2. injection Hx2 as <-. rewrite Ed by auto.
    assert (Sx : slot d v r (cedge x r)) by (split; eauto). destruct (SN v r _ Nv Sx) as (Q3 & Q4 & _). destruct (Nat.eqb_spec (cedge x r) e2); auto. }
  assert (EX : map_ok (table_cross J) xs1 = Ok (map tc xs1)).
  { apply PdCrossProofs.map_ok_map. intros x' HX. apply In_nth_error in HX. destruct HX as (j & Hj).
    destruct (OC j) as (v & Hv & Nv & <-); [rewrite <- L1x; apply nth_error_Some; congruence|].
    assert (Z : forall r, r < 4 -> table_get J (cedge x' r) = Ok (kx (cedge x' r))).
    { intros r Hr. destruct (XE v x' Hv Nv Hj r Hr) as (Z1 & Z2 & Z3). unfold table_get. rewrite (proj2 (get_ok _ _ _ _) (proj2 (ke_l _ Z1 Z2 Z3))). cbn [bind index].
      rewrite kxk; auto. }
    unfold table_cross. pose proof (Z 0 ltac:(lia)) as Z0. pose proof (Z 1 ltac:(lia)) as Z1. pose proof (Z 2 ltac:(lia)) as Z2. pose proof (Z 3 ltac:(lia)) as Z3.
    cbn [cedge] in Z0, Z1, Z2, Z3. rewrite Z0, Z1, Z2, Z3. reflexivity. }
  rewrite EX. cbn [bind]. eexists _, J. split; [reflexivity|].
  assert (MV : forall v r, r < 4 -> moved kc (fun _ => 0) v r = (kc v, r)).
  { intros v r Hr. unfold moved. f_equal. destruct r as [|[|[|[|?]]]]; cbn; lia. }
  assert (tcc : forall x r, r < 4 -> cedge (tc x) r = kx (cedge x r)) by (intros x r Hr; destruct r as [|[|[|[|?]]]]; try lia; reflexivity).
  split; [|split; [rewrite LJ; reflexivity|split; [|split; reflexivity]]].
  - constructor; auto.
    + unfold ncross at 2. cbn [p_cross]. rewrite map_length, L1x. lia.
    + unfold nedges at 2. cbn [p_edge]. rewrite upd_length, map_length. lia.
    + intros v Hv Nv. unfold ncross. cbn [p_cross]. rewrite map_length, L1x. apply kc_l; auto.
    + intros v Hv N1 N2. unfold nedges. cbn [p_edge]. rewrite upd_length, map_length. apply ke_l; auto.
    + intros v r x Nv Sx. pose proof Sx as (Hr & y & Hy & Ey). pose proof (slot_lt _ _ _ _ Sx) as (Hv & _). rewrite MV by auto. cbn [snd].
      destruct (XN v y Hv Nv Hy) as (y' & Hy' & _ & Ed). split; auto. exists (tc y'). split; [cbn [p_cross]; apply map_nth_error; auto|].
      rewrite tcc by auto. pose proof (XE v y' Hv Nv Hy' r Hr) as (Z1 & Z2 & Z3). rewrite kxk by auto. rewrite Ed, Ey by auto. reflexivity.
    + intros v s Nv (y & Hy & Ey). assert (Hv : v < ncross d) by (apply nth_error_Some; congruence).
      destruct (XN v y Hv Nv Hy) as (y' & Hy' & Sg & _). exists (tc y'). split; [cbn [p_cross]; apply map_nth_error; auto|]. cbn [csign tc]. congruence.
    + intros x X N0 N1 N2 HX. destruct (kes x X HX N1 N2) as (_ & Q). destruct (Rr _ _ HX) as (QS1 & QS2).
      pose proof (edge_at_lt _ _ _ HX) as Lx.
      assert (e_head X <> c).
      { intro Z. rewrite Z in QS1. destruct (AC _ _ QS1) as [(_ & ZZ)|[(_ & ZZ)|(_ & ZZ)]]; congruence. }
      assert (e_tail X <> c).
      { intro Z. rewrite Z in QS2. destruct (AC _ _ QS2) as [(_ & ZZ)|[(_ & ZZ)|(_ & ZZ)]]; congruence. }
      apply slot_lt in QS1, QS2. exists (me X). split.
      * unfold edge_at. cbn [p_edge]. rewrite nth_error_upd. destruct (Nat.eqb_spec (ke e0) (ke x)) as [Z|Z]; [exfalso; apply N0; symmetry; apply ke_i; auto|].
        apply map_nth_error. auto.
      * rewrite !MV by tauto. unfold head_slot, tail_slot, me. cbn [e_head e_headpos e_tail e_tailpos]. rewrite !kmk by tauto. auto.
    + intros X0 X2 HX0 HX2. unfold edge_at in HX0, HX2, H0, H2. rewrite H0 in HX0. injection HX0 as <-. rewrite H2 in HX2. injection HX2 as <-.
      exists E0'. split.
      * unfold edge_at. cbn [p_edge]. rewrite nth_error_upd, Nat.eqb_refl, map_length. destruct (Nat.ltb_spec (ke e0) (length es)) as [Z|Z]; [reflexivity|].
        destruct (ke_l e0 L0 N01 N02). lia.
      * rewrite !MV by auto. unfold head_slot, tail_slot, E0', me. cbn [e_head e_headpos e_tail e_tailpos]. rewrite kmk by auto. auto.
  - intros x Hx. destruct (Nat.eqb_spec x e1) as [->|N1]; [apply nth_error_nth; apply DJ; simpl; auto|].
    destruct (Nat.eqb_spec x e2) as [->|N2]; [apply nth_error_nth; apply DJ; simpl; auto|]. cbn [orb]. apply nth_error_nth. apply ke_l; auto.
Qed.
