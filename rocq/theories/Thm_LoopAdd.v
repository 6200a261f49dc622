(** C31: adding a loop by the first Reidemeister move. *)
From Coq Require Import List ZArith Lia Bool Arith Permutation Sorted.
From Verif Require Import Base Iterators Sorting Pd PdSpec PdProofs Relabel RelabelProofs RelabelSym
  Strands SlotCount PdCross PdCrossProofs PdEdges PdComps PdFaces PdHash PdRegen RegenSpec RegenProofs OverUnder Planar PdExamples
  Moves MoveSpec MoveProofs Thm_Pd Thm_Faces Thm_Comps Thm_Regen Thm_Hash Thm_Planar.
Import ListNotations.
Open Scope nat_scope.

(** crossings, components, faces and hash *)
Lemma regenerate_all : forall d L, 0 < ncross d -> ncross d <= p_maxv d ->
  ends_recorded d -> goes_through d -> two_ended d -> strand_partition d L -> length L <= MAXCOMPONENTS d -> planar d ->
  exists d1 d' sigma rho pi, pd_regenerate_crossings d = Ok d1 /\ regenerate_rest d1 = Ok d' /\ relabelled d d' sigma rho pi /\ regular d' /\
    ncomps d' = length L /\ p_maxv d' = p_maxv d /\ p_uid d' = p_uid d /\
    pd_regenerate_faces d' = Ok d' /\ pd_regenerate_hash d' = Ok d' /\ (ncomps d' <= 64 -> pd_ok d' = Ok true).
Proof.
  intros d L Hn Hm R G T HL LL P.
  destruct (regenerate_spec d (recorded_in_range d R)) as (d1 & num & E1 & Ed & _ & _ & _ & RL & S1).
  pose proof (rl_ncross _ _ _ _ _ RL) as N1. pose proof (rl_ends_recorded _ _ _ _ _ RL R) as R1.
  pose proof (rl_two_ended _ _ _ _ _ RL R T) as T1. pose proof (rl_goes_through _ _ _ _ _ RL R G) as G1.
  destruct (regenerate_rest_ok d1 (map (map (fun e => e)) L)) as (d' & s & r & q & E & RL2 & Rg & Nc & Mv & Ui & F & Hh & Ok1); auto.
  - lia.
  - rewrite N1. rewrite Ed. exact Hm.
  - eapply relabelled_strand_partition; eauto.
  - rewrite map_length. unfold MAXCOMPONENTS in *. rewrite Ed. auto.
  - eapply relabelled_planar; eauto.
  - rewrite map_length in Nc. exists d1, d'. do 3 eexists. split; [exact E1|]. split; [exact E|]. split; [eapply rl_trans; [exact R|exact RL|exact RL2]|].
    rewrite Mv, Ui. rewrite Ed. auto 10.
Qed.

(** cross[c].edge[p] = e *)
Lemma cedge_set : forall x p q e, p < 4 -> q < 4 -> cedge (set_cedge x p e) q = if q =? p then e else cedge x q.
Proof. intros x p q e Hp Hq. destruct p as [|[|[|[|p]]]]; try lia; destruct q as [|[|[|[|q]]]]; try lia; reflexivity. Qed.
Lemma put_ok : forall cs c p e, c < length cs -> p < 4 -> exists cs', put_cross cs c p e = Ok cs' /\ length cs' = length cs /\
  forall v x, nth_error cs v = Some x -> exists x', nth_error cs' v = Some x' /\ csign x' = csign x /\
    forall q, q < 4 -> cedge x' q = if (v =? c) && (q =? p) then e else cedge x q.
Proof.
  intros cs c p e Hc Hp. unfold put_cross. destruct (Nat.leb_spec 4 p); [lia|].
  destruct (nth_error cs c) as [y|] eqn:Y; [|apply nth_error_None in Y; lia]. unfold get. rewrite Y. cbn [bind].
  eexists. split; [reflexivity|]. split; [apply upd_length|]. intros v x Hx. rewrite nth_error_upd.
  destruct (Nat.eqb_spec c v) as [->|N].
  - rewrite Y in Hx. injection Hx as <-. destruct (Nat.ltb_spec v (length cs)); [|lia]. eexists. split; [reflexivity|].
    split; [destruct p as [|[|[|?]]]; reflexivity|]. intros q Hq. rewrite Nat.eqb_refl. cbn [andb]. apply cedge_set; auto.
  - exists x. split; auto. split; auto. intros q Hq. destruct (Nat.eqb_spec v c); [congruence|]. reflexivity.
Qed.

Section Addition.
Context (d : pd) (Hn : 0 < ncross d) (R : ends_recorded d) (G : goes_through d) (T : two_ended d).
Context (FP : face_partition d (p_face d)) (NF : nfaces d = ncross d + 2) (CN : connected d).
Context (L : list (list nat)) (HL : strand_partition d L) (LL : length L <= ncross d / 2 + 3) (LC : ncomps d <= ncross d / 2 + 3).

(** For every connected planar diagram and every place (f, k) on one of its faces, the function succeeds.  The
    result is a regular form of the diagram with a loop added to the edge at that place, on the side of the
    face; it has one more crossing and two more edges, as many components, and passes the checks. *)
Theorem loop_addition : forall f k F e o, nth_error (p_face d) f = Some F -> nth_error F k = Some (e, o) ->
  exists d1 d' sigma rho pi, pd_R1_loop_addition d f k = Ok d' /\ loop_added d d1 e o /\ relabelled d1 d' sigma rho pi /\ regular d' /\
    ncross d' = S (ncross d) /\ nedges d' = nedges d + 2 /\ ncomps d' = length L /\ nfaces d' = nfaces d + 1 /\ p_uid d' = p_uid d /\
    (length L <= 64 -> pd_ok d' = Ok true).
Proof.
  intros f k F e o HF Hk.
  assert (Da : is_dart d (e, o)).
  { destruct FP as (_ & _ & P3). apply P3, in_concat. exists F. split; eapply nth_error_In; eauto. }
  destruct Da as (He & Ho). cbn [fst snd] in He, Ho.
  destruct (edge_at_ex d e He) as (E & HE). pose proof R as (RN & Rr). destruct (Rr e E HE) as (Sh & St).
  pose proof (slot_lt _ _ _ _ Sh) as (Lh & Lhp). pose proof (slot_lt _ _ _ _ St) as (Lt & Ltp).
  set (c := ncross d). set (ea := nedges d). set (eb := nedges d + 1).
  set (pa := match o with Pos => 0 | _ => 1 end). set (pb := match o with Pos => 1 | _ => 0 end).
  destruct (put_ok (p_cross d) (e_tail E) (e_tailpos E) ea Lt Ltp) as (cs1 & P1 & L1 & Q1).
  destruct (put_ok cs1 (e_head E) (e_headpos E) eb ltac:(rewrite L1; exact Lh) Lhp) as (cs2 & P2 & L2 & Q2).
  set (x := match o with Pos => mkCross ea eb e e Unset | _ => mkCross eb ea e e Unset end).
  set (E' := match o with Pos => mkEdge c 3 c 2 | _ => mkEdge c 2 c 3 end).
  set (es := upd e E' (p_edge d) ++ [mkEdge c pa (e_tail E) (e_tailpos E); mkEdge (e_head E) (e_headpos E) c pb]).
  set (r := mkPd (ncross d + 2) (p_uid d) (p_hash d) (p_edge d) (p_cross d) (map copy_comp (p_comp d)) (p_face d)).
  set (d1 := with_cross (with_edges r es) (cs2 ++ [x])).
  assert (Lcs2 : length cs2 = ncross d) by (rewrite L2, L1; reflexivity).
  assert (Les : length (upd e E' (p_edge d)) = nedges d) by apply upd_length.
  assert (OS : forall v p y, slot d v p y -> exists z, nth_error (cs2 ++ [x]) v = Some z /\ p < 4 /\
    cedge z p = if (v =? e_head E) && (p =? e_headpos E) then eb else if (v =? e_tail E) && (p =? e_tailpos E) then ea else y).
  { intros v p y (Hp & z0 & Hz0 & <-). destruct (Q1 v z0 Hz0) as (z1 & Hz1 & _ & K1). destruct (Q2 v z1 Hz1) as (z2 & Hz2 & _ & K2).
    exists z2. split; [rewrite nth_error_app1; auto; apply nth_error_Some; congruence|]. split; auto. rewrite K2, K1 by auto. reflexivity. }
  assert (NX : nth_error (cs2 ++ [x]) c = Some x) by (unfold c; rewrite <- Lcs2, nth_error_app2, Nat.sub_diag by lia; reflexivity).
  assert (LA : loop_at d d1 e ea eb c pa pb).
  { constructor; try reflexivity.
    - unfold d1, ncross. cbn [with_cross with_edges p_cross]. rewrite app_length. cbn. unfold ncross in Lcs2. lia.
    - unfold d1, nedges. cbn [with_cross with_edges p_edge]. unfold es. rewrite app_length, upd_length. cbn. lia.
    - intros y Y Ny HY. unfold edge_at, d1. cbn [with_cross with_edges p_edge]. unfold es.
      pose proof (edge_at_lt _ _ _ HY) as Ly. rewrite nth_error_app1 by (rewrite Les; exact Ly). rewrite nth_error_upd.
      destruct (Nat.eqb_spec e y); [congruence|]. exact HY.
    - intros E0 v p y HE0 N1 N2 S. unfold edge_at in HE, HE0. rewrite HE in HE0. injection HE0 as <-.
      destruct (OS v p y S) as (z & Hz & Hp & Cz). split; auto. exists z. split; [exact Hz|]. rewrite Cz.
      unfold head_slot, tail_slot in *.
      destruct (Nat.eqb_spec v (e_head E)), (Nat.eqb_spec p (e_headpos E)); cbn [andb]; try congruence;
      destruct (Nat.eqb_spec v (e_tail E)), (Nat.eqb_spec p (e_tailpos E)); cbn [andb]; congruence.
    - intros v s (z0 & Hz0 & <-). destruct (Q1 v z0 Hz0) as (z1 & Hz1 & S1 & _). destruct (Q2 v z1 Hz1) as (z2 & Hz2 & S2 & _).
      exists z2. split; [|congruence]. unfold d1. cbn [with_cross p_cross]. rewrite nth_error_app1; auto. apply nth_error_Some; congruence.
    - intros E0 HE0. unfold edge_at in HE, HE0. rewrite HE in HE0. injection HE0 as <-.
      exists (mkEdge c pa (e_tail E) (e_tailpos E)), E', (mkEdge (e_head E) (e_headpos E) c pb).
      unfold edge_at, d1. cbn [with_cross with_edges p_edge]. unfold es.
      split; [rewrite nth_error_app2 by (rewrite Les; auto); rewrite Les; unfold ea; rewrite Nat.sub_diag; reflexivity|].
      split; [rewrite nth_error_app1 by (rewrite Les; exact He); rewrite nth_error_upd, Nat.eqb_refl; destruct (Nat.ltb_spec e (length (p_edge d))); [reflexivity|unfold nedges in He; lia]|].
      split; [rewrite nth_error_app2 by (rewrite Les; unfold eb; lia); rewrite Les; unfold eb; replace (nedges d + 1 - nedges d) with 1 by lia; reflexivity|].
      split; [reflexivity|]. split; [reflexivity|]. split; [destruct Ho as [-> | ->]; reflexivity|]. split; [destruct Ho as [-> | ->]; reflexivity|].
      split; [reflexivity|]. split; [reflexivity|]. split.
      + destruct (OS _ _ _ St) as (z & Hz & Hp & Cz). split; auto. exists z. split; [exact Hz|]. rewrite Cz, !Nat.eqb_refl. cbn [andb].
        destruct (Nat.eqb_spec (e_tail E) (e_head E)) as [Q|Q], (Nat.eqb_spec (e_tailpos E) (e_headpos E)) as [Q'|Q']; cbn [andb]; auto.
        exfalso. apply (T e E HE). unfold head_slot, tail_slot. congruence.
      + destruct (OS _ _ _ Sh) as (z & Hz & Hp & Cz). split; auto. exists z. split; [exact Hz|]. rewrite Cz, !Nat.eqb_refl. reflexivity.
    - unfold slot, d1. cbn [with_cross p_cross]. unfold pa, pb, x in *.
      destruct Ho as [-> | ->]; (repeat split; [cbn; lia|eexists; split; [exact NX|reflexivity]|cbn; lia|eexists; split; [exact NX|reflexivity]|cbn; lia|eexists; split; [exact NX|reflexivity]|cbn; lia|eexists; split; [exact NX|reflexivity]]). }
  assert (Hab : pa < 4 /\ pb < 4 /\ pa <> pb /\ (pa + 2) mod 4 <> pb /\ ((o = Pos /\ pb = (pa + 1) mod 4) \/ (o = Neg /\ pb = (pa + 3) mod 4))).
  { unfold pa, pb. destruct Ho as [-> | ->]; cbn; repeat split; auto; lia. }
  destruct Hab as (Hpa & Hpb & Hne & Hop & Hor).
  pose proof (loop_recorded _ _ _ _ _ _ _ _ LA R He Hpa Hpb Hne Hop) as R1. pose proof (loop_two_ended _ _ _ _ _ _ _ _ LA R T He Hpa Hpb Hne Hop) as T1.
  pose proof (loop_through _ _ _ _ _ _ _ _ LA R G He Hpa Hpb Hne Hop) as G1. pose proof (loop_strands _ _ _ _ _ _ _ _ LA He Hpa Hpb Hne Hop _ HL) as HL1.
  pose proof (loop_planar _ _ _ _ _ _ _ _ LA R T He Hpa Hpb Hne Hop o Hor FP NF CN) as PL1.
  destruct (fun a b m => regenerate_all d1 _ a b R1 G1 T1 HL1 m PL1) as (d2 & d' & s & rh & q & E1 & E2 & RL & RG & NC & MV & UI & _ & _ & OK); auto.
  - rewrite (lp_ncross _ _ _ _ _ _ _ _ LA). lia.
  - rewrite (lp_ncross _ _ _ _ _ _ _ _ LA). cbn. lia.
  - rewrite map_length. unfold MAXCOMPONENTS, d1. cbn [with_cross with_edges p_maxv r].
    replace ((ncross d + 2) / 2) with (ncross d / 2 + 1) by (symmetry; apply (Nat.div_add (ncross d) 1 2); lia). lia.
  - exists d1, d', s, rh, q. split.
    + unfold pd_R1_loop_addition. destruct (Nat.eqb_spec (ncross d) 0); [lia|]. unfold pd_copy_newsize.
      destruct (Nat.eqb_spec (ncross d) 0); [lia|]. destruct (Nat.ltb_spec (ncross d + 2) (ncross d)); [lia|].
      unfold maxverts_of. destruct (Nat.eqb_spec (ncross d + 2) 1); [lia|]. fold r.
      replace (MAXEDGES r) with (2 * (ncross d + 2) + 1) by reflexivity. replace (MAXFACES r) with (ncross d + 2 + 2) by reflexivity.
      replace (MAXCOMPONENTS r) with ((ncross d + 2) / 2 + 2) by reflexivity.
      replace ((ncross d + 2) / 2) with (ncross d / 2 + 1) by (symmetry; apply (Nat.div_add (ncross d) 1 2); lia).
      destruct (Nat.leb_spec (ncross d) (ncross d + 2)); [|lia]. destruct (Nat.leb_spec (nedges d) (2 * (ncross d + 2) + 1)); [|lia].
      destruct (Nat.leb_spec (ncomps d) (ncross d / 2 + 1 + 2)); [|lia]. destruct (Nat.leb_spec (nfaces d) (ncross d + 2 + 2)); [|lia].
      cbn [bind]. unfold get at 1. rewrite HF. cbn [bind]. unfold get at 1. rewrite Hk. cbn [bind fst snd].
      assert (NL : new_loop (ncross d) e (nedges d) (nedges d + 1) o = Ok (x, pa, pb, E')) by (unfold new_loop, x, pa, pb, E'; destruct Ho as [-> | ->]; reflexivity).
      rewrite NL. cbn [bind]. unfold get at 1. unfold edge_at in HE. rewrite HE. cbn [bind].
      change (p_cross r) with (p_cross d). change (p_edge r) with (p_edge d). fold eb. fold ea. rewrite P1. cbn [bind]. rewrite P2. cbn [bind].
      fold c es d1. rewrite E1. cbn [bind]. exact E2.
    + split; [exists ea, eb, c, pa, pb; split; [exact LA|split; [exact (loop_left _ _ _ _ _ _ _ _ LA He Hpa Hpb Hne Hop o Hor)|]]|].
      * exists x. split; [exact NX|]. unfold x. destruct o; reflexivity.
      * split; auto. split; auto. rewrite (rl_ncross _ _ _ _ _ RL), (rl_nedges _ _ _ _ _ RL), (lp_ncross _ _ _ _ _ _ _ _ LA), (lp_nedges _ _ _ _ _ _ _ _ LA).
        split; auto. split; auto. rewrite map_length in NC. split; auto.
        split; [rewrite (rg_nfaces _ RG), (rl_ncross _ _ _ _ _ RL), (lp_ncross _ _ _ _ _ _ _ _ LA), NF; lia|].
        split; [exact UI|]. rewrite <- NC. exact OK.
Qed.
End Addition.
Print Assumptions loop_addition.

(** In particular for every regular connected diagram with room. *)
Theorem loop_addition_regular : forall d f k F e o, 0 < ncross d -> regular d -> connected d -> ncomps d <= ncross d / 2 + 3 ->
  nth_error (p_face d) f = Some F -> nth_error F k = Some (e, o) ->
  exists d1 d' sigma rho pi, pd_R1_loop_addition d f k = Ok d' /\ loop_added d d1 e o /\ relabelled d1 d' sigma rho pi /\ regular d' /\
    ncomps d' = ncomps d.
Proof.
  intros d f k F e o Hn [R G T C NA TG FP NF SL SF] CN LC HF Hk.
  destruct (loop_addition d Hn R G T FP NF CN (map cp_edge (p_comp d)) (comps_partition d NA)) with (f := f) (k := k) (F := F) (e := e) (o := o)
    as (d1 & d' & s & r & q & E & LA & RL & RG & _ & _ & NC & _); auto; try (rewrite map_length; exact LC).
  exists d1, d', s, r, q. split; auto. split; auto. split; auto. split; auto. rewrite NC, map_length. reflexivity.
Qed.
Print Assumptions loop_addition_regular.

(** Without crossings the result is the unknot with one crossing. *)
Theorem loop_addition_unknot : forall d f k, ncross d = 0 -> exists d', pd_R1_loop_addition d f k = Ok d' /\
  p_cross d' = p_cross unknot1 /\ p_edge d' = p_edge unknot1 /\ p_comp d' = p_comp unknot1 /\ p_face d' = p_face unknot1 /\ pd_ok d' = Ok true.
Proof.
  intros d f k Z. unfold pd_R1_loop_addition. rewrite Z. cbn [Nat.eqb].
  assert (Q : exists d', pd_build_unknot1 = Ok d' /\ p_cross d' = p_cross unknot1 /\ p_edge d' = p_edge unknot1 /\ p_comp d' = p_comp unknot1 /\ p_face d' = p_face unknot1 /\ pd_ok d' = Ok true).
  { eexists. split; [vm_compute; reflexivity|]. vm_compute. auto 10. }
  exact Q.
Qed.
Print Assumptions loop_addition_unknot.

Example loop_on_trefoil : exists d', pd_R1_loop_addition trefoil 2 1 = Ok d' /\ ncross d' = 4 /\ nfaces d' = 6 /\ pd_ok d' = Ok true.
Proof. eexists. split; [vm_compute; reflexivity|]. vm_compute. auto. Qed.
(** the trefoil meets the hypotheses of [loop_addition] *)
Example loop_addition_trefoil : exists d1 d' sigma rho pi, pd_R1_loop_addition trefoil 2 1 = Ok d' /\ loop_added trefoil d1 3 Pos /\
  relabelled d1 d' sigma rho pi /\ regular d'.
Proof.
  assert (EO : pd_edges_ok trefoil = Ok true) by reflexivity. apply edges_ok_spec in EO as (R & G); [|cbn; lia].
  destruct trefoil_sphere as (_ & T & FP & NF & CN & _). destruct trefoil_partition as (_ & NA).
  destruct (loop_addition trefoil ltac:(cbn; lia) R G T FP NF CN _ (comps_partition _ NA) ltac:(cbn; lia) ltac:(cbn; lia) 2 1 [(0, Neg); (3, Pos)] 3 Pos)
    as (d1 & d' & s & r & q & E & LA & RL & RG & _); auto. exists d1, d', s, r, q. auto.
Qed.
