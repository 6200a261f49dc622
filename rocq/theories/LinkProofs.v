(** Lemmas about linking numbers. *)
From Coq Require Import List ZArith Lia Bool Arith Permutation.
From Verif Require Import Base Iterators Pd PdSpec PdProofs Relabel RelabelProofs Strands Cycles PdCross PdCompsProofs
  OverUnder OverUnderSpec OverUnderProofs.
Import ListNotations.
Open Scope nat_scope.

Lemma pos_in_spec : forall e l, In e l -> exists p, pos_in e l = Some p /\ nth_error l p = Some e.
Proof.
  induction l as [|x l IH]; intros H; [destruct H|]. cbn [pos_in]. destruct (Nat.eqb_spec x e) as [->|N].
  - exists 0. auto.
  - destruct H as [H|H]; [congruence|]. destruct (IH H) as (p & -> & K). exists (S p). auto.
Qed.
Lemma pos_in_none : forall e l, ~ In e l -> pos_in e l = None.
Proof.
  induction l as [|x l IH]; intros H; auto. cbn [pos_in]. destruct (Nat.eqb_spec x e) as [->|N]; [exfalso; apply H; cbn; auto|].
  rewrite IH; auto. intros K. apply H. cbn; auto.
Qed.
Lemma comp_search_ok : forall e cs k, In e (concat (map cp_edge cs)) ->
  exists i p C, comp_search e k cs = Ok (k + i, p) /\ nth_error cs i = Some C /\ nth_error (cp_edge C) p = Some e.
Proof.
  induction cs as [|c cs IH]; intros k H; [destruct H|]. cbn [comp_search].
  destruct (in_dec Nat.eq_dec e (cp_edge c)) as [I|I].
  - destruct (pos_in_spec e (cp_edge c) I) as (p & -> & K). exists 0, p, c. rewrite Nat.add_0_r. auto.
  - rewrite pos_in_none by auto. cbn in H. apply in_app_iff in H as [H|H]; [tauto|].
    destruct (IH (S k) H) as (i & p & C & -> & K). exists (S i), p, C. rewrite Nat.add_succ_r. auto.
Qed.

Definition zsum (l : list Z) : Z := fold_right Z.add 0%Z l.
Lemma zsum_perm : forall l m, Permutation l m -> zsum l = zsum m.
Proof.
  induction 1 as [|x l m _ IH|x y l|l m k _ IH1 _ IH2]; unfold zsum in *; cbn [fold_right]; lia.
Qed.

Section Diagram.
Context (d : pd) (R : ends_recorded d) (G : goes_through d) (T : two_ended d).
Context (P : strand_partition d (map cp_edge (p_comp d))).

Lemma on_comp_fun : forall e i j, on_comp d e i -> on_comp d e j -> i = j.
Proof.
  intros e i j (C & HC & Ie) (C' & HC' & Ie'). destruct P as (_ & N & _).
  apply (blocks_disjoint (map cp_edge (p_comp d)) i j (cp_edge C) (cp_edge C') e); auto; apply map_nth_error; auto.
Qed.
Lemma on_comp_lt : forall e i, on_comp d e i -> e < nedges d.
Proof.
  intros e i (C & HC & Ie). destruct P as (_ & _ & N). apply N, in_concat. exists (cp_edge C). split; auto.
  apply in_map, (nth_error_In _ _ HC).
Qed.
Lemma comp_pos_ok : forall e, e < nedges d -> exists i p, pd_component_and_pos d e = Ok (i, p) /\ on_comp d e i.
Proof.
  intros e He. destruct (comp_search_ok e (p_comp d) 0) as (i & p & C & H & HC & K).
  - apply P; auto.
  - unfold pd_component_and_pos. destruct (Nat.ltb_spec e (nedges d)); [|lia]. rewrite H. exists i, p.
    split; auto. exists C. split; auto. eapply nth_error_In; eauto.
Qed.
Lemma on_comp_continues : forall a b i, continues d a b -> on_comp d a i <-> on_comp d b i.
Proof.
  assert (F : forall a b i, continues d a b -> on_comp d a i -> on_comp d b i).
  { intros a b i CN (C & HC & Ia). exists C. split; auto.
    assert (HI : In (cp_edge C) (map cp_edge (p_comp d))) by (apply in_map, (nth_error_In _ _ HC)).
    destruct (proj1 P _ HI) as (NE & CY). apply In_nth_error in Ia as (k & Hk).
    assert (Lk : k < length (cp_edge C)) by (apply nth_error_Some; congruence).
    destruct (nth_error (cp_edge C) ((k + 1) mod length (cp_edge C))) as [c|] eqn:E.
    2:{ apply nth_error_None in E. pose proof (Nat.mod_upper_bound (k + 1) (length (cp_edge C))). lia. }
    pose proof (CY k a c Hk E) as K. apply (continues_succ d R G) in K as (_ & ->).
    apply (continues_succ d R G) in CN as (_ & ->). eapply nth_error_In; eauto. }
  intros a b i CN. split; [apply F; auto|]. intros Hb.
  assert (Ha : a < nedges d) by (apply (continues_succ d R G) in CN; tauto).
  destruct (comp_pos_ok a Ha) as (j & p & _ & Ja). pose proof (F a b j CN Ja).
  rewrite (on_comp_fun b i j); auto.
Qed.

(** the component of the strand that crosses edge e at its head *)
Definition nxt (p : nat) : nat := (p + 1) mod 4.
Lemma crossing_strand : forall c p x, c < ncross d -> p < 4 -> slot d c (nxt p) x ->
  (exists e, arrives d c p e) ->
  exists f q, arrives d c q f /\ q <> p /\ (forall i, on_comp d f i <-> on_comp d x i) /\
    forall f' q', arrives d c q' f' -> q' <> p -> f' = f /\ q' = q.
Proof.
  intros c p x Hc Hp Sx (e & A).
  destruct (arrives_across d G c p e A) as (g & Dg & _).
  assert (U : forall q f, q <> p -> arrives d c q f -> q = nxt p \/ q = (p + 3) mod 4).
  { intros q f N Aq. pose proof (arrives_slot d R _ _ _ Aq) as S. apply slot_lt in S as (_ & Lq).
    assert (q <> (p + 2) mod 4) by (intros ->; eapply (not_both d R T); eauto).
    unfold nxt. destruct (small4 p Hp) as [->|[->|[->| ->]]], (small4 q Lq) as [->|[->|[->| ->]]]; cbn in *; auto; congruence. }
  destruct (either d R T c (nxt p) Hc (mod4_lt _)) as (x' & Sx' & K).
  assert (x' = x) by (eapply slot_fun; eauto). subst x'.
  assert (E3 : (nxt p + 2) mod 4 = (p + 3) mod 4) by (unfold nxt; destruct (small4 p Hp) as [->|[->|[->| ->]]]; reflexivity).
  assert (NP : nxt p <> p /\ (p + 3) mod 4 <> p /\ nxt p <> (p + 3) mod 4).
  { unfold nxt; destruct (small4 p Hp) as [->|[->|[->| ->]]]; cbn; lia. }
  destruct K as [K|K].
  - exists x, (nxt p). split; auto. split; [tauto|]. split; [tauto|]. intros f' q' A' N.
    assert (q' = nxt p).
    { destruct (U q' f' N A') as [->| ->]; auto. exfalso.
      destruct (arrives_across d G _ _ _ K) as (h & Dh & _). rewrite E3 in Dh. eapply (not_both d R T); eauto. }
    subst q'. split; auto. eapply (arrives_fun d R); eauto.
  - destruct (departs_across d R G _ _ _ K) as (f & Af & CN). rewrite E3 in Af.
    exists f, ((p + 3) mod 4). split; auto. split; [tauto|].
    split; [intros i; apply on_comp_continues; auto|]. intros f' q' A' N.
    assert (q' = (p + 3) mod 4). { destruct (U q' f' N A') as [->| ->]; auto. exfalso. eapply (not_both d R T); eauto. }
    subst q'. split; auto. eapply (arrives_fun d R); eauto.
Qed.

Definition rec (e : nat) : edge := nth e (p_edge d) (mkEdge 0 0 0 0).
Definition hd (e : nat) : nat := e_head (rec e).
Definition sg (c : nat) : orient := csign (nth c (p_cross d) no_cross).
Definition otherb (j e : nat) : bool :=
  match nth_error (p_cross d) (hd e) with
  | Some x => match pd_component_and_pos d (cedge x ((e_headpos (rec e) + 1) mod 4)) with
              | Ok q => fst q =? j
              | _ => false
              end
  | None => false
  end.
Lemma rec_at : forall e, e < nedges d -> edge_at d e (rec e).
Proof. intros e He. unfold edge_at, rec. apply nth_error_nth'. exact He. Qed.

Lemma step_ok : forall e, e < nedges d -> exists x q, get (p_edge d) e = Ok (rec e) /\
  nth_error (p_cross d) (hd e) = Some x /\ csign x = sg (hd e) /\
  pd_component_and_pos d (cedge x ((e_headpos (rec e) + 1) mod 4)) = Ok q /\
  on_comp d (cedge x ((e_headpos (rec e) + 1) mod 4)) (fst q) /\ slot d (hd e) (nxt (e_headpos (rec e))) (cedge x ((e_headpos (rec e) + 1) mod 4)).
Proof.
  intros e He. pose proof (rec_at e He) as HE. destruct (proj2 R _ _ HE) as ((Lp & x & Hx & K) & _).
  assert (Hc : hd e < ncross d) by (apply nth_error_Some; unfold hd; congruence).
  assert (S : slot d (hd e) (nxt (e_headpos (rec e))) (cedge x ((e_headpos (rec e) + 1) mod 4))).
  { split; [apply mod4_lt|]. exists x. auto. }
  destruct (either d R T _ _ Hc (mod4_lt (e_headpos (rec e) + 1))) as (y & Sy & AD).
  assert (Q : y = cedge x ((e_headpos (rec e) + 1) mod 4)) by (eapply slot_fun; eauto).
  assert (y < nedges d). { destruct AD as [(Y & HY & _)|(Y & HY & _)]; eapply edge_at_lt; eauto. }
  rewrite Q in H. destruct (comp_pos_ok _ H) as (i & p & HH & OC).
  exists x, (i, p). split; [apply get_ok; exact HE|]. split; auto. split; [unfold sg; erewrite nth_error_nth; eauto|]. auto.
Qed.
Lemma otherb_spec : forall j e, e < nedges d ->
  (otherb j e = true <-> exists f q, arrives d (hd e) q f /\ q <> e_headpos (rec e) /\ on_comp d f j).
Proof.
  intros j e He. destruct (step_ok e He) as (x & q & _ & Hx & _ & Hq & OC & S).
  unfold otherb. rewrite Hx, Hq. rewrite Nat.eqb_eq.
  pose proof (rec_at e He) as HE. destruct (proj2 R _ _ HE) as (SH & _). apply slot_lt in SH as (L1 & L2).
  destruct (crossing_strand _ _ _ L1 L2 S) as (f & r & Af & Nr & OCi & U).
  { exists e, (rec e). auto. }
  split.
  - intros <-. exists f, r. split; auto. split; auto. apply OCi; auto.
  - intros (f' & q' & A' & N' & OC'). destruct (U f' q' A' N') as (-> & ->). apply OCi in OC'. eapply on_comp_fun; eauto.
Qed.

Lemma lk_loop_ok : forall w j es lk, (forall e, In e es -> e < nedges d) ->
  lk_loop d w j es lk = Ok (lk + zsum (map (fun e => w (sg (hd e))) (filter (otherb j) es)))%Z.
Proof.
  induction es as [|e es IH]; intros lk H; cbn [lk_loop filter map].
  - cbn. f_equal. lia.
  - destruct (step_ok e) as (x & q & -> & Hx & Sx & Hq & _); [apply H; cbn; auto|]. cbn [bind].
    fold (hd e). replace (get (p_cross d) (hd e)) with (Ok x) by (symmetry; apply get_ok; auto). cbn [bind].
    rewrite Hq. cbn [bind]. rewrite IH by (intros; apply H; cbn; auto).
    unfold otherb at 2. rewrite Hx, Hq. destruct (fst q =? j); cbn [map zsum fold_right]; f_equal; rewrite ?Sx; fold (zsum (map (fun e => w (sg (hd e))) (filter (otherb j) es))); lia.
Qed.

(** the list of crossings met by a component *)
Lemma arrives_rec : forall e c p, arrives d c p e -> e < nedges d /\ hd e = c /\ e_headpos (rec e) = p.
Proof.
  intros e c p (E & HE & H). assert (rec e = E) by (unfold rec; erewrite nth_error_nth; eauto).
  split; [eapply edge_at_lt; eauto|]. unfold hd. rewrite H0. injection H as -> ->. auto.
Qed.
Lemma rec_arrives : forall e, e < nedges d -> arrives d (hd e) (e_headpos (rec e)) e.
Proof. intros e He. exists (rec e). split; auto. apply rec_at; auto. Qed.

Lemma comp_nodup : forall i C, nth_error (p_comp d) i = Some C -> NoDup (cp_edge C).
Proof.
  intros i C HC. destruct P as (_ & N & _). eapply block_nodup; eauto. apply in_map, (nth_error_In _ _ HC).
Qed.
Lemma meets_in : forall i j C cr, nth_error (p_comp d) i = Some C ->
  (In cr (map hd (filter (otherb j) (cp_edge C))) <-> meets d i j cr).
Proof.
  intros i j C cr HC. rewrite in_map_iff. split.
  - intros (e & <- & He). apply filter_In in He as (He & O).
    assert (OC : on_comp d e i) by (exists C; auto). assert (Le := on_comp_lt _ _ OC).
    apply (otherb_spec j e Le) in O as (f & q & A & N & OC').
    exists e, (e_headpos (rec e)), f, q. split; [apply rec_arrives; auto|]. auto.
  - intros (e & p & f & q & A & A' & N & OC & OC').
    destruct (arrives_rec _ _ _ A) as (Le & <- & <-). exists e. split; auto. apply filter_In. split.
    + destruct OC as (C' & HC' & I). congruence.
    + apply otherb_spec; auto. exists f, q. auto.
Qed.
Lemma NoDup_map_on : forall A B (f : A -> B) l, NoDup l -> (forall x y, In x l -> In y l -> f x = f y -> x = y) -> NoDup (map f l).
Proof.
  induction l as [|x l IH]; intros N H; cbn; constructor; inversion N; subst.
  - intros K. apply in_map_iff in K as (y & E & Hy). assert (x = y) by (apply H; cbn; auto). congruence.
  - apply IH; auto. intros; apply H; cbn; auto.
Qed.
Lemma met_once : forall i j C, i <> j -> nth_error (p_comp d) i = Some C ->
  NoDup (map hd (filter (otherb j) (cp_edge C))).
Proof.
  intros i j C N HC. apply NoDup_map_on; [apply NoDup_filter, (comp_nodup i C HC)|].
  intros a b Ha Hb E. apply filter_In in Ha as (Ia & Oa). apply filter_In in Hb as (Ib & Ob).
  assert (Ca : on_comp d a i) by (exists C; auto). assert (Cb : on_comp d b i) by (exists C; auto).
  assert (La := on_comp_lt _ _ Ca). assert (Lb := on_comp_lt _ _ Cb).
  pose proof (rec_arrives a La) as Aa. pose proof (rec_arrives b Lb) as Ab. rewrite <- E in Ab.
  destruct (Nat.eq_dec (e_headpos (rec a)) (e_headpos (rec b))) as [Q|Q].
  - rewrite <- Q in Ab. eapply (arrives_fun d R); eauto.
  - exfalso. apply (otherb_spec j a La) in Oa as (f & q & Af & Nq & Cf).
    pose proof (rec_at a La) as HE. destruct (proj2 R _ _ HE) as (SH & _). apply slot_lt in SH as (L1 & L2).
    destruct (step_ok a La) as (x & q' & _ & _ & _ & _ & _ & S).
    destruct (crossing_strand _ _ _ L1 L2 S) as (f0 & r & _ & _ & _ & U). { exists a; auto. }
    destruct (U f q Af Nq) as (-> & _). destruct (U b _ Ab) as (-> & _); [congruence|].
    apply N. eapply on_comp_fun; eauto.
Qed.

Lemma meets_sym : forall i j cr, meets d i j cr -> meets d j i cr.
Proof. intros i j cr (e & p & f & q & H1 & H2 & H3 & H4 & H5). exists f, q, e, p. auto. Qed.

Lemma sum_over : forall w i j C L, i <> j -> nth_error (p_comp d) i = Some C -> NoDup L ->
  (forall cr, In cr L <-> meets d i j cr) ->
  zsum (map (fun e => w (sg (hd e))) (filter (otherb j) (cp_edge C))) = zsum (map (fun c => w (sg c)) L).
Proof.
  intros w i j C L N HC NL HL. rewrite <- map_map with (f := hd) (g := fun c => w (sg c)).
  apply zsum_perm, Permutation_map, NoDup_Permutation; auto.
  - eapply met_once; eauto.
  - intros cr. rewrite HL. apply meets_in; auto.
Qed.
Lemma comp_range : forall i C e, nth_error (p_comp d) i = Some C -> In e (cp_edge C) -> e < nedges d.
Proof. intros i C e HC I. apply (on_comp_lt e i). exists C; auto. Qed.

Lemma lk_worker_ok : forall w i j L, i < ncomps d -> j < ncomps d -> i <> j -> NoDup L ->
  (forall cr, In cr L <-> meets d i j cr) ->
  lk_worker d w i j = Ok (Z.quot (zsum (map (fun c => w (sg c)) L)) 2).
Proof.
  intros w i j L Hi Hj N NL HL. unfold lk_worker.
  destruct (nth_error (p_comp d) i) as [C1|] eqn:H1; [|apply nth_error_None in H1; unfold ncomps in Hi; lia].
  destruct (nth_error (p_comp d) j) as [C2|] eqn:H2; [|apply nth_error_None in H2; unfold ncomps in Hj; lia].
  unfold get. rewrite H1, H2. cbn [bind]. destruct (_ <? _).
  - rewrite lk_loop_ok by (intros e Ie; exact (comp_range i C1 e H1 Ie)). cbn [bind]. do 2 f_equal.
    rewrite (sum_over w i j C1 L); auto.
  - rewrite lk_loop_ok by (intros e Ie; exact (comp_range j C2 e H2 Ie)). cbn [bind]. do 2 f_equal.
    rewrite (sum_over w j i C2 L); auto. intros cr. rewrite HL. split; apply meets_sym.
Qed.

(** a component crossing itself is met twice *)
Lemma sum_pairs : forall (g : nat -> Z) L l, NoDup L -> NoDup l ->
  (forall e, In e l -> In (hd e) L) ->
  (forall c, In c L -> exists e f, In e l /\ In f l /\ e <> f /\ hd e = c /\ hd f = c /\
     forall x, In x l -> hd x = c -> x = e \/ x = f) ->
  zsum (map (fun e => g (hd e)) l) = (2 * zsum (map g L))%Z.
Proof.
  induction L as [|c L IH]; intros l NL Nl H1 H2.
  - destruct l as [|e l]; [reflexivity|]. destruct (H1 e); cbn; auto.
  - inversion NL as [|? ? Nc NL']; subst. destruct (H2 c) as (e & f & He & Hf & N & E1 & E2 & U); [cbn; auto|].
    set (l' := filter (fun x => negb (hd x =? c)) l).
    assert (PM : Permutation l (e :: f :: l')).
    { apply NoDup_Permutation; auto.
      - constructor; [|constructor].
        + intros [K|K]; [congruence|]. unfold l' in K. apply filter_In in K as (_ & K). rewrite E1, Nat.eqb_refl in K. discriminate.
        + intros K. unfold l' in K. apply filter_In in K as (_ & K). rewrite E2, Nat.eqb_refl in K. discriminate.
        + apply NoDup_filter; auto.
      - intros x. cbn [In]. unfold l'. rewrite filter_In. destruct (Nat.eqb_spec (hd x) c) as [Q|Q]; cbn.
        + split; [|intuition congruence]. intros Hx. destruct (U x Hx Q); auto.
        + split; [|intuition congruence]. auto. }
    rewrite (zsum_perm _ _ (Permutation_map _ PM)). cbn [map zsum fold_right].
    fold (zsum (map (fun e => g (hd e)) l')). fold (zsum (map g L)). rewrite E1, E2.
    rewrite (IH l'); auto; [lia|apply NoDup_filter; auto| |].
    + intros x Hx. unfold l' in Hx. apply filter_In in Hx as (Hx & K). destruct (H1 x Hx) as [Q|Q]; auto.
      rewrite <- Q, Nat.eqb_refl in K. discriminate.
    + intros c' Hc'. destruct (H2 c') as (a & b & Ha & Hb & Nab & Ea & Eb & U'); [cbn; auto|].
      assert (c' <> c) by congruence.
      exists a, b. unfold l'. rewrite !filter_In. rewrite Ea, Eb. destruct (Nat.eqb_spec c' c); [congruence|]. cbn.
      repeat split; auto. intros x Hx. apply filter_In in Hx as (Hx & _). auto.
Qed.
Lemma lk_self : forall w i L, i < ncomps d -> NoDup L -> (forall cr, In cr L <-> meets d i i cr) ->
  lk_worker d w i i = Ok (zsum (map (fun c => w (sg c)) L)).
Proof.
  intros w i L Hi NL HL. unfold lk_worker.
  destruct (nth_error (p_comp d) i) as [C|] eqn:H1; [|apply nth_error_None in H1; unfold ncomps in Hi; lia].
  unfold get. rewrite H1. cbn [bind]. rewrite Nat.ltb_irrefl.
  rewrite lk_loop_ok by (intros; eapply comp_range; eauto). cbn [bind]. f_equal.
  rewrite (sum_pairs (fun c => w (sg c)) L); auto.
  - rewrite Z.add_0_l, Z.mul_comm. apply Z.quot_mul. lia.
  - apply NoDup_filter. eapply comp_nodup; eauto.
  - intros e He. apply HL. eapply meets_in; eauto. apply in_map; auto.
  - intros c Hc. apply HL in Hc as (e & p & f & q & A & A' & N & OC & OC').
    destruct (arrives_rec _ _ _ A) as (Le & E1 & E2). destruct (arrives_rec _ _ _ A') as (Lf & F1 & F2).
    assert (IN : forall x, on_comp d x i -> In x (cp_edge C)) by (intros x (C' & HC' & I); congruence).
    exists e, f. rewrite !filter_In. repeat split; auto.
    + apply otherb_spec; auto. exists f, q. rewrite E1, E2. auto.
    + apply otherb_spec; auto. exists e, p. rewrite F1, F2. auto.
    + intros ->. congruence.
    + intros x Hx Ex. apply filter_In in Hx as (Ix & _).
      assert (Lx : x < nedges d) by (eapply comp_range; eauto).
      pose proof (rec_arrives x Lx) as Ax. rewrite Ex in Ax.
      destruct (Nat.eq_dec (e_headpos (rec x)) p) as [Q|Q]; [left; rewrite Q in Ax; eapply (arrives_fun d R); eauto|right].
      pose proof (rec_at e Le) as HE. destruct (proj2 R _ _ HE) as (SH & _). apply slot_lt in SH as (L1 & L2).
      destruct (step_ok e Le) as (y & q' & _ & _ & _ & _ & _ & S).
      destruct (crossing_strand _ _ _ L1 L2 S) as (f0 & r & _ & _ & _ & U). { exists e. apply rec_arrives; auto. }
      fold (hd e) in U. rewrite E1, E2 in U. destruct (U f q A') as (-> & _); auto. destruct (U x _ Ax Q); auto.
Qed.
End Diagram.
