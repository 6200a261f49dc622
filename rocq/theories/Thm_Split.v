(** C35: splitting a diagram into its connected pieces. *)
From Coq Require Import List ZArith Lia Bool Arith Permutation Sorted Relations.
From Verif Require Import Base Iterators Sorting ListAux Pd PdSpec PdProofs Relabel RelabelProofs RelabelSym
  Strands SlotCount PdCross PdCrossProofs PdIso RegenSpec RegenProofs Planar PdExamples Thm_Faces Thm_Comps Thm_Planar OverUnder Thm_LoopDel
  ApplyProofs DeloopSpec DeloopProofs DeloopComps Split SplitSpec SplitProofs SplitChild.
From Verif Require MoveProofs.
Import ListNotations.
Open Scope nat_scope.

Lemma map_ok_seq : forall (f : nat -> res pd) (Q : piece -> piece -> Prop) ps k,
  (forall i p, nth_error ps i = Some p -> exists q, f (k + i) = Ok (pc q) /\ Q p q) ->
  exists qs, map_ok f (seq k (length ps)) = Ok (map pc qs) /\ Forall2 Q ps qs.
Proof.
  intros f Q. induction ps as [|p ps IH]; intros k H.
  - exists []. split; auto.
  - destruct (H 0 p eq_refl) as (q & E & HQ). rewrite Nat.add_0_r in E. destruct (IH (S k)) as (qs & E2 & H2).
    { intros i p' Hp. destruct (H (S i) p' Hp) as (q' & E' & HQ'). exists q'. split; auto. rewrite <- E'. f_equal. lia. }
    exists (q :: qs). split; [|constructor; auto]. cbn [length seq map_ok]. rewrite E. cbn [bind]. rewrite E2. reflexivity.
Qed.

(** the new piece has the same crossings, edges and components in the big diagram *)
Record same_place (d : pd) (p q : piece) : Prop := {
  sl_inside : inside d q;
  sl_cross : Permutation (crossings_of q) (crossings_of p);
  sl_edge : Permutation (edges_of q) (edges_of p);
  sl_comp : Permutation (comps_of q) (comps_of p);
  sl_ok : pd_ok (pc q) = Ok true;
  sl_simple : simple_piece (pc q);
  sl_same : same_diagram (pc p) (pc q) }.

Lemma flat_map_forall2 : forall A B (f g : A -> list B) (Q : A -> A -> Prop) ps qs, (forall p q, Q p q -> Permutation (g q) (f p)) -> Forall2 Q ps qs ->
  Permutation (flat_map g qs) (flat_map f ps).
Proof. intros A B f g Q ps qs H F. induction F; cbn [flat_map]; auto. apply Permutation_app; auto. Qed.
Lemma flat_map_perm : forall A B (f : A -> list B) a b, Permutation a b -> Permutation (flat_map f a) (flat_map f b).
Proof. intros. rewrite !flat_map_concat_map. apply PdCompsProofs.concat_perm, Permutation_map. auto. Qed.
Lemma union_perm : forall d ps ps', union_of d ps -> Permutation ps ps' -> union_of d ps'.
Proof.
  intros d ps ps' [U1 U2 U3 U4] P. constructor.
  - intros p Hp. apply U1. eapply Permutation_in; [symmetry; exact P|auto].
  - etransitivity; [apply flat_map_perm, Permutation_sym, P|auto].
  - etransitivity; [apply flat_map_perm, Permutation_sym, P|auto].
  - etransitivity; [apply flat_map_perm, Permutation_sym, P|auto].
Qed.
Lemma sum_lengths : forall A B (f : A -> list B) (g : A -> nat) l, (forall x, In x l -> length (f x) = g x) -> list_sum (map g l) = length (flat_map f l).
Proof.
  induction l as [|x l IH]; intro H; [reflexivity|]. cbn [map flat_map]. change (list_sum (g x :: map g l)) with (g x + list_sum (map g l)).
  rewrite app_length, IH by (intros; apply H; simpl; auto). rewrite H by (simpl; auto). reflexivity.
Qed.

Lemma place_kept : forall d ps, union_of d ps -> (forall p, In p ps -> simple_piece (pc p)) -> nedges d <= MAXEDGES d ->
  forall code j p, nth_error ps j = Some p -> length code = nedges d -> (forall e, nth_error code e = Some (Some j) <-> In e (edges_of p)) ->
  exists q, split_child d code j = Ok (pc q) /\ same_place d p q.
Proof.
  intros d ps U SP HM code j p Hp HL HC. destruct (nth_error_split _ _ Hp) as (l1 & l2 & EQ & _). pose proof (nth_error_In _ _ Hp) as Ip. pose proof (un_inside _ _ U p Ip) as I.
  destruct (SP p Ip) as [(tag & C)|D].
  - destruct (circle_child d ps U SP code j p l1 l2 EQ HL HC HM tag C) as (c' & E & C' & OK & N0 & N1 & PC).
    exists (mkPiece c' (at_cross p) (at_turn p) (at_edge p)). split; [exact E|]. destruct C as (C1 & (E0 & C2 & UE) & C3). destruct C' as (C1' & (E0' & C2' & UE') & C3').
    constructor; cbn [pc].
    + constructor; cbn [pc at_cross at_turn at_edge].
      * intros v Hv. unfold ncross in Hv. rewrite C1' in Hv. cbn in Hv. lia.
      * intros v k e (_ & x & Hx & _). rewrite C1' in Hx. destruct v; discriminate.
      * intros v s (x & Hx & _). rewrite C1' in Hx. destruct v; discriminate.
      * intros e X HX. unfold edge_at in HX. rewrite C2' in HX. destruct e as [|[|e]]; cbn in HX; try discriminate. injection HX as <-.
        destruct (in_edge _ _ I 0 E0) as (E1 & H1 & Q); [unfold edge_at; rewrite C2; reflexivity|]. exists E1. split; auto. rewrite UE'. rewrite UE in Q. exact Q.
    + unfold crossings_of, ncross. cbn [pc at_cross]. rewrite C1, C1'. apply Permutation_refl.
    + unfold edges_of, nedges. cbn [pc at_edge]. rewrite C2, C2'. apply Permutation_refl.
    + unfold comps_of. cbn [pc at_edge]. rewrite C3, C3'. apply Permutation_refl.
    + exact OK.
    + left. exists tag. split; auto. split; eauto.
    + left. exists tag. split; (split; [|split]); eauto.
  - destruct (drawn_child d ps U SP code j p l1 l2 EQ HL HC HM D) as (c' & s & r & q & E & RL & PM & D' & OK & CC & _).
    pose proof (dr_recorded _ D) as R. pose proof (dr_ends _ D) as T. pose proof (rl_sym_at _ _ _ _ _ RL R T) as RS.
    set (s' := sigma' (pc p) s) in *. set (r' := rho' (pc p) s r) in *. set (q' := pi' (pc p) q) in *.
    eexists. split; [|constructor]; [|exact (inside_relabelled d p c' s' r' q' I D RS (dr_recorded _ D'))|..]; cbn [pc at_cross at_edge].
    + exact E.
    + unfold crossings_of. cbn [pc at_cross]. rewrite (rl_ncross _ _ _ _ _ RL), <- map_map with (f := s') (g := at_cross p).
      apply Permutation_map. pose proof (bij_perm _ _ (rl_sigma _ _ _ _ _ RS)) as Z. rewrite (rl_ncross _ _ _ _ _ RL) in Z. exact Z.
    + unfold edges_of. cbn [pc at_edge]. rewrite (rl_nedges _ _ _ _ _ RL), <- map_map with (f := q') (g := at_edge p).
      apply Permutation_map. pose proof (bij_perm _ _ (rl_pi _ _ _ _ _ RS)) as Z. rewrite (rl_nedges _ _ _ _ _ RL) in Z. exact Z.
    + unfold comps_of. cbn [pc at_edge]. etransitivity; [apply Permutation_map, PM|]. rewrite map_map.
      erewrite map_ext_in; [apply Permutation_refl|]. intros k Hk. unfold rename_comp_by. cbn [cp_edge cp_tag]. f_equal. rewrite map_map.
      apply map_ext_in. intros e He. unfold q', pi'. rewrite inv_left; auto; [apply (rl_pi _ _ _ _ _ RL)|].
      destruct (dr_comps _ D) as (_ & _ & S3). apply S3, in_concat. exists (cp_edge k). split; auto. apply in_map. auto.
    + exact OK.
    + right. exact D'.
    + right. split; auto. split; auto. exists s, r, q. auto.
Qed.

(** Whenever [d] is the disjoint union of connected planar diagrams and circles, numbered in any way, the function
    succeeds.  Its results are those diagrams, in canonical numberings, in some order: they pass the checks, and every
    crossing, edge and component of [d], with its tag, is in exactly one of them. *)
Theorem split_diagram : forall d ps fuel, union_of d ps -> (forall p, In p ps -> simple_piece (pc p)) ->
  nedges d <= MAXEDGES d -> nedges d < fuel ->
  exists ps' qs, Permutation ps ps' /\ pd_split_diagram fuel d = Ok (map pc qs) /\ union_of d qs /\
    (forall q, In q qs -> pd_ok (pc q) = Ok true /\ simple_piece (pc q)) /\
    Forall2 (fun p q => same_diagram (pc p) (pc q)) ps' qs.
Proof.
  intros d ps fuel U SP HM HF. destruct (codes_ok d ps U SP fuel HF) as (ps' & code & E & P & HL & HC).
  pose proof (union_perm _ _ _ U P) as U'.
  assert (SP' : forall p, In p ps' -> simple_piece (pc p)) by (intros p Hp; apply SP; eapply Permutation_in; [symmetry; exact P|auto]).
  destruct (map_ok_seq (split_child d code) (same_place d) ps' 0) as (qs & E2 & F).
  { intros i p Hp. apply (place_kept d ps' U' SP' HM); auto. }
  exists ps', qs. split; auto.
  assert (UQ : union_of d qs).
  { constructor.
    - intros q Hq. clear -F Hq. induction F as [|p q' ps qs H F IH]; [destruct Hq|]. destruct Hq as [<-|Hq]; auto. apply H.
    - etransitivity; [apply (flat_map_forall2 _ _ crossings_of crossings_of (same_place d) ps' qs); [intros ? ? [] ; auto|auto]|apply U'].
    - etransitivity; [apply (flat_map_forall2 _ _ edges_of edges_of (same_place d) ps' qs); [intros ? ? [] ; auto|auto]|apply U'].
    - etransitivity; [apply (flat_map_forall2 _ _ comps_of comps_of (same_place d) ps' qs); [intros ? ? [] ; auto|auto]|apply U']. }
  split.
  - unfold pd_split_diagram. rewrite E. cbn [bind fst snd]. rewrite E2. cbn [bind].
    assert (X1 : list_sum (map ncross (map pc qs)) = ncross d).
    { rewrite map_map. rewrite (sum_lengths _ _ crossings_of); [rewrite (Permutation_length (un_cross _ _ UQ)), seq_length; reflexivity|].
      intros q _. unfold crossings_of. rewrite map_length, seq_length. reflexivity. }
    assert (X2 : list_sum (map nedges (map pc qs)) = nedges d).
    { rewrite map_map. rewrite (sum_lengths _ _ edges_of); [rewrite (Permutation_length (un_edge _ _ UQ)), seq_length; reflexivity|].
      intros q _. unfold edges_of. rewrite map_length, seq_length. reflexivity. }
    assert (X3 : list_sum (map ncomps (map pc qs)) = ncomps d).
    { rewrite map_map. rewrite (sum_lengths _ _ comps_of); [rewrite (Permutation_length (un_comp _ _ UQ)); reflexivity|].
      intros q _. unfold comps_of. rewrite map_length. reflexivity. }
    rewrite X1, X2, X3, !Nat.eqb_refl. reflexivity.
  - split; auto. split.
    + intros q Hq. clear -F Hq. induction F as [|p q' ps qs H F IH]; [destruct Hq|]. destruct Hq as [<-|Hq]; auto. split; apply H.
    + clear -F. induction F as [|p q' ps qs H F IH]; constructor; auto. apply H.
Qed.

(** in a union of connected pieces, two crossings are joined by a path exactly if they are in the same piece *)
Theorem split_connected : forall d ps v w, union_of d ps -> (forall p, In p ps -> simple_piece (pc p)) -> v < ncross d ->
  clos_refl_trans nat (joined d) v w <-> exists p, In p ps /\ In v (crossings_of p) /\ In w (crossings_of p).
Proof.
  intros d ps v w U SP Hv.
  assert (OWN : forall x, x < ncross d -> exists p, In p ps /\ In x (crossings_of p)).
  { intros x Hx. apply in_flat_map. apply (Permutation_in _ (Permutation_sym (un_cross _ _ U))), in_seq. lia. }
  assert (CI : forall p x, In p ps -> In x (crossings_of p) -> exists c, c < ncross (pc p) /\ x = at_cross p c).
  { intros p x Hp Hx. unfold crossings_of in Hx. apply in_map_iff in Hx as (c & <- & Hc). apply in_seq in Hc. exists c. split; auto. lia. }
  assert (DR : forall p c, In p ps -> c < ncross (pc p) -> drawn (pc p)).
  { intros p c Hp Hc. destruct (SP p Hp) as [(tag & C1 & _)|D]; auto. unfold ncross in Hc. rewrite C1 in Hc. cbn in Hc. lia. }
  assert (SF : forall p c r e, In p ps -> c < ncross (pc p) -> slot d (at_cross p c) r e -> exists q y, slot (pc p) c q y /\ e = at_edge p y /\ y < nedges (pc p)).
  { intros p c r e Hp Hc S. pose proof (DR p c Hp Hc) as D.
    destruct (inside_slot d p c r e (un_inside _ _ U p Hp) Hc S) as (q & y & Sy & _ & Ey). exists q, y. split; auto. split; auto.
    eapply consistent_bound; [apply D|apply D|exact Sy]. }
  split.
  - intro K. assert (G : forall p, In p ps -> In v (crossings_of p) -> In w (crossings_of p)).
    { clear Hv. induction K as [a b (e & r & r' & S1 & S2)|a|a b z _ IH1 _ IH2]; auto.
      intros p Hp Ha. destruct (CI p a Hp Ha) as (c & Hc & ->). pose proof (slot_lt _ _ _ _ S2) as (Lb & _). destruct (OWN b Lb) as (p' & Hp' & Hb).
      destruct (CI p' b Hp' Hb) as (c' & Hc' & ->). destruct (SF p c r e Hp Hc S1) as (q & y & Sy & -> & Ly). destruct (SF p' c' r' _ Hp' Hc' S2) as (q' & y' & Sy' & Ey & Ly').
      apply In_nth_error in Hp as Ni. destruct Ni as (i & Ni). apply In_nth_error in Hp' as Ni'. destruct Ni' as (i' & Ni').
      assert (i = i').
      { transitivity (owner ps (at_edge p y)).
        - symmetry. apply (owner_at d ps U p i y Ni Ly).
        - rewrite Ey. apply (owner_at d ps U p' i' y' Ni' Ly'). }
      subst i'. rewrite Ni in Ni'. injection Ni' as <-. exact Hb. }
    destruct (OWN v Hv) as (p & Hp & Hvp). exists p. split; auto.
  - intros (p & Hp & Hvp & Hwp). destruct (CI p v Hp Hvp) as (c & Hc & ->). destruct (CI p w Hp Hwp) as (c' & Hc' & ->).
    pose proof (DR p c Hp Hc) as D. pose proof (dr_connected _ D c c' Hc Hc') as K. pose proof (un_inside _ _ U p Hp) as I. clear -K I.
    induction K as [a b (e & r & r' & S1 & S2)|a|a b z _ IH1 _ IH2].
    + apply rt_step. exists (at_edge p e). do 2 eexists. split; eapply (in_slot _ _ I); eauto.
    + apply rt_refl.
    + eapply rt_trans; eauto.
Qed.

(** a diagram is the union of itself alone, so a connected one comes back as a single result *)
Definition whole (d : pd) : piece := mkPiece d (fun v => v) (fun _ => 0) (fun e => e).
Lemma union_whole : forall d, simple_piece d -> union_of d [whole d].
Proof.
  intros d S. constructor.
  - intros p [<-|[]]. constructor; cbn [whole pc at_cross at_turn at_edge].
    + intros; lia.
    + intros v q e H. pose proof (slot_lt _ _ _ _ H) as (_ & Hq). cbn [moved snd]. rewrite moved_id by auto. exact H.
    + auto.
    + intros e E HE. exists E. split; auto. destruct (unset_edge E) eqn:UE; auto. destruct S as [(tag & _ & (X & C2 & UX) & _)|D].
      * unfold edge_at in HE. rewrite C2 in HE. destruct e as [|[|e]]; cbn in HE; congruence.
      * destruct (dr_recorded _ D) as (_ & Rr). destruct (Rr e E HE) as (S1 & S2). apply slot_lt in S1, S2. unfold head_slot, tail_slot, moved. rewrite !moved_id by tauto. auto.
  - cbn [flat_map]. rewrite app_nil_r. unfold crossings_of. cbn [whole pc at_cross]. rewrite map_id. apply Permutation_refl.
  - cbn [flat_map]. rewrite app_nil_r. unfold edges_of. cbn [whole pc at_edge]. rewrite map_id. apply Permutation_refl.
  - cbn [flat_map]. rewrite app_nil_r. unfold comps_of. cbn [whole pc at_edge].
    rewrite (map_ext _ (fun k => k)); [rewrite map_id; apply Permutation_refl|]. intros [l t]. unfold rename_comp_by. cbn. rewrite map_id. reflexivity.
Qed.
Theorem split_single : forall d fuel, simple_piece d -> nedges d <= MAXEDGES d -> nedges d < fuel ->
  exists c, pd_split_diagram fuel d = Ok [c] /\ same_diagram d c /\ pd_ok c = Ok true.
Proof.
  intros d fuel S HM HF. destruct (split_diagram d [whole d] fuel (union_whole d S)) as (ps' & qs & P & E & UQ & OK & F); auto.
  { intros p [<-|[]]. exact S. }
  apply Permutation_length_1_inv in P. subst ps'. inversion F as [|? q ? qs' H F']; subst. inversion F'; subst. exists (pc q). split; [exact E|]. split; [exact H|]. apply OK. simpl. auto.
Qed.

(** the diagrams on which loops are removed, in particular those with all the properties that the checks suggest,
    are drawn *)
Theorem workable_drawn : forall d, workable d -> drawn d.
Proof.
  intros d [Hn Hm R G T NA LC TG FP NF CN]. constructor; auto; [apply comps_partition; auto|].
  exists (p_face d). split; auto. split; auto. apply Forall_forall. intros F HF. pose proof (face_edges_distinct d R T FP NF CN F HF) as ND.
  rewrite <- (map_length fst F), <- (seq_length (nedges d) 0). apply NoDup_incl_length; auto. intros x Hx. apply in_map_iff in Hx as (a & <- & Ha).
  destruct FP as (_ & _ & P3). assert (is_dart d a) as (L & _) by (apply P3, in_concat; eauto). apply in_seq. lia.
Qed.

(** ** two diagrams side by side *)
Definition shift_cross (n : nat) (x : crossing) : crossing := mkCross (n + ce0 x) (n + ce1 x) (n + ce2 x) (n + ce3 x) (csign x).
Definition shift_edge (n : nat) (E : edge) : edge := mkEdge (n + e_head E) (e_headpos E) (n + e_tail E) (e_tailpos E).
Definition beside (a b : pd) : pd :=
  mkPd (p_maxv a + p_maxv b) 0 [] (p_edge a ++ map (shift_edge (ncross a)) (p_edge b)) (p_cross a ++ map (shift_cross (nedges a)) (p_cross b))
    (p_comp a ++ map (rename_comp_by (fun e => nedges a + e)) (p_comp b)) [].
Definition shifted (a : pd) (p : piece) : piece := mkPiece (pc p) (fun v => ncross a + at_cross p v) (at_turn p) (fun e => nedges a + at_edge p e).

Lemma map_seq_shift : forall n k, map (fun x => n + x) (seq 0 k) = seq n k.
Proof.
  intros n k. assert (G : forall m, map (fun x => n + x) (seq m k) = seq (n + m) k).
  { induction k as [|k IH]; intro m; [reflexivity|]. cbn [seq map]. f_equal. rewrite IH. f_equal. lia. }
  rewrite G, Nat.add_0_r. reflexivity.
Qed.
Lemma flat_map_shifted : forall a B (f : piece -> list B) (g : B -> B), (forall p, f (shifted a p) = map g (f p)) ->
  forall ps qs, flat_map f (ps ++ map (shifted a) qs) = flat_map f ps ++ map g (flat_map f qs).
Proof.
  intros a B f g H ps qs. rewrite flat_map_app. f_equal. induction qs as [|q l IH]; [reflexivity|]. cbn [map flat_map]. rewrite map_app, H. f_equal. exact IH.
Qed.
Lemma shift_slot : forall a b v q e, slot b v q e -> slot (beside a b) (ncross a + v) q (nedges a + e).
Proof.
  intros a b v q e (Hq & x & Hx & Ex). split; auto. exists (shift_cross (nedges a) x). split.
  - cbn [beside p_cross]. rewrite nth_error_app2 by (unfold ncross; lia). replace (ncross a + v - length (p_cross a)) with v by (unfold ncross; lia). apply map_nth_error. auto.
  - destruct (small4 q Hq) as [->|[->|[->| ->]]]; cbn in *; lia.
Qed.
Theorem union_beside : forall a b ps qs, union_of a ps -> union_of b qs -> union_of (beside a b) (ps ++ map (shifted a) qs).
Proof.
  intros a b ps qs UA UB. constructor.
  - intros p Hp. apply in_app_iff in Hp as [Hp|Hp].
    + destruct (un_inside _ _ UA p Hp) as [I1 I2 I3 I4]. constructor; auto.
      * intros v q e S. destruct (I2 v q e S) as (Hq & x & Hx & Ex). split; auto. exists x. split; auto. cbn [beside p_cross]. rewrite nth_error_app1; auto. apply nth_error_Some. congruence.
      * intros v s S. destruct (I3 v s S) as (x & Hx & Ex). exists x. split; auto. cbn [beside p_cross]. rewrite nth_error_app1; auto. apply nth_error_Some. congruence.
      * intros e E HE. destruct (I4 e E HE) as (E' & HE' & Q). exists E'. split; auto. unfold edge_at in *. cbn [beside p_edge]. rewrite nth_error_app1; auto. apply nth_error_Some. congruence.
    + apply in_map_iff in Hp as (p0 & <- & Hp). destruct (un_inside _ _ UB p0 Hp) as [I1 I2 I3 I4]. constructor; cbn [shifted pc at_cross at_turn at_edge]; auto.
      * intros v q e S. apply shift_slot. exact (I2 v q e S).
      * intros v s S. destruct (I3 v s S) as (x & Hx & Ex). exists (shift_cross (nedges a) x). split; auto. cbn [beside p_cross].
        rewrite nth_error_app2 by (unfold ncross; lia). replace (ncross a + at_cross p0 v - length (p_cross a)) with (at_cross p0 v) by (unfold ncross; lia). apply map_nth_error. auto.
      * intros e E HE. destruct (I4 e E HE) as (E' & HE' & Q). exists (shift_edge (ncross a) E'). split.
        -- unfold edge_at in *. cbn [beside p_edge]. rewrite nth_error_app2 by (unfold nedges; lia).
           replace (nedges a + at_edge p0 e - length (p_edge a)) with (at_edge p0 e) by (unfold nedges; lia). apply map_nth_error. auto.
        -- destruct (unset_edge E); [exact Q|]. destruct Q as (Q1 & Q2). unfold head_slot, tail_slot, moved in *. cbn [shift_edge e_head e_headpos e_tail e_tailpos].
           apply MoveProofs.pair_eq in Q1 as (-> & ->). apply MoveProofs.pair_eq in Q2 as (-> & ->). auto.
  - rewrite (flat_map_shifted a _ crossings_of (fun x => ncross a + x)).
    2:{ intro p. unfold crossings_of. cbn [shifted pc at_cross]. rewrite map_map. reflexivity. }
    assert (NB : ncross (beside a b) = ncross a + ncross b) by (unfold ncross at 1, beside; cbn [p_cross]; rewrite app_length, map_length; reflexivity). rewrite NB, seq_app. apply Permutation_app; [apply UA|].
    etransitivity; [apply Permutation_map, (un_cross _ _ UB)|]. rewrite map_seq_shift. apply Permutation_refl.
  - rewrite (flat_map_shifted a _ edges_of (fun x => nedges a + x)).
    2:{ intro p. unfold edges_of. cbn [shifted pc at_edge]. rewrite map_map. reflexivity. }
    assert (NB : nedges (beside a b) = nedges a + nedges b) by (unfold nedges at 1, beside; cbn [p_edge]; rewrite app_length, map_length; reflexivity). rewrite NB, seq_app. apply Permutation_app; [apply UA|].
    etransitivity; [apply Permutation_map, (un_edge _ _ UB)|]. rewrite map_seq_shift. apply Permutation_refl.
  - rewrite (flat_map_shifted a _ comps_of (rename_comp_by (fun e => nedges a + e))).
    2:{ intro p. unfold comps_of. cbn [shifted pc at_edge]. rewrite map_map. apply map_ext. intro k. unfold rename_comp_by. cbn [cp_edge cp_tag]. rewrite map_map. reflexivity. }
    cbn [beside p_comp]. apply Permutation_app; [apply UA|]. apply Permutation_map, (un_comp _ _ UB).
Qed.

(** Splitting undoes putting side by side. *)
Theorem split_beside : forall a b fuel, simple_piece a -> simple_piece b -> nedges a <= 2 * p_maxv a -> nedges b <= 2 * p_maxv b + 1 -> nedges a + nedges b < fuel ->
  exists a' b', same_diagram a a' /\ same_diagram b b' /\ pd_ok a' = Ok true /\ pd_ok b' = Ok true /\
    (pd_split_diagram fuel (beside a b) = Ok [a'; b'] \/ pd_split_diagram fuel (beside a b) = Ok [b'; a']).
Proof.
  intros a b fuel SA SB MA MB HF. pose proof (union_beside a b _ _ (union_whole a SA) (union_whole b SB)) as U.
  assert (NE : nedges (beside a b) = nedges a + nedges b) by (unfold nedges at 1, beside; cbn [p_edge]; rewrite app_length, map_length; reflexivity).
  destruct (split_diagram _ _ fuel U) as (ps' & qs & P & E & UQ & OK & F).
  - intros p [<-|[<-|[]]]; cbn [pc shifted whole]; auto.
  - unfold MAXEDGES. rewrite NE. cbn [beside p_maxv]. lia.
  - lia.
  - cbn [app map] in P. apply Permutation_length_2_inv in P. destruct P as [-> | ->].
    + inversion F as [|? q1 ? qs1 H1 F1]; subst. inversion F1 as [|? q2 ? qs2 H2 F2]; subst. inversion F2; subst. exists (pc q1), (pc q2).
      repeat split; auto; try (apply OK; simpl; auto).
    + inversion F as [|? q1 ? qs1 H1 F1]; subst. inversion F1 as [|? q2 ? qs2 H2 F2]; subst. inversion F2; subst. exists (pc q2), (pc q1).
      repeat split; auto; try (apply OK; simpl; auto).
Qed.

(** ** the hypotheses are met *)
Lemma circle_unknot : circle unknot0 65%Z.
Proof. split; [reflexivity|]. split; [eexists; split; reflexivity|reflexivity]. Qed.
Definition three_pieces : pd := beside curly_trefoil (beside unknot0 curly_trefoil).
Example three_union : exists ps, union_of three_pieces ps /\ (forall p, In p ps -> simple_piece (pc p)) /\ map (fun p => ncross (pc p)) ps = [4; 0; 4] /\
  nedges three_pieces <= MAXEDGES three_pieces.
Proof.
  assert (C : simple_piece curly_trefoil) by (right; apply workable_drawn, curly_workable).
  assert (K : simple_piece unknot0) by (left; exists 65%Z; apply circle_unknot).
  eexists. split; [|split; [|split]].
  - apply union_beside; [apply union_whole; auto|]. apply union_beside; apply union_whole; auto.
  - intros p [<-|[<-|[<-|[]]]]; auto.
  - reflexivity.
  - cbn. lia.
Qed.
(** all 17 edges in one list; the second and third piece start at edges 8 and 9 *)
Example three_split : exists a b c, pd_split_diagram 18 three_pieces = Ok [a; b; c] /\
  p_cross a = p_cross c /\ ncross a = 4 /\ ncross b = 0 /\ p_comp b = [mkComp [0] 65%Z] /\ pd_ok a = Ok true.
Proof. do 3 eexists. split; [vm_compute; reflexivity|]. repeat split. Qed.

Print Assumptions split_diagram.
Print Assumptions split_connected.
Print Assumptions split_single.
Print Assumptions split_beside.
Print Assumptions union_beside.
Print Assumptions workable_drawn.
