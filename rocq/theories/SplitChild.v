(** The children of a split diagram are its pieces. *)
From Coq Require Import List ZArith Lia Bool Arith Permutation Sorted Relations.
From Verif Require Import Base Iterators Sorting ListAux Pd PdSpec PdProofs Relabel RelabelProofs RelabelSym
  Strands SlotCount PdCross PdCrossProofs PdEdges PdComps PdCompsProofs PdFaces PdFacesProofs PdHash HashSpec HashProofs HashIso PdRegen RegenSpec RegenProofs
  PdIso Planar Thm_Pd Thm_Cross Thm_Faces Thm_Comps OverUnder FewComps
  ApplyProofs DeloopSpec DeloopProofs DeloopComps Split SplitSpec SplitProofs.
From Verif Require MoveProofs Perm PermProofs Thm_LoopDel.
Import ListNotations.
Open Scope nat_scope.

(** ** counting and sorting *)
Lemma filter_seq : forall A (f : A -> bool) (z : A) l, length (filter f l) = length (filter (fun e => f (nth e l z)) (seq 0 (length l))).
Proof.
  intros A f z l. assert (E : l = map (fun e => nth e l z) (seq 0 (length l))).
  { apply nth_ext with (d := z) (d' := nth 0 l z); [rewrite map_length, seq_length; reflexivity|]. intros n Hn.
    rewrite (map_nth (fun e => nth e l z)), seq_nth by auto. reflexivity. }
  rewrite E at 1. generalize (seq 0 (length l)) as s. induction s as [|x s IH]; cbn [map filter]; auto. destruct (f (nth x l z)); cbn [length]; auto.
Qed.

Definition four (x : nat) : list nat := [x; x; x; x].
Lemma every_fourth_four : forall l, every_fourth (flat_map four l) = l.
Proof. induction l as [|x l IH]; [reflexivity|]. cbn [flat_map four app every_fourth]. f_equal. exact IH. Qed.
Lemma leb_total : forall x y, (x <=? y) = false -> (y <=? x) = true.
Proof. intros x y H. apply Nat.leb_gt in H. apply Nat.leb_le. lia. Qed.
Lemma leb_tr : forall x y z, (x <=? y) = true -> (y <=? z) = true -> (x <=? z) = true.
Proof. intros x y z H K. apply Nat.leb_le in H, K. apply Nat.leb_le. lia. Qed.
Lemma four_sorted : forall l, StronglySorted (lep Nat.leb) l -> StronglySorted (lep Nat.leb) (flat_map four l).
Proof.
  intros l S. induction S as [|x l S IH F]; cbn [flat_map]; [constructor|].
  assert (FX : Forall (lep Nat.leb x) (flat_map four l)).
  { rewrite Forall_forall in *. intros y Hy. apply in_flat_map in Hy as (z & Hz & [<-|[<-|[<-|[<-|[]]]]]); auto. }
  assert (X : lep Nat.leb x x) by apply Nat.leb_refl.
  unfold four at 1. cbn [app]. repeat (constructor; [|repeat (constructor; auto)]); auto.
Qed.
Lemma four_perm : forall a b, Permutation a b -> Permutation (flat_map four a) (flat_map four b).
Proof.
  intros a b P. induction P; cbn [flat_map]; auto.
  - apply Permutation_app_head; auto.
  - rewrite !app_assoc. apply Permutation_app_tail, Permutation_app_comm.
  - etransitivity; eauto.
Qed.
Lemma every_fourth_sort : forall l m, Permutation l (flat_map four m) -> every_fourth (isort Nat.leb l) = isort Nat.leb m.
Proof.
  intros l m P. rewrite <- (every_fourth_four (isort Nat.leb m)). f_equal.
  apply (@sorted_unique nat Nat.leb).
  - intros x y H K. apply Nat.leb_le in H, K. lia.
  - apply isort_sorted; [apply leb_total|apply leb_tr].
  - apply four_sorted, isort_sorted; [apply leb_total|apply leb_tr].
  - etransitivity; [apply isort_perm|]. etransitivity; [exact P|]. apply four_perm, Permutation_sym, isort_perm.
Qed.

(** the ends of the edges are each crossing four times *)
Lemma ends_four : forall c, ends_recorded c -> two_ended c ->
  Permutation (flat_map (fun E => [e_head E; e_tail E]) (p_edge c)) (flat_map four (seq 0 (ncross c))).
Proof.
  intros c R T. pose proof (Permutation_map fst (dto_perm c R T)) as P.
  assert (E1 : map fst (map (dto c) (darts c)) = flat_map (fun E => [e_head E; e_tail E]) (p_edge c)).
  { unfold darts, dto, nedges. rewrite map_map.
    assert (G : forall l k full, (forall i, nth_error full (k + i) = nth_error l i) ->
      map (fun x => fst (match nth_error full (fst x) with Some E => match snd x with Neg => tail_slot E | _ => head_slot E end | None => (0, 0) end))
        (flat_map (fun e => [(e, Pos); (e, Neg)]) (seq k (length l))) = flat_map (fun E => [e_head E; e_tail E]) l).
    { induction l as [|x l IH]; intros k full H; [reflexivity|]. cbn [length seq flat_map app map fst snd]. pose proof (H 0) as H0. rewrite Nat.add_0_r in H0. cbn in H0.
      rewrite H0. cbn [head_slot tail_slot fst]. do 2 f_equal. apply IH. intro i. pose proof (H (S i)) as Hi. cbn [nth_error] in Hi. rewrite <- Hi. f_equal. lia. }
    apply G. auto. }
  assert (E2 : map fst (places c) = flat_map four (seq 0 (ncross c))).
  { unfold places. generalize (seq 0 (ncross c)) as s. induction s as [|x s IH]; [reflexivity|]. cbn [list_prod seq map app flat_map four fst] in *. do 4 f_equal. exact IH. }
  rewrite E1, E2 in P. exact P.
Qed.

(** ** components with their edges numbered consecutively *)
Lemma consecutive_block : forall cs num g, map g (concat (map cp_edge cs)) = seq num (length (concat (map cp_edge cs))) ->
  consecutive num cs = map (rename_comp_by g) cs.
Proof.
  induction cs as [|c cs IH]; intros num g H; auto. cbn [map concat] in H. rewrite map_app, app_length, seq_app in H.
  apply app_inj_len in H as (H1 & H2); [|rewrite map_length, seq_length; auto].
  cbn [consecutive map]. unfold rename_comp_by at 1. rewrite H1. f_equal. apply IH; auto.
Qed.
Lemma consecutive_edges : forall cs num i, map cp_edge (consecutive num cs) = map cp_edge (renumbered num i cs).
Proof. induction cs as [|c cs IH]; intros num i; [reflexivity|]. cbn [consecutive renumbered map cp_edge]. f_equal. apply IH. Qed.

Lemma moved_id : forall p, p < 4 -> (p + 4 - 0) mod 4 = p.
Proof. intros p H. destruct (small4 p H) as [-> |[-> |[-> | ->]]]; reflexivity. Qed.

(** a relabelled piece is at the same place *)
Lemma inside_relabelled : forall d p c' s r q, inside d p -> drawn (pc p) -> relabelled c' (pc p) s r q -> ends_recorded c' ->
  inside d (mkPiece c' (fun v => at_cross p (s v)) (fun v => (r v + at_turn p (s v)) mod 4) (fun e => at_edge p (q e))).
Proof.
  intros d p c' s r q I D RL R'.
  assert (MV : forall v k, v < ncross c' -> k < 4 -> (k + 4 - (r v + at_turn p (s v)) mod 4) mod 4 = ((k + 4 - r v) mod 4 + 4 - at_turn p (s v)) mod 4).
  { intros v k Hv Hk. pose proof (rl_rho _ _ _ _ _ RL v Hv) as L1. assert (L2 : at_turn p (s v) < 4).
    { apply (in_turn _ _ I). rewrite (rl_ncross _ _ _ _ _ RL). apply (rl_sigma _ _ _ _ _ RL). auto. }
    destruct (small4 k Hk) as [-> |[-> |[-> | ->]]]; destruct (small4 _ L1) as [-> |[-> |[-> | ->]]]; destruct (small4 _ L2) as [-> |[-> |[-> | ->]]]; reflexivity. }
  constructor; cbn [pc at_cross at_turn at_edge].
  - intros; apply mod4_lt.
  - intros v k e S. pose proof (slot_lt _ _ _ _ S) as (Lv & Lk). apply (rl_slot _ _ _ _ _ RL) in S. apply (in_slot _ _ I) in S. cbn [moved snd] in *.
    rewrite MV by auto. exact S.
  - intros v g S. apply (in_sign _ _ I), (rl_sign _ _ _ _ _ RL). exact S.
  - intros e E HE. destruct (rl_edge _ _ _ _ _ RL e E HE) as (X & HX & Q1 & Q2). destruct (in_edge _ _ I _ _ HX) as (E' & HE' & Q). exists E'. split; auto.
    rewrite (drawn_live _ _ _ D HX) in Q. destruct R' as (_ & Rr). destruct (Rr e E HE) as (S1 & S2). apply slot_lt in S1 as (L1 & P1). apply slot_lt in S2 as (L2 & P2).
    assert (unset_edge E = false) as -> by (unfold unset_edge; destruct (Nat.eqb_spec (e_headpos E) 4); [lia|reflexivity]).
    destruct Q as (-> & ->). unfold head_slot, tail_slot, moved in *. apply MoveProofs.pair_eq in Q1 as (-> & ->). apply MoveProofs.pair_eq in Q2 as (-> & ->).
    rewrite !MV by auto. auto.
Qed.

Lemma inside_slot : forall d p v r e, inside d p -> v < ncross (pc p) -> slot d (at_cross p v) r e ->
  exists q y, slot (pc p) v q y /\ r = snd (moved (at_cross p) (at_turn p) v q) /\ e = at_edge p y.
Proof.
  intros d p v r e I Hv S. pose proof (slot_lt _ _ _ _ S) as (_ & Hr). pose proof (in_turn _ _ I v Hv) as Ht.
  assert (P : exists q, q < 4 /\ (q + 4 - at_turn p v) mod 4 = r).
  { destruct (small4 r Hr) as [->|[->|[->| ->]]]; destruct (small4 _ Ht) as [->|[->|[->| ->]]];
      first [exists 0; split; [lia|reflexivity]|exists 1; split; [lia|reflexivity]
            |exists 2; split; [lia|reflexivity]|exists 3; split; [lia|reflexivity]]. }
  destruct P as (q & Hq & Eq). destruct (slot_ex (pc p) v q Hv Hq) as (y & Sy). exists q, y. split; auto. split; auto.
  apply (in_slot _ _ I) in Sy. cbn [moved snd] in Sy. rewrite Eq in Sy. eapply slot_fun; eauto.
Qed.

Section Child.
Context (d : pd) (ps : list piece) (U : union_of d ps) (SP : forall p, In p ps -> simple_piece (pc p)).
Context (code : list (option nat)) (j : nat) (p : piece) (l1 l2 : list piece) (EQ : ps = l1 ++ p :: l2).
Context (HL : length code = nedges d) (HC : forall e, nth_error code e = Some (Some j) <-> In e (edges_of p)) (HM : nedges d <= MAXEDGES d).
Notation c := (pc p).
Notation kc := (at_cross p).
Notation ke := (at_edge p).

Lemma piece_in : In p ps.
Proof. rewrite EQ. apply in_app_iff. simpl. auto. Qed.
Lemma piece_edges_nodup : NoDup (edges_of p).
Proof.
  pose proof (edges_nodup d ps U) as N. rewrite EQ, flat_map_app in N. cbn [flat_map] in N. apply NoDup_app_inv in N as (_ & N & _). apply NoDup_app_inv in N as (N & _). exact N.
Qed.
Lemma piece_edges_other : forall p' e, In p' l1 \/ In p' l2 -> In e (edges_of p') -> ~ In e (edges_of p).
Proof.
  intros p' e H I J. pose proof (edges_nodup d ps U) as N. rewrite EQ, flat_map_app in N. cbn [flat_map] in N. apply NoDup_app_inv in N as (_ & N & D1). apply NoDup_app_inv in N as (_ & _ & D2).
  destruct H as [H|H].
  - apply (D1 e); [apply in_flat_map; eauto|apply in_app_iff; auto].
  - apply (D2 e J). apply in_flat_map; eauto.
Qed.

Definition has (k : option nat) : bool := match k with Some k => k =? j | None => false end.
Lemma has_true : forall e, has (nth e code None) = true <-> In e (edges_of p).
Proof.
  intro e. rewrite <- HC. split.
  - intro H. destruct (nth_error code e) as [o|] eqn:X.
    + rewrite (nth_error_nth _ _ _ X) in H. destruct o as [k|]; cbn in H; [|discriminate]. apply Nat.eqb_eq in H. congruence.
    + apply nth_error_None in X. rewrite nth_overflow in H by auto. discriminate.
  - intro H. rewrite (nth_error_nth _ _ _ H). cbn. apply Nat.eqb_refl.
Qed.
Lemma count_ok : length (filter has code) = nedges c.
Proof.
  rewrite (filter_seq _ has None). transitivity (length (edges_of p)); [|unfold edges_of; rewrite map_length, seq_length; reflexivity].
  apply Permutation_length, NoDup_Permutation; [apply NoDup_filter, seq_NoDup|apply piece_edges_nodup|].
  intro e. rewrite filter_In, has_true, in_seq, HL. split; [tauto|]. intro I. split; auto. split; [lia|]. cbn.
  unfold edges_of in I. apply in_map_iff in I as (x & <- & Hx). apply in_seq in Hx. apply (at_edge_lt d ps U); [apply piece_in|lia].
Qed.

Definition holds (k : component) : bool := match cp_edge k with [] => false | e :: _ => has (nth e code None) end.
Lemma comp_first : forall p' k, In p' ps -> In k (comps_of p') -> exists e l, cp_edge k = e :: l /\ In e (edges_of p').
Proof.
  intros p' k Hp Hk. unfold comps_of in Hk. apply in_map_iff in Hk as (k0 & <- & Hk0). cbn [rename_comp_by cp_edge].
  assert (Z : exists e l, cp_edge k0 = e :: l /\ e < nedges (pc p')).
  { destruct (SP p' Hp) as [(tag & _ & (E & C2 & _) & C3)|D].
    - rewrite C3 in Hk0. destruct Hk0 as [<-|[]]. exists 0, []. split; auto. unfold nedges. rewrite C2. cbn. lia.
    - destruct (dr_comps _ D) as (S1 & _ & S3). destruct (S1 (cp_edge k0)) as (N & _); [apply in_map; auto|]. destruct (cp_edge k0) as [|e l] eqn:E; [congruence|].
      exists e, l. split; auto. apply S3. apply in_concat. exists (cp_edge k0). split; [apply in_map; auto|rewrite E; simpl; auto]. }
  destruct Z as (e & l & -> & Le). exists (at_edge p' e), (map (at_edge p') l). split; auto. unfold edges_of. apply in_map, in_seq. lia.
Qed.
Lemma has_code_ok : forall k, In k (p_comp d) -> has_code code j k = Ok (holds k).
Proof.
  intros k Hk. apply (Permutation_in _ (Permutation_sym (un_comp _ _ U))), in_flat_map in Hk as (p' & Hp & Hk).
  destruct (comp_first p' k Hp Hk) as (e & l & E & I). unfold has_code, holds. rewrite E. cbn [get nth_error bind].
  assert (Le : e < length code) by (rewrite HL; apply (edge_owned d ps U), in_flat_map; eauto).
  unfold get. cbn [nth_error bind]. rewrite (nth_error_nth' code None Le). reflexivity.
Qed.
Lemma filter_pairs : forall A (f : A -> bool) l, map fst (filter snd (combine l (map f l))) = filter f l.
Proof. induction l as [|x l IH]; [reflexivity|]. cbn [map combine filter snd]. destruct (f x); cbn [map fst]; rewrite IH; reflexivity. Qed.
Lemma filter_perm : forall A (f : A -> bool) a b, Permutation a b -> Permutation (filter f a) (filter f b).
Proof.
  intros A f a b P. induction P; cbn [filter]; auto.
  - destruct (f x); auto.
  - destruct (f x), (f y); auto. apply perm_swap.
  - etransitivity; eauto.
Qed.
Lemma filter_all : forall A (f : A -> bool) l, (forall x, In x l -> f x = true) -> filter f l = l.
Proof. induction l as [|x l IH]; intro H; [reflexivity|]. cbn [filter]. rewrite H by (simpl; auto). f_equal. apply IH. intros; apply H; simpl; auto. Qed.
Lemma filter_none : forall A (f : A -> bool) l, (forall x, In x l -> f x = false) -> filter f l = [].
Proof. induction l as [|x l IH]; intro H; [reflexivity|]. cbn [filter]. rewrite H by (simpl; auto). apply IH. intros; apply H; simpl; auto. Qed.
Lemma comps_with_ok : exists cs, comps_with d code j = Ok cs /\ Permutation cs (comps_of p).
Proof.
  exists (filter holds (p_comp d)). split.
  - unfold comps_with. rewrite (PdCrossProofs.map_ok_map _ _ _ holds) by (apply has_code_ok). cbn [bind]. rewrite filter_pairs. reflexivity.
  - etransitivity; [apply filter_perm, Permutation_sym, (un_comp _ _ U)|]. rewrite EQ, flat_map_app, filter_app. cbn [flat_map]. rewrite filter_app.
    assert (NO : forall l, (forall q, In q l -> In q l1 \/ In q l2) -> (forall q, In q l -> In q ps) -> filter holds (flat_map comps_of l) = []).
    { intros l H1 H2. apply filter_none. intros k Hk. apply in_flat_map in Hk as (p' & Hp & Hk). destruct (comp_first p' k (H2 p' Hp) Hk) as (e & t & E & I).
      unfold holds. rewrite E. destruct (has (nth e code None)) eqn:X; [|reflexivity]. apply has_true in X. exfalso. exact (piece_edges_other p' e (H1 p' Hp) I X). }
    rewrite (NO l1), (NO l2); auto; try (intros q Hq; rewrite EQ; apply in_app_iff; simpl; auto).
    rewrite app_nil_r. cbn [app]. rewrite filter_all; [apply Permutation_refl|].
    intros k Hk. destruct (comp_first p k piece_in Hk) as (e & t & E & I). unfold holds. rewrite E. apply has_true. auto.
Qed.

Lemma circle_child : forall tag, circle c tag -> exists c', split_child d code j = Ok c' /\ circle c' tag /\ pd_ok c' = Ok true /\
  ncross c' = 0 /\ nedges c' = 1 /\ p_comp c' = [mkComp [0] tag].
Proof.
  intros tag (C1 & (E & C2 & UE) & C3). destruct comps_with_ok as (cs & EC & PC). unfold comps_of in PC. rewrite C3 in PC. cbn in PC.
  apply Permutation_sym, Permutation_length_1_inv in PC. subst cs.
  unfold split_child. fold has. rewrite count_ok, EC. unfold nedges at 1. rewrite C2. cbn [length Nat.eqb bind].
  assert (UK : exists h, pd_build_unknot0 = Ok (with_hash unknot0 h)) by (eexists; vm_compute; reflexivity).
  destruct UK as (h & ->). cbn [bind rev app rename_comp_by cp_tag cp_edge with_hash unknot0 with_comps p_comp p_maxv p_uid p_hash p_edge p_cross p_face map].
  eexists. split; [reflexivity|]. split; [|split; [reflexivity|auto]].
  split; [reflexivity|]. split; [eexists; split; reflexivity|reflexivity].
Qed.

(** *** pieces with crossings *)
Context (D : drawn c).

Lemma piece_inside : inside d p.
Proof. apply (un_inside _ _ U), piece_in. Qed.
Lemma slot_from : forall v r e, v < ncross c -> slot d (kc v) r e -> exists q y, slot c v q y /\ r = snd (moved kc (at_turn p) v q) /\ e = ke y.
Proof. intros v r e. apply inside_slot, piece_inside. Qed.
Lemma cross_at : forall v, v < ncross c -> kc v < ncross d.
Proof.
  intros v Hv. destruct (slot_ex c v 0 Hv ltac:(lia)) as (y & Sy). apply (in_slot _ _ piece_inside) in Sy. apply slot_lt in Sy. tauto.
Qed.
Lemma edge_rec : forall x X, edge_at c x X -> exists E', nth_error (p_edge d) (ke x) = Some E' /\
  e_head E' = kc (e_head X) /\ e_tail E' = kc (e_tail X) /\ head_slot E' = moved kc (at_turn p) (e_head X) (e_headpos X) /\ tail_slot E' = moved kc (at_turn p) (e_tail X) (e_tailpos X).
Proof.
  intros x X HX. destruct (in_edge _ _ piece_inside x X HX) as (E' & HE' & Q). rewrite (drawn_live _ _ _ D HX) in Q. destruct Q as (Q1 & Q2). exists E'. split; auto.
  pose proof Q1 as Z1. pose proof Q2 as Z2. unfold head_slot, tail_slot, moved in Z1, Z2. apply MoveProofs.pair_eq in Z1 as (Z1 & _). apply MoveProofs.pair_eq in Z2 as (Z2 & _). auto.
Qed.

Lemma drawn_child : exists c' s r q, split_child d code j = Ok c' /\ relabelled c c' s r q /\
  Permutation (p_comp c') (map (rename_comp_by q) (p_comp c)) /\ drawn c' /\ pd_ok c' = Ok true /\ crossings_canonical c' /\
  face_partition c' (p_face c') /\ nfaces c' = ncross c' + 2.
Proof.
  pose proof D as [Hn R G T SPt TG PL CN]. pose proof R as (NN & Rr).
  destruct comps_with_ok as (cs & EC & PC). unfold split_child. fold has. rewrite count_ok, EC. cbn [bind].
  destruct (Nat.eqb_spec (nedges c) 1) as [|_]; [lia|].
  assert (N2 : nedges c / 2 = ncross c) by (rewrite NN, Nat.mul_comm; apply Nat.div_mul; lia). rewrite N2.
  destruct (Nat.eqb_spec (ncross c) 0) as [|_]; [lia|]. cbn [negb].
  set (mv := maxverts_of (ncross c)). assert (Mv : ncross c <= mv) by (unfold mv, maxverts_of; destruct (Nat.eqb_spec (ncross c) 1); lia).
  set (ch := mkPd mv 0 [32] [] [] [] []).
  (* few components *)
  assert (FEW : 2 * ncomps c <= ncross c + 2).
  { destruct PL as (fs & F1 & F2 & F3). apply (components_few (with_faces c fs)); auto. }
  assert (Lcs : length cs = ncomps c) by (rewrite (Permutation_length PC); unfold comps_of; apply map_length).
  assert (MXC : length cs <= MAXCOMPONENTS ch).
  { rewrite Lcs. unfold MAXCOMPONENTS, ch. cbn [p_maxv]. assert (ncross c / 2 <= mv / 2) by (apply Nat.div_le_mono; lia).
    pose proof (Nat.div_mod (ncross c) 2 ltac:(lia)). pose proof (Nat.mod_upper_bound (ncross c) 2 ltac:(lia)). lia. }
  destruct (Nat.ltb_spec (MAXCOMPONENTS ch) (length cs)) as [|_]; [lia|].
  change (fun a b : component => not_gt (pd_component_cmp a b)) with comp_le.
  set (ss := isort comp_le cs). set (old := concat (map cp_edge ss)).
  assert (PS : Permutation ss (comps_of p)) by (etransitivity; [apply isort_perm|exact PC]).
  assert (CE : concat (map cp_edge (comps_of p)) = map ke (concat (map cp_edge (p_comp c)))).
  { unfold comps_of. rewrite map_map, concat_map, map_map. reflexivity. }
  assert (PO : Permutation old (edges_of p)).
  { unfold old. etransitivity; [apply concat_perm, Permutation_map, PS|]. rewrite CE. unfold edges_of. apply Permutation_map.
    destruct SPt as (_ & N & I). apply NoDup_Permutation; auto using seq_NoDup. intro x. rewrite I, in_seq. lia. }
  assert (Lo : length old = nedges c) by (rewrite (Permutation_length PO); unfold edges_of; rewrite map_length, seq_length; reflexivity).
  assert (NO : NoDup old) by (eapply Permutation_NoDup; [symmetry; exact PO|apply piece_edges_nodup]).
  assert (IO : forall e, In e old <-> exists x, x < nedges c /\ e = ke x).
  { intro e. split.
    - intro H. apply (Permutation_in _ PO) in H. unfold edges_of in H. apply in_map_iff in H as (x & <- & Hx). apply in_seq in Hx. exists x. split; auto. lia.
    - intros (x & Lx & ->). apply (Permutation_in _ (Permutation_sym PO)). unfold edges_of. apply in_map, in_seq. lia. }
  assert (OL : forall e, In e old -> e < nedges d).
  { intros e He. apply IO in He as (x & Lx & ->). apply (at_edge_lt d ps U); [apply piece_in|auto]. }
  rewrite (proj2 (Nat.leb_le _ _) HM).
  assert (FB : forallb (fun e => e <? MAXEDGES d) old = true) by (apply forallb_forall; intros e He; apply Nat.ltb_lt; apply OL in He; lia).
  rewrite FB. assert (MX : length old <= MAXEDGES ch) by (unfold MAXEDGES, ch; cbn [p_maxv]; lia). rewrite (proj2 (Nat.leb_le _ _) MX).
  destruct (PermProofs.scatter_ok old 0 (repeat 0 (MAXEDGES d))) as (num & EN & LN & KN).
  { apply Forall_forall. intros e He. rewrite repeat_length. apply OL in He. lia. }
  rewrite repeat_length in LN. destruct (KN NO) as (K1 & _). cbn [plus] in K1. clear KN. rewrite EN. cbn [bind].
  assert (K2 : forall e, In e old -> nth e num 0 < nedges c /\ nth (nth e num 0) old 0 = e).
  { intros e He. apply (In_nth old e 0) in He as (i & Hi & <-). rewrite K1 by auto. split; [lia|reflexivity]. }
  set (pi := fun x => nth (ke x) num 0).
  set (e0 := mkEdge 0 0 0 0). set (rec := fun e => nth e (p_edge d) e0). set (es := map rec old).
  assert (EE : map_ok (get (p_edge d)) old = Ok es).
  { apply PdCrossProofs.map_ok_map. intros e He. apply get_nth. apply OL in He. exact He. }
  rewrite EE. cbn [bind].
  (* the crossings *)
  set (L := isort Nat.leb (map kc (seq 0 (ncross c)))).
  assert (EL : every_fourth (isort Nat.leb (flat_map (fun E => [e_head E; e_tail E]) es)) = L).
  { apply every_fourth_sort. unfold es.
    assert (P1 : Permutation (flat_map (fun E => [e_head E; e_tail E]) (map rec old)) (flat_map (fun E => [e_head E; e_tail E]) (map rec (edges_of p)))).
    { rewrite !flat_map_concat_map. apply concat_perm, Permutation_map, Permutation_map, PO. }
    etransitivity; [exact P1|].
    assert (P2 : flat_map (fun E => [e_head E; e_tail E]) (map rec (edges_of p)) = map kc (flat_map (fun E => [e_head E; e_tail E]) (p_edge c))).
    { unfold edges_of. rewrite map_map. 
      assert (GG : forall l k, (forall i, nth_error (p_edge c) (k + i) = nth_error l i) ->
        flat_map (fun E => [e_head E; e_tail E]) (map (fun x => rec (ke x)) (seq k (length l))) = map kc (flat_map (fun E => [e_head E; e_tail E]) l)).
      { induction l as [|X l IH]; intros k H; [reflexivity|]. cbn [length seq map flat_map app]. pose proof (H 0) as H0. rewrite Nat.add_0_r in H0. cbn in H0.
        destruct (edge_rec k X H0) as (E' & HE' & A & B & _). assert (rec (ke k) = E') as -> by (unfold rec; apply nth_error_nth; auto). rewrite A, B. do 2 f_equal.
        apply IH. intro i. pose proof (H (S i)) as Hi. cbn [nth_error] in Hi. rewrite <- Hi. f_equal. lia. }
      apply (GG (p_edge c) 0). auto. }
    rewrite P2. etransitivity; [apply Permutation_map, (ends_four c R T)|].
    assert (P3 : map kc (flat_map four (seq 0 (ncross c))) = flat_map four (map kc (seq 0 (ncross c)))).
    { generalize (seq 0 (ncross c)) as s. induction s as [|x s IH]; [reflexivity|]. cbn [flat_map four app map]. do 4 f_equal. exact IH. }
    rewrite P3. apply Permutation_refl. }
  rewrite EL. assert (PLs : Permutation L (map kc (seq 0 (ncross c)))) by apply isort_perm.
  assert (LL : length L = ncross c) by (rewrite (Permutation_length PLs), map_length, seq_length; reflexivity).
  change (p_maxv ch) with mv. assert (LLm : length L <= mv) by lia. rewrite (proj2 (Nat.leb_le _ _) LLm).
  assert (IL : forall w, In w L <-> exists v, v < ncross c /\ w = kc v).
  { intro w. split.
    - intro H. apply (Permutation_in _ PLs) in H. apply in_map_iff in H as (v & <- & Hv). apply in_seq in Hv. exists v. split; auto. lia.
    - intros (v & Lv & ->). apply (Permutation_in _ (Permutation_sym PLs)). apply in_map, in_seq. lia. }
  assert (NL : NoDup L).
  { eapply Permutation_NoDup; [symmetry; exact PLs|]. apply NoDup_map_inj; [|apply seq_NoDup]. intros x y Hx Hy E. apply in_seq in Hx, Hy.
    apply (cross_inj d ps U p); auto using piece_in; lia. }
  destruct (PermProofs.scatter_ok L 0 (repeat 0 (ncross d))) as (cnum & EM & LM & KM).
  { apply Forall_forall. intros w Hw. rewrite repeat_length. apply IL in Hw as (v & Hv & ->). apply cross_at; auto. }
  rewrite repeat_length in LM. destruct (KM NL) as (J1 & _). cbn [plus] in J1. clear KM. rewrite EM. cbn [bind].
  set (sg := fun v => nth (kc v) cnum 0).
  assert (J2 : forall v, v < ncross c -> sg v < ncross c /\ nth (sg v) L 0 = kc v).
  { intros v Hv. assert (I : In (kc v) L) by (apply IL; eauto). apply (In_nth L _ 0) in I as (i & Hi & E). unfold sg. rewrite <- E, J1 by auto. split; [lia|reflexivity]. }
  set (xof := fun w => nth w (p_cross d) no_cross). set (xs := map (fun w => rename1 num (xof w)) L).
  assert (EX : map_ok (child_cross d num) L = Ok xs).
  { apply PdCrossProofs.map_ok_map. intros w Hw. apply IL in Hw as (v & Hv & ->). unfold child_cross.
    pose proof (cross_at v Hv) as Lw. rewrite (get_nth _ _ _ no_cross) by exact Lw. cbn [bind].
    assert (K : forall r, r < 4 -> cedge (nth (kc v) (p_cross d) no_cross) r < length num).
    { intros r Hr. destruct (slot_from v r (cedge (nth (kc v) (p_cross d) no_cross) r) Hv) as (q & y & Sy & _ & ->).
      - split; auto. eexists. split; [apply nth_error_nth'; exact Lw|reflexivity].
      - rewrite LN. assert (In (ke y) old) as I by (apply IO; exists y; split; auto; eapply consistent_bound; eauto). apply OL in I. lia. }
    pose proof (K 0 ltac:(lia)). pose proof (K 1 ltac:(lia)). pose proof (K 2 ltac:(lia)). pose proof (K 3 ltac:(lia)).
    cbn [cedge] in *. unfold rename_cross. rewrite !(get_nth _ num _ 0) by auto. reflexivity. }
  rewrite EX. cbn [bind].
  set (me := fun E => mkEdge (nth (e_head E) cnum 0) (e_headpos E) (nth (e_tail E) cnum 0) (e_tailpos E)).
  assert (EY : map_ok (child_edge cnum) es = Ok (map me es)).
  { apply PdCrossProofs.map_ok_map. intros E HE. unfold es in HE. apply in_map_iff in HE as (e & <- & He). apply IO in He as (x & Lx & ->).
    destruct (edge_at_ex c x Lx) as (X & HX). destruct (edge_rec x X HX) as (E' & HE' & A & B & _). assert (rec (ke x) = E') as -> by (unfold rec; apply nth_error_nth; auto).
    destruct (Rr x X HX) as (S1 & S2). apply slot_lt in S1 as (L1 & _). apply slot_lt in S2 as (L2 & _).
    unfold child_edge. rewrite !(get_nth _ cnum _ 0); [reflexivity|rewrite LM, B; apply cross_at; auto|rewrite LM, A; apply cross_at; auto]. }
  rewrite EY. cbn [bind].
  set (c0 := mkPd mv 0 [32] (map me es) xs (consecutive 0 ss) []).
  assert (RL0 : relabelled c c0 sg (at_turn p) pi).
  { constructor.
    - unfold ncross at 1, c0. cbn [p_cross]. unfold xs. rewrite map_length. exact LL.
    - unfold nedges at 1, c0. cbn [p_edge]. unfold es. rewrite !map_length. exact Lo.
    - split; [intros; apply J2; auto|]. intros v w Hv Hw E. apply (cross_inj d ps U p); auto using piece_in.
      rewrite <- (proj2 (J2 v Hv)), E. apply J2; auto.
    - apply (in_turn _ _ piece_inside).
    - split.
      + intros x Hx. apply K2, IO. eauto.
      + intros x y Hx Hy E. apply (edge_inj d ps U p); auto using piece_in. rewrite <- (proj2 (K2 (ke x) (proj2 (IO _) (ex_intro _ x (conj Hx eq_refl))))).
        unfold pi in E. rewrite E. apply K2, IO. eauto.
    - intros v q y S. pose proof (slot_lt _ _ _ _ S) as (Lv & _). pose proof (in_slot _ _ piece_inside _ _ _ S) as (P4 & x & Hx & Ex). split; auto.
      exists (rename1 num (xof (kc v))). split.
      + unfold c0. cbn [p_cross]. unfold xs. rewrite nth_error_map, (nth_error_nth' _ 0) by (rewrite LL; apply J2; auto). cbn [option_map]. rewrite (proj2 (J2 v Lv)). reflexivity.
      + cbn [moved snd] in *. rewrite cedge_rename by auto. unfold xof. rewrite (nth_error_nth _ _ _ Hx), Ex. reflexivity.
    - intros v g (x & Hx & Ex). assert (Lv : v < ncross c) by (apply nth_error_Some; congruence).
      destruct (in_sign _ _ piece_inside v g) as (x' & Hx' & Ex'); [exists x; auto|]. exists (rename1 num (xof (kc v))). split.
      + unfold c0. cbn [p_cross]. unfold xs. rewrite nth_error_map, (nth_error_nth' _ 0) by (rewrite LL; apply J2; auto). cbn [option_map]. rewrite (proj2 (J2 v Lv)). reflexivity.
      + cbn [rename1 csign]. unfold xof. rewrite (nth_error_nth _ _ _ Hx'). exact Ex'.
    - intros x X HX. pose proof (edge_at_lt _ _ _ HX) as Lx. destruct (edge_rec x X HX) as (E' & HE' & A & B & H1 & H2).
      assert (I : In (ke x) old) by (apply IO; eauto). destruct (K2 _ I) as (P1 & P2). exists (me E'). split.
      + unfold edge_at, c0. cbn [p_edge]. unfold es. rewrite !nth_error_map, (nth_error_nth' _ 0) by (rewrite Lo; exact P1). cbn [option_map]. unfold pi. rewrite P2. do 2 f_equal.
        unfold rec. apply nth_error_nth; auto.
      + unfold head_slot, tail_slot, moved in *. apply MoveProofs.pair_eq in H1 as (H1 & H1'). apply MoveProofs.pair_eq in H2 as (H2 & H2').
        unfold me. cbn [e_head e_headpos e_tail e_tailpos]. rewrite H1, H1', H2, H2'. auto. }
  (* crossings and faces *)
  pose proof (rl_ends_recorded _ _ _ _ _ RL0 R) as R0. pose proof (rl_two_ended _ _ _ _ _ RL0 R T) as T0.
  destruct (regenerate_spec c0 (recorded_in_range c0 R0)) as (c1 & cn & E1 & Ed & _ & _ & _ & RL1 & S1). rewrite E1. cbn [bind].
  pose proof (rl_trans _ _ _ _ _ _ _ _ _ R RL0 RL1) as RL. pose proof (rl_ncross _ _ _ _ _ RL) as N1. pose proof (rl_nedges _ _ _ _ _ RL) as NE1.
  pose proof (rl_ends_recorded _ _ _ _ _ RL R) as R1. pose proof (rl_two_ended _ _ _ _ _ RL R T) as T1. pose proof (rl_goes_through _ _ _ _ _ RL R G) as G1.
  assert (HE1 : pd_edges_ok c1 = Ok true) by (apply edges_ok_spec; auto; lia).
  destruct (relabelled_planar c c1 _ _ _ RL R T PL) as (fs & F1 & F2 & F3).
  assert (Mv1 : p_maxv c1 = mv) by (rewrite Ed; reflexivity).
  assert (Hn1 : 0 < ncross c1) by (rewrite N1; exact Hn).
  destruct (Thm_Faces.loop_cases c1 Hn1 HE1 T1) as [(gs & E4 & P4 & L4 & M4 & W4 & B4 & O4)|(_ & X)].
  2:{ exfalso. apply (X fs); auto. unfold MAXFACES. lia. }
  rewrite E4. cbn [bind]. set (c2 := with_faces c1 gs).
  assert (FD : faced c2) by (apply partition_faced; auto; apply R1).
  unfold pd_regenerate_hash. rewrite (hash_data_ok c2 FD). cbn [bind]. set (c' := with_hash c2 _).
  match type of RL with relabelled _ _ ?s ?r ?q => assert (RL2 : relabelled c c' s r q) by (destruct RL as [X1 X2 X3 X4 X5 X6 X7 X8]; constructor; [exact X1|exact X2|exact X3|exact X4|exact X5|exact X6|exact X7|exact X8]); set (sf := s) in *; set (rf := r) in * end.
  change (relabelled c c' sf rf pi) in RL2.
  (* components *)
  assert (GP : map (fun e => nth e num 0) old = seq 0 (length old)).
  { apply nth_ext with (d := nth 0 num 0) (d' := 0); [rewrite map_length, seq_length; reflexivity|].
    intros i Hi. rewrite map_length in Hi. rewrite (map_nth (fun e => nth e num 0)), seq_nth by auto. rewrite K1 by auto. reflexivity. }
  assert (Pc : p_comp c' = map (rename_comp_by (fun e => nth e num 0)) ss).
  { transitivity (consecutive 0 ss); [unfold c', c2; cbn [with_hash with_faces p_comp]; rewrite Ed; reflexivity|]. apply consecutive_block. exact GP. }
  assert (PM : Permutation (p_comp c') (map (rename_comp_by pi) (p_comp c))).
  { rewrite Pc. etransitivity; [apply Permutation_map, PS|]. unfold comps_of. rewrite map_map. erewrite map_ext; [apply Permutation_refl|].
    intro k. unfold rename_comp_by. cbn [cp_edge cp_tag]. rewrite map_map. reflexivity. }
  assert (NC : ncomps c' = ncomps c) by (unfold ncomps; rewrite (Permutation_length PM), map_length; reflexivity).
  assert (Cc : concat (map cp_edge (p_comp c')) = seq 0 (nedges c')).
  { rewrite Pc, map_map. cbn [rename_comp_by cp_edge]. rewrite <- map_map with (f := cp_edge) (g := map (fun e => nth e num 0)), <- concat_map. fold old. rewrite GP, Lo.
    change (nedges c') with (nedges c1). rewrite NE1. reflexivity. }
  assert (CY : forall k, In k (p_comp c') -> cp_edge k <> [] /\ cyclically (continues c') (cp_edge k)).
  { intros k Hk. apply (Permutation_in _ PM), in_map_iff in Hk as (k0 & <- & Hk0). cbn [rename_comp_by cp_edge].
    destruct SPt as (Q & _). destruct (Q (cp_edge k0)) as (Q1 & Q2); [apply in_map; auto|]. split.
    - intro Z. apply map_eq_nil in Z. auto.
    - eapply cyclically_map; [|exact Q2]. intros a b Z. exact (rl_continues _ _ _ _ _ RL2 R a b Z). }
  assert (TG' : tags_fine c').
  { unfold tags_fine. apply (Thm_LoopDel.permuted_tags (p_comp c)); auto. symmetry. etransitivity; [apply Permutation_map, PM|]. rewrite map_map. apply Permutation_refl. }
  assert (CC1 : crossings_canonical c') by (exact (regenerate_canonical c0 c1 R0 T0 E1)).
  assert (OK : pd_ok c' = Ok true).
  { unfold pd_ok. rewrite !and_ok_true. split; [|split; [|split]].
    - apply (consistent_cross_ok c' Hn1 R1 T1 (proj2 CC1)).
    - exact HE1.
    - apply (faces_ok_spec c'); auto. split; [exact M4|]. split; [|exact O4].
      intros f Hf. destruct P4 as (Z4 & Z5 & Z6). destruct (Z4 f Hf) as (Y1 & Y2). split; auto. split; [|split; auto].
      + intros a Ha. apply Z6. apply in_concat. eauto.
      + rewrite Forall_forall in W4. auto.
    - apply (comps_ok_spec c'); auto. split; [|split; [exact Cc|split; [intros; apply CY; auto|exact TG']]].
      rewrite NC, <- Lcs. change (MAXCOMPONENTS c') with (p_maxv c1 / 2 + 2). rewrite Mv1. exact MXC. }
  rewrite OK. cbn [bind]. exists c', sf, rf, pi. split; [reflexivity|]. split; [exact RL2|]. split; [exact PM|].
  split; [|split; [exact OK|split; [exact CC1|split; [exact P4|exact L4]]]].
  constructor; auto.
  - split; [|split].
    + intros l Hl. apply in_map_iff in Hl as (k & <- & Hk). apply CY; auto.
    + rewrite Cc. apply seq_NoDup.
    + intro e. rewrite Cc, in_seq. split; [lia|]. intro. split; [lia|]. exact H.
  - exists gs. split; [exact P4|]. split; [exact L4|exact B4].
  - eapply relabelled_connected; [exact RL2|exact CN].
Qed.
End Child.
