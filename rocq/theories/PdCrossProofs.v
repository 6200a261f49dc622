(** Proofs about pd_regenerate_crossings. *)
From Coq Require Import List ZArith Lia Bool Arith Permutation Sorted.
From Verif Require Import Base Iterators Sorting ListAux Pd PdSpec PdProofs Relabel RelabelProofs PdCross.
From Verif Require PdFacesProofs.
From Verif Require Perm PermProofs.
Import ListNotations.
Open Scope nat_scope.

Lemma map_ok_map : forall A B (f : A -> res B) (g : A -> B) l,
  (forall x, In x l -> f x = Ok (g x)) -> map_ok f l = Ok (map g l).
Proof.
  induction l as [|x l IH]; intros H; cbn [map_ok map]; auto.
  rewrite H by (left; auto). cbn [bind]. rewrite IH; auto. intros; apply H; right; auto.
Qed.
Lemma map_ok_inv : forall A B (f : A -> res B) l r, map_ok f l = Ok r ->
  length r = length l /\ forall i x, nth_error l i = Some x -> exists y, f x = Ok y /\ nth_error r i = Some y.
Proof.
  induction l as [|x l IH]; intros r H; cbn [map_ok] in H.
  - apply ok_inj in H. subst. split; auto. intros [|i] x H; discriminate.
  - apply bind_ok in H as (y & Hy & H). apply bind_ok in H as (r' & Hr & H). apply ok_inj in H. subst.
    destruct (IH r' Hr) as (L & K). split; [cbn; auto|]. intros [|i] z Hz; cbn in Hz.
    + injection Hz as <-. exists y. auto.
    + apply K; auto.
Qed.

Lemma cedge_rotate : forall c k p, p < 4 -> cedge (rotate_left c k) p = cedge c ((p + k) mod 4).
Proof. intros c k p H. destruct (small4 p H) as [-> |[-> |[-> | ->]]]; reflexivity. Qed.

Lemma rdist_lt : forall c, cross_rdist c < 4.
Proof.
  intros c. unfold cross_rdist. cbn [fold_left snd cedge].
  repeat (match goal with
  | |- context[?a <? ?b] =>
      lazymatch b with context[if _ then _ else _] => fail | _ => destruct (Nat.ltb_spec a b); cbn [snd cedge] end
  | |- context[if ?a =? ?b then _ else _] =>
      destruct (Nat.eqb_spec a b); cbn in *
  end); cbn in *; lia.
Qed.
Lemma rdist_low : forall c p, p < 4 -> cedge c (cross_rdist c) <= cedge c p.
Proof.
  intros c p H. unfold cross_rdist. cbn [fold_left snd cedge]. destruct (small4 p H) as [-> |[-> |[-> | ->]]]; cbn [cedge];
  repeat (match goal with
  | |- context[?a <? ?b] =>
      lazymatch b with context[if _ then _ else _] => fail | _ => destruct (Nat.ltb_spec a b); cbn [snd cedge] end
  | |- context[if ?a =? ?b then _ else _] =>
      destruct (Nat.eqb_spec a b); cbn in *
  end); cbn in *; lia.
Qed.

(** no edge at more than two of the places *)
Definition no_triple (c : crossing) : Prop :=
  forall p q r, p < 4 -> q < 4 -> r < 4 -> p <> q -> q <> r -> p <> r ->
    cedge c p = cedge c q -> cedge c q = cedge c r -> False.
Lemma rdist_leftmost : forall c, no_triple c -> cedge c ((cross_rdist c + 3) mod 4) <> cedge c (cross_rdist c).
Proof.
  intros c H.
  pose proof (H 0 1 2) as T1. pose proof (H 0 1 3) as T2. pose proof (H 0 2 3) as T3. pose proof (H 1 2 3) as T4.
  cbn [cedge] in T1, T2, T3, T4.
  unfold cross_rdist. cbn [fold_left snd cedge].
  repeat (match goal with
  | |- context[?a <? ?b] =>
      lazymatch b with context[if _ then _ else _] => fail | _ => destruct (Nat.ltb_spec a b); cbn [snd cedge] end
  | |- context[if ?a =? ?b then _ else _] =>
      destruct (Nat.eqb_spec a b); cbn in *
  end); cbn in *; lia.
Qed.
Lemma rotated_low : forall c, no_triple c -> starts_at_lowest (rotate_left c (cross_rdist c)).
Proof.
  intros c H. pose proof (rdist_lt c) as L. split.
  - intros p Hp. rewrite !cedge_rotate by lia. rewrite (Nat.mod_small (0 + _)) by lia. apply rdist_low, mod4_lt.
  - rewrite !cedge_rotate by lia. rewrite (Nat.mod_small (0 + _)) by lia. rewrite Nat.add_comm.
    apply rdist_leftmost; auto.
Qed.
Lemma low_rdist : forall c, starts_at_lowest c -> cross_rdist c = 0.
Proof.
  intros c (H & K). unfold cross_rdist. cbn [fold_left snd].
  pose proof (H 1 ltac:(lia)). pose proof (H 2 ltac:(lia)). pose proof (H 3 ltac:(lia)). cbn [cedge] in *.
  repeat match goal with |- context[?a <? ?b] => destruct (Nat.ltb_spec a b); [lia|cbn [snd cedge]] end.
  cbn. destruct (Nat.eqb_spec (ce3 c) (ce0 c)); lia.
Qed.
Lemma rotate_0 : forall c, rotate_left c 0 = c.
Proof. intros []; reflexivity. Qed.

Definition cross_le (a b : crossing) : bool := not_gt (pd_cross_cmp a b).
Lemma cross_le_lex : forall a b, cross_le a b = true <-> lex_le (cross_edges a) (cross_edges b).
Proof. intros. apply kcmp_lex. Qed.
Lemma cross_le_total : forall a b, cross_le a b = false -> cross_le b a = true.
Proof.
  intros a b H. apply cross_le_lex. destruct (lex_le_total (cross_edges a) (cross_edges b)) as [K|K]; auto.
  apply cross_le_lex in K. congruence.
Qed.
Lemma cross_le_trans : forall a b c, cross_le a b = true -> cross_le b c = true -> cross_le a c = true.
Proof. intros a b c. rewrite !cross_le_lex. apply lex_le_trans. Qed.

Lemma map_nth_seq : forall A (l : list A) x, map (fun i => nth i l x) (seq 0 (length l)) = l.
Proof.
  intros A l x. apply nth_ext with (d := x) (d' := x); [rewrite map_length, seq_length; auto|].
  intros i Hi. rewrite map_length, seq_length in Hi.
  rewrite (nth_indep _ x (nth 0 l x)) by (rewrite map_length, seq_length; auto).
  change (nth 0 l x) with ((fun i => nth i l x) 0). rewrite map_nth, seq_nth by auto. auto.
Qed.

Section Regen.
Context (d : pd).
Definition rot_cross : list crossing := map (fun c => rotate_left c (cross_rdist c)) (p_cross d).
Definition cperm : list nat := isort (cross_index_le rot_cross) (seq 0 (ncross d)).
Lemma cperm_perm : Permutation cperm (seq 0 (ncross d)).
Proof. apply isort_perm. Qed.
Lemma cperm_length : length cperm = ncross d.
Proof. unfold cperm. rewrite isort_length, seq_length. auto. Qed.
Lemma rot_length : length rot_cross = ncross d.
Proof. apply map_length. Qed.

Lemma new_num_ok : exists num, Perm.scatter cperm 0 (repeat 0 (ncross d)) = Ok num /\
  length num = ncross d /\ bij_on (ncross d) (fun c => nth c num 0) /\
  (forall c, c < ncross d -> nth (nth c num 0) cperm 0 = c).
Proof.
  destruct (PermProofs.scatter_ok cperm 0 (repeat 0 (ncross d))) as (num & E & L & K).
  { apply Forall_forall. intros x Hx. rewrite repeat_length. apply (Permutation_in _ cperm_perm) in Hx.
    apply in_seq in Hx. lia. }
  rewrite repeat_length in L. exists num. split; auto. split; auto.
  destruct K as (K & _); [eapply Permutation_NoDup; [symmetry; apply cperm_perm|apply seq_NoDup]|].
  rewrite cperm_length in K.
  assert (S : forall c, c < ncross d -> exists j, j < ncross d /\ nth j cperm 0 = c).
  { intros c Hc. assert (I : In c cperm).
    { eapply Permutation_in; [symmetry; apply cperm_perm|]. apply in_seq. lia. }
    apply In_nth with (d := 0) in I. rewrite cperm_length in I. auto. }
  assert (I : forall c, c < ncross d -> nth c num 0 < ncross d /\ nth (nth c num 0) cperm 0 = c).
  { intros c Hc. destruct (S c Hc) as (j & Hj & Ej). rewrite <- Ej at 1 2. rewrite K by auto. auto. }
  split; [|intros; apply I; auto]. split; [intros; apply I; auto|].
  intros i j Hi Hj H. destruct (I i Hi) as (_ & Ei). destruct (I j Hj) as (_ & Ej). congruence.
Qed.

Definition ends_in_range : Prop := forall e E, edge_at d e E ->
  e_head E < ncross d /\ e_headpos E < 4 /\ e_tail E < ncross d /\ e_tailpos E < 4.
Context (Hr : ends_in_range).

Definition rho (c : nat) : nat := nth c (map cross_rdist (p_cross d)) 0.
Definition move1 (num : list nat) (e : edge) : edge :=
  mkEdge (nth (e_head e) num 0) ((e_headpos e + 4 - rho (e_head e)) mod 4)
         (nth (e_tail e) num 0) ((e_tailpos e + 4 - rho (e_tail e)) mod 4).
Lemma move_edges_ok : forall num, length num = ncross d ->
  map_ok (move_edge (map cross_rdist (p_cross d)) num) (p_edge d) = Ok (map (move1 num) (p_edge d)).
Proof.
  intros num L. apply map_ok_map. intros E HE. apply In_nth_error in HE as (e & HE).
  destruct (Hr e E HE) as (H1 & H2 & H3 & H4). unfold move_edge, move_end, rho, get.
  destruct (Nat.leb_spec 4 (e_headpos E)); [lia|]. destruct (Nat.leb_spec 4 (e_tailpos E)); [lia|].
  rewrite !(nth_error_nth' _ 0) by (rewrite ?map_length; unfold ncross in *; lia). reflexivity.
Qed.

Lemma index_le : forall i j, cross_index_le rot_cross i j = cross_le (nth i rot_cross no_cross) (nth j rot_cross no_cross).
Proof. reflexivity. Qed.

Lemma regenerate_spec : exists d' num, pd_regenerate_crossings d = Ok d' /\
  d' = with_cross (with_edges d (map (move1 num) (p_edge d))) (map (fun i => nth i rot_cross no_cross) cperm) /\
  length num = ncross d /\ bij_on (ncross d) (fun c => nth c num 0) /\
  (forall c, c < ncross d -> nth (nth c num 0) cperm 0 = c) /\
  relabelled d d' (fun c => nth c num 0) rho (fun e => e) /\ crossings_sorted d'.
Proof.
  destruct new_num_ok as (num & E & L & B & I).
  set (cs' := map (fun i => nth i rot_cross no_cross) cperm).
  exists (with_cross (with_edges d (map (move1 num) (p_edge d))) cs'), num.
  assert (N : forall c x, nth_error (p_cross d) c = Some x ->
    nth_error cs' (nth c num 0) = Some (rotate_left x (rho c)) /\ rho c = cross_rdist x).
  { intros c x Hx. assert (Hc : c < ncross d) by (apply nth_error_Some; congruence).
    assert (Er : rho c = cross_rdist x).
    { unfold rho. apply nth_error_nth. rewrite nth_error_map, Hx. auto. }
    split; auto. unfold cs'. rewrite nth_error_map, (nth_error_nth' _ 0).
    2:{ rewrite cperm_length. apply B; auto. }
    cbn. rewrite I by auto. f_equal. unfold rot_cross.
    apply nth_error_nth. rewrite nth_error_map, Hx. cbn. rewrite Er. auto. }
  split; [|split; [reflexivity|split; [auto|split; [auto|split; [auto|]]]]].
  - unfold pd_regenerate_crossings. fold rot_cross. fold cperm. rewrite E. cbn [bind].
    rewrite move_edges_ok by auto. reflexivity.
  - split.
    + split.
      * unfold ncross. cbn [with_cross p_cross]. unfold cs'. rewrite map_length, cperm_length. auto.
      * unfold nedges. cbn [with_cross with_edges p_edge]. apply map_length.
      * auto.
      * intros c Hc. unfold rho. destruct (nth_in_or_default c (map cross_rdist (p_cross d)) 0) as [K|K]; [|lia].
        apply in_map_iff in K as (x & <- & _). apply rdist_lt.
      * apply bij_id.
      * intros c p e (Hp & x & Hx & He). destruct (N c x Hx) as (N1 & N2). split; [apply mod4_lt|].
        exists (rotate_left x (rho c)). split; auto. unfold moved. cbn [snd]. rewrite cedge_rotate by apply mod4_lt.
        rewrite <- He. f_equal. rewrite Nat.add_mod_idemp_l by lia.
        replace (p + 4 - rho c + rho c) with (p + 1 * 4).
        -- rewrite Nat.mod_add by lia. apply Nat.mod_small; auto.
        -- pose proof (rdist_lt x). lia.
      * intros c s (x & Hx & Hs). destruct (N c x Hx) as (N1 & N2). exists (rotate_left x (rho c)). split; auto.
      * intros e E0 HE. exists (move1 num E0). split; [|split; reflexivity].
        unfold edge_at. cbn [with_cross with_edges p_edge]. rewrite nth_error_map, HE. auto.
    + unfold crossings_sorted. cbn [with_cross p_cross]. unfold cs'. rewrite map_map.
      eapply PdFacesProofs.StronglySorted_map with (P := fun i j => cross_index_le rot_cross i j = true).
      * intros a b H. apply cross_le_lex. rewrite index_le in H. auto.
      * apply (isort_sorted (cross_index_le rot_cross)); intros; rewrite ?index_le in *; eauto using cross_le_total, cross_le_trans.
Qed.
End Regen.

Lemma recorded_in_range : forall d, ends_recorded d -> ends_in_range d.
Proof.
  intros d (_ & H) e E HE. destruct (H e E HE) as (S1 & S2). apply slot_lt in S1, S2. tauto.
Qed.

(** in a consistent diagram an edge is at no more than two places *)
Lemma consistent_no_triple : forall d, ends_recorded d -> two_ended d ->
  forall x, In x (p_cross d) -> no_triple x.
Proof.
  intros d R T x Hx p q r Hp Hq Hrr N1 N2 N3 E1 E2. apply In_nth_error in Hx as (c & Hc).
  assert (K : forall p, p < 4 -> exists o, (o = Pos \/ o = Neg) /\ dto d (cedge x p, o) = (c, p)).
  { intros s Hs. assert (Lc : c < ncross d) by (apply nth_error_Some; congruence).
    destruct (dto_surj d c s R T Lc Hs) as ((e, o) & D & W). pose proof (dto_slot d _ R D) as S. rewrite W in S.
    cbn [fst snd] in S. destruct S as (_ & y & Hy & Ey). assert (y = x) by congruence. subst y. rewrite Ey.
    exists o. split; auto. exact (proj2 D). }
  destruct (K p Hp) as (o1 & O1 & D1). destruct (K q Hq) as (o2 & O2 & D2). destruct (K r Hrr) as (o3 & O3 & D3).
  rewrite <- E1 in D2. rewrite <- E2, <- E1 in D3.
  assert (forall a b : nat, (c, a) = (c, b) -> a = b) by (intros; congruence).
  destruct O1; destruct O2; destruct O3; subst; try (rewrite D1 in D2; apply H in D2; congruence);
    try (rewrite D1 in D3; apply H in D3; congruence); rewrite D2 in D3; apply H in D3; congruence.
Qed.

Lemma nth_map_seq_id : forall (l : list nat), l = seq 0 (length l) -> forall c, c < length l -> nth c l 0 = c.
Proof. intros l H c Hc. rewrite H, seq_nth; auto. Qed.

Lemma regenerate_canonical_fixed : forall d, ends_in_range d -> crossings_canonical d ->
  pd_regenerate_crossings d = Ok d.
Proof.
  intros d Hr (C1 & C2). destruct (regenerate_spec d Hr) as (d' & num & E & Ed & L & B & I & _). rewrite E. f_equal.
  assert (F : forall x, In x (p_cross d) -> rotate_left x (cross_rdist x) = x).
  { intros x Hx. rewrite low_rdist by auto. apply rotate_0. }
  assert (Rc : rot_cross d = p_cross d).
  { unfold rot_cross. rewrite (map_ext_in _ (fun x => x)); [apply map_id|auto]. }
  assert (Pc : cperm d = seq 0 (ncross d)).
  { unfold cperm. apply isort_id. unfold lep. rewrite Rc.
    clear - C2. unfold crossings_sorted in C2.
    assert (G : forall l k (cs : list crossing), StronglySorted lex_le (map cross_edges l) ->
      (forall i, i < length l -> nth (k + i) cs no_cross = nth i l no_cross) ->
      StronglySorted (fun x y => cross_index_le cs x y = true) (seq k (length l))).
    { induction l as [|x l IH]; intros k cs SS H; cbn [length seq]; [constructor|].
      inversion SS as [|? ? S1 S2]; subst. constructor.
      - apply IH; auto. intros i Hi. replace (S k + i) with (k + S i) by lia. rewrite H by (cbn; lia). reflexivity.
      - apply Forall_forall. intros j Hj. apply in_seq in Hj. apply cross_le_lex.
        pose proof (H 0 ltac:(cbn; lia)) as H0. rewrite Nat.add_0_r in H0. cbn [nth] in H0. rewrite H0.
        replace j with (k + S (j - k - 1)) by lia. rewrite H by (cbn; lia). cbn [nth].
        rewrite Forall_forall in S2. apply S2. apply in_map, nth_In. lia. }
    apply (G (p_cross d) 0); auto. }
  assert (Nm : forall c, c < ncross d -> nth c num 0 = c).
  { intros c Hc. pose proof (I c Hc) as K. rewrite Pc in K. destruct B as (B & _). rewrite seq_nth in K by (apply B; auto). auto. }
  rewrite Ed, Pc, Rc. unfold ncross. rewrite map_nth_seq.
  assert (Em : map (move1 d num) (p_edge d) = p_edge d).
  { rewrite (map_ext_in _ (fun x => x)); [apply map_id|]. intros X HX. apply In_nth_error in HX as (e & HX).
    destruct (Hr e X HX) as (H1 & H2 & H3 & H4). unfold move1.
    assert (Z : forall c, c < ncross d -> rho d c = 0).
    { intros c Hc. unfold rho. destruct (nth_error (p_cross d) c) as [x|] eqn:Hx.
      - erewrite nth_error_nth by (rewrite nth_error_map, Hx; reflexivity). apply low_rdist, C1. eapply nth_error_In; eauto.
      - apply nth_error_None in Hx. unfold ncross in Hc. lia. }
    rewrite !Nm, !Z by auto. rewrite !Nat.sub_0_r.
    replace (e_headpos X + 4) with (e_headpos X + 1 * 4) by lia. replace (e_tailpos X + 4) with (e_tailpos X + 1 * 4) by lia.
    rewrite !Nat.mod_add, !Nat.mod_small by lia. destruct X; reflexivity. }
  rewrite Em. destruct d; reflexivity.
Qed.

Lemma regenerate_canonical : forall d d', ends_recorded d -> two_ended d -> pd_regenerate_crossings d = Ok d' ->
  crossings_canonical d'.
Proof.
  intros d d' R T E. destruct (regenerate_spec d (recorded_in_range d R)) as (d2 & num & E2 & Ed & L & B & I & RL & S).
  rewrite E2 in E. apply ok_inj in E. subst d2. split; auto.
  intros x Hx. rewrite Ed in Hx. cbn [with_cross p_cross] in Hx. apply in_map_iff in Hx as (i & <- & Hi).
  apply (Permutation_in _ (cperm_perm d)) in Hi. apply in_seq in Hi.
  destruct (nth_in_or_default i (rot_cross d) no_cross) as [K|K].
  - apply in_map_iff in K as (y & Ey & Hy). rewrite <- Ey. apply rotated_low. eapply consistent_no_triple; eauto.
  - exfalso. assert (Hlt : i < length (rot_cross d)) by (rewrite rot_length; lia).
    assert (K2 : In (nth i (rot_cross d) no_cross) (rot_cross d)) by (apply nth_In; auto). rewrite K in K2.
    apply in_map_iff in K2 as (y & Ey & Hy). pose proof (rotated_low y (consistent_no_triple d R T y Hy)) as (_ & Q).
    rewrite Ey in Q. cbn in Q. congruence.
Qed.
