(** Exchanging the heads of two edges: closed walks are joined. *)
From Coq Require Import List ZArith Lia Bool Arith Permutation Relations.
From Verif Require Import Base Iterators ListAux Pd PdSpec PdProofs Relabel RelabelProofs Strands HashSpec CycleMatch CycleSurgery PdFaces PdFacesProofs Planar RegenSpec
  Thm_Faces Thm_Planar MoveProofs.
From Verif Require DeloopProofs Cycles.
Import ListNotations.
Open Scope nat_scope.

(** ** partitions into cycles *)
Lemma rotation_perm : forall A (l m : list A), rotation l m -> Permutation l m.
Proof. intros A l m (u & v & -> & ->). apply Permutation_app_comm. Qed.
Lemma concat_perm : forall A (L M : list (list A)), Permutation L M -> Permutation (concat L) (concat M).
Proof.
  intros A L M P. induction P; cbn [concat]; auto.
  - apply Permutation_app_head; auto.
  - rewrite !app_assoc. apply Permutation_app_tail, Permutation_app_comm.
  - etransitivity; eauto.
Qed.
Lemma cpart_perm : forall A (R : A -> A -> Prop) D L M, Permutation L M -> cpart R D L -> cpart R D M.
Proof.
  intros A R D L M P (H1 & H2 & H3). split; [|split].
  - intros c Hc. apply H1. eapply Permutation_in; [apply Permutation_sym; exact P|exact Hc].
  - eapply Permutation_NoDup; [apply concat_perm; exact P|exact H2].
  - intro x. rewrite <- H3. split; apply Permutation_in; [apply Permutation_sym|]; apply concat_perm; exact P.
Qed.
Lemma cpart_turn : forall A (R : A -> A -> Prop) D c c' L, rotation c c' -> cpart R D (c :: L) -> cpart R D (c' :: L).
Proof.
  intros A R D c c' L Rt (H1 & H2 & H3). pose proof (rotation_perm A c c' Rt) as P. split; [|split].
  - intros b [<-|Hb]; [|apply H1; simpl; auto]. destruct (H1 c (or_introl eq_refl)) as (N & C). split.
    + intros ->. apply N. apply Permutation_nil, Permutation_sym. exact P.
    + eapply cyclically_rotation; eauto.
  - cbn [concat] in *. eapply Permutation_NoDup; [apply Permutation_app_tail; exact P|exact H2].
  - intro x. rewrite <- H3. cbn [concat]. rewrite !in_app_iff. split; (intros [I|I]; [left|right; exact I]).
    + eapply Permutation_in; [apply Permutation_sym; exact P|exact I].
    + eapply Permutation_in; [exact P|exact I].
Qed.
Lemma cpart_app : forall A (R : A -> A -> Prop) D1 D2 L M, cpart R D1 L -> cpart R D2 M -> (forall x, D1 x -> ~ D2 x) ->
  cpart R (fun x => D1 x \/ D2 x) (L ++ M).
Proof.
  intros A R D1 D2 L M (H1 & H2 & H3) (K1 & K2 & K3) Dj. split; [|split].
  - intros c Hc. apply in_app_iff in Hc as [Hc|Hc]; auto.
  - rewrite concat_app. assert (X : forall l : list A, NoDup l -> (forall x, In x l -> D1 x) -> NoDup (l ++ concat M)).
    { induction l as [|x l IH]; intros N Q; [exact K2|]. inversion N; subst. cbn [app]. constructor.
      - rewrite in_app_iff. intros [I|I]; [auto|]. apply (Dj x); [apply Q; simpl; auto|apply K3; auto].
      - apply IH; auto. intros y Hy. apply Q. simpl. auto. }
    apply X; auto. intros x Hx. apply H3; auto.
  - intro x. rewrite concat_app, in_app_iff, H3, K3. reflexivity.
Qed.

Section Merge.
Context {A : Type} (R R' : A -> A -> Prop) (D : A -> Prop) (a b : A).
Context (Ra : forall y, R a y -> R' b y) (Rb : forall y, R b y -> R' a y) (Ro : forall x y, x <> a -> x <> b -> R x y -> R' x y).

Lemma linked_other : forall l, ~ In a (removelast l) -> ~ In b (removelast l) -> linked R l -> linked R' l.
Proof.
  induction l as [|x l IH]; intros Na Nb H; [constructor|]. destruct l as [|y l]; [constructor|]. destruct H as (H1 & H2).
  change (removelast (x :: y :: l)) with (x :: removelast (y :: l)) in Na, Nb. split.
  - apply Ro; auto; intros ->; [apply Na|apply Nb]; simpl; auto.
  - apply IH; auto; intro I; [apply Na|apply Nb]; right; exact I.
Qed.
Lemma linked_split : forall (S : A -> A -> Prop) l m z, linked S (l ++ [z]) -> linked S (z :: m) -> linked S (l ++ z :: m).
Proof.
  intros S. induction l as [|x l IH]; intros m z H1 H2; [exact H2|]. cbn [app] in *.
  destruct l as [|y l]; cbn [app] in *; destruct H1 as (Q1 & Q2); (split; [exact Q1|]).
  - exact H2.
  - apply IH; auto.
Qed.
Lemma linked_head : forall (u : list A) z, ~ In a u -> ~ In b u -> linked R (a :: u ++ [z]) -> linked R' (b :: u ++ [z]).
Proof.
  intros u z Na Nb H. destruct u as [|x u]; cbn [app] in *; destruct H as (H1 & H2); (split; [apply Ra; exact H1|]).
  - constructor.
  - apply linked_other; auto; change (x :: u ++ [z]) with ((x :: u) ++ [z]); rewrite removelast_last; auto.
Qed.
Lemma linked_head' : forall (u : list A) z, ~ In a u -> ~ In b u -> linked R (b :: u ++ [z]) -> linked R' (a :: u ++ [z]).
Proof.
  intros u z Na Nb H. destruct u as [|x u]; cbn [app] in *; destruct H as (H1 & H2); (split; [apply Rb; exact H1|]).
  - constructor.
  - apply linked_other; auto; change (x :: u ++ [z]) with ((x :: u) ++ [z]); rewrite removelast_last; auto.
Qed.
Lemma cpart_merge0 : forall u v L, cpart R D ((a :: u) :: (b :: v) :: L) -> cpart R' D ((a :: v ++ b :: u) :: L).
Proof.
  intros u v L (H1 & H2 & H3). cbn [concat] in H2, H3.
  assert (P : Permutation ((a :: u) ++ (b :: v) ++ concat L) ((a :: v ++ b :: u) ++ concat L)).
  { cbn [app]. constructor. rewrite <- app_assoc. cbn [app]. etransitivity; [apply Permutation_sym, Permutation_middle|].
    etransitivity; [|apply Permutation_middle]. constructor. rewrite !app_assoc. apply Permutation_app_tail, Permutation_app_comm. }
  assert (N : NoDup ((a :: v ++ b :: u) ++ concat L)) by (eapply Permutation_NoDup; eauto).
  assert (Ia : ~ In a u /\ ~ In a v).
  { cbn [app] in N. inversion N as [|? ? Na _]; subst. rewrite !in_app_iff in Na. simpl in Na. tauto. }
  assert (Ib : ~ In b u /\ ~ In b v).
  { cbn [app] in H2. inversion H2 as [|? ? _ H2']; subst. apply NoDup_remove_2 in H2'. rewrite !in_app_iff in H2'. tauto. }
  destruct Ia as (Ia1 & Ia2). destruct Ib as (Ib1 & Ib2).
  destruct (H1 (a :: u) (or_introl eq_refl)) as (_ & Cu). destruct (H1 (b :: v) (or_intror (or_introl eq_refl))) as (_ & Cv).
  apply cyclically_linked in Cu. apply cyclically_linked in Cv.
  split; [|split].
  - intros c [<-|Hc].
    + split; [discriminate|]. apply cyclically_linked. rewrite <- app_assoc. cbn [app].
      change (a :: v ++ b :: u ++ [a]) with ((a :: v) ++ b :: (u ++ [a])). apply linked_split.
      * cbn [app]. apply linked_head'; auto.
      * apply linked_head; auto.
    + destruct (H1 c (or_intror (or_intror Hc))) as (Nc & Cc). split; auto. intros i x y Hx Hy.
      assert (Ix : In x (concat L)) by (apply in_concat; exists c; split; auto; eapply nth_error_In; eauto).
      assert (x <> a /\ x <> b) as (X1 & X2).
      { split; intros ->; cbn [app] in N.
        - inversion N as [|? ? Na _]; subst. apply Na. rewrite in_app_iff. auto.
        - cbn [app] in H2. inversion H2 as [|? ? _ H2']; subst. apply NoDup_remove_2 in H2'. rewrite !in_app_iff in H2'. tauto. }
      apply Ro; auto. eapply Cc; eauto.
  - cbn [concat]. exact N.
  - intro x. rewrite <- H3. cbn [concat]. split; apply Permutation_in; [apply Permutation_sym|]; exact P.
Qed.
Lemma cpart_merge : forall L c1 c2, cpart R D L -> In c1 L -> In c2 L -> In a c1 -> In b c2 -> ~ In b c1 ->
  exists u v L', Permutation L (c1 :: c2 :: L') /\ rotation c1 (a :: u) /\ rotation c2 (b :: v) /\ cpart R' D ((a :: v ++ b :: u) :: L').
Proof.
  intros L c1 c2 H I1 I2 Ia Ib Nb. apply in_split in I1 as (l1 & l2 & ->).
  assert (P1 : Permutation (l1 ++ c1 :: l2) (c1 :: l1 ++ l2)) by (apply Permutation_sym, Permutation_middle).
  assert (I3 : In c2 (l1 ++ l2)).
  { apply (Permutation_in _ P1) in I2. destruct I2 as [<-|I2]; [tauto|exact I2]. }
  apply in_split in I3 as (m1 & m2 & E). rewrite E in P1.
  assert (P2 : Permutation (l1 ++ c1 :: l2) (c1 :: c2 :: m1 ++ m2)).
  { etransitivity; [exact P1|]. constructor. apply Permutation_sym, Permutation_middle. }
  destruct (rotation_in_front A a c1 Ia) as (u & Ru). destruct (rotation_in_front A b c2 Ib) as (v & Rv).
  exists u, v, (m1 ++ m2). split; auto. split; auto. split; auto. apply cpart_merge0.
  eapply cpart_turn; [exact Ru|]. eapply cpart_perm; [apply perm_swap|]. eapply cpart_turn; [exact Rv|]. eapply cpart_perm; [apply perm_swap|].
  eapply cpart_perm; eauto.
Qed.
End Merge.

(** ** two edges exchange their heads *)
Record exchanged (d d1 : pd) (a b : nat) : Prop := {
  ex_ncross : ncross d1 = ncross d;
  ex_nedges : nedges d1 = nedges d;
  ex_diff : a <> b;
  ex_a : a < nedges d;
  ex_b : b < nedges d;
  ex_slot : forall c p x, slot d c p x -> (forall E, edge_at d a E \/ edge_at d b E -> head_slot E <> (c, p)) -> slot d1 c p x;
  ex_slota : forall E, edge_at d a E -> slot d1 (e_head E) (e_headpos E) b;
  ex_slotb : forall E, edge_at d b E -> slot d1 (e_head E) (e_headpos E) a;
  ex_sign : forall c s, sign_at d c s -> sign_at d1 c s;
  ex_edge : forall x X, x <> a -> x <> b -> edge_at d x X -> edge_at d1 x X;
  ex_edges : forall E F, edge_at d a E -> edge_at d b F ->
    edge_at d1 a (mkEdge (e_head F) (e_headpos F) (e_tail E) (e_tailpos E)) /\
    edge_at d1 b (mkEdge (e_head E) (e_headpos E) (e_tail F) (e_tailpos F)) }.

Section Exchange.
Context (d d1 : pd) (a b : nat) (X : exchanged d d1 a b).
Context (R : ends_recorded d) (G : goes_through d) (T : two_ended d).

Lemma ex_recs : exists E F, edge_at d a E /\ edge_at d b F /\
  edge_at d1 a (mkEdge (e_head F) (e_headpos F) (e_tail E) (e_tailpos E)) /\
  edge_at d1 b (mkEdge (e_head E) (e_headpos E) (e_tail F) (e_tailpos F)).
Proof.
  destruct (edge_at_ex d a (ex_a _ _ _ _ X)) as (E & HE). destruct (edge_at_ex d b (ex_b _ _ _ _ X)) as (F & HF).
  exists E, F. split; auto. split; auto. apply (ex_edges _ _ _ _ X); auto.
Qed.
Lemma ex_other : forall x p q, slot d p q x -> (forall E, edge_at d x E -> head_slot E <> (p, q)) -> slot d1 p q x.
Proof.
  intros x p q S H. apply (ex_slot _ _ _ _ X); auto. intros E [HE|HE] Q; apply (H E); auto; unfold head_slot in Q; injection Q as <- <-;
    destruct R as (_ & Rr); destruct (Rr _ E HE) as (S1 & _); rewrite (slot_fun _ _ _ _ _ S S1); auto.
Qed.
Lemma ex_other' : forall x p q, slot d p q x -> x <> a -> x <> b -> slot d1 p q x.
Proof.
  intros x p q S Na Nb. apply (ex_slot _ _ _ _ X); auto. intros E [HE|HE] Q; unfold head_slot in Q; injection Q as <- <-;
    destruct R as (_ & Rr); destruct (Rr _ E HE) as (S1 & _); [apply Na|apply Nb]; eapply slot_fun; eauto.
Qed.
Lemma ex_tail : forall x E, edge_at d x E -> slot d1 (e_tail E) (e_tailpos E) x.
Proof.
  intros x E HE. destruct R as (_ & Rr). destruct (Rr x E HE) as (_ & S). apply ex_other; auto.
  intros E' HE' Q. unfold edge_at in *. rewrite HE in HE'. injection HE' as <-. apply (T x E HE). exact Q.
Qed.
Lemma ex_cases : forall x E1, edge_at d1 x E1 -> exists E H, edge_at d x E /\ edge_at d (if x =? a then b else if x =? b then a else x) H /\
  tail_slot E1 = tail_slot E /\ head_slot E1 = head_slot H /\ slot d1 (e_head H) (e_headpos H) x.
Proof.
  intros x E1 HE1. destruct ex_recs as (E & F & HE & HF & K1 & K2). pose proof (ex_diff _ _ _ _ X) as N.
  destruct (Nat.eqb_spec x a) as [->|Na].
  - exists E, F. unfold edge_at in HE1, K1. rewrite HE1 in K1. injection K1 as ->. split; auto. split; auto. split; auto. split; auto. apply (ex_slotb _ _ _ _ X); auto.
  - destruct (Nat.eqb_spec x b) as [->|Nb].
    + exists F, E. unfold edge_at in HE1, K2. rewrite HE1 in K2. injection K2 as ->. split; auto. split; auto. split; auto. split; auto. apply (ex_slota _ _ _ _ X); auto.
    + assert (L : x < nedges d) by (rewrite <- (ex_nedges _ _ _ _ X); eapply edge_at_lt; eauto).
      destruct (edge_at_ex d x L) as (Y & HY). pose proof (ex_edge _ _ _ _ X x Y Na Nb HY) as K. unfold edge_at in HE1, K. rewrite HE1 in K. injection K as ->.
      exists Y, Y. split; auto. split; auto. split; auto. split; auto. apply ex_other'; auto. apply (proj2 R x Y HY).
Qed.
Lemma ex_tail_back : forall x E, edge_at d x E -> exists E1, edge_at d1 x E1 /\ tail_slot E1 = tail_slot E.
Proof.
  intros x E HE. assert (L : x < nedges d1) by (rewrite (ex_nedges _ _ _ _ X); eapply edge_at_lt; eauto).
  destruct (edge_at_ex d1 x L) as (E1 & HE1). exists E1. split; auto. destruct (ex_cases x E1 HE1) as (E' & H & HE' & _ & Q & _).
  unfold edge_at in HE, HE'. rewrite HE in HE'. injection HE' as <-. exact Q.
Qed.
Definition sw (x : nat) : nat := if x =? a then b else if x =? b then a else x.
Lemma sw_sw : forall x, sw (sw x) = x.
Proof.
  intro x. unfold sw. pose proof (ex_diff _ _ _ _ X). destruct (Nat.eqb_spec x a) as [->|Na].
  - rewrite Nat.eqb_refl. destruct (Nat.eqb_spec b a); congruence.
  - destruct (Nat.eqb_spec x b) as [->|Nb]; [rewrite Nat.eqb_refl; auto|]. destruct (Nat.eqb_spec x a); [congruence|]. destruct (Nat.eqb_spec x b); congruence.
Qed.
Lemma sw_lt : forall x, x < nedges d -> sw x < nedges d.
Proof. intros x H. unfold sw. destruct (x =? a); [apply (ex_b _ _ _ _ X)|]. destruct (x =? b); [apply (ex_a _ _ _ _ X)|auto]. Qed.
Lemma ex_head_back : forall x E, edge_at d x E -> exists E1, edge_at d1 (sw x) E1 /\ head_slot E1 = head_slot E /\ slot d1 (e_head E) (e_headpos E) (sw x).
Proof.
  intros x E HE. assert (L : sw x < nedges d1) by (rewrite (ex_nedges _ _ _ _ X); apply sw_lt; eapply edge_at_lt; eauto).
  destruct (edge_at_ex d1 _ L) as (E1 & HE1). exists E1. split; auto. destruct (ex_cases _ E1 HE1) as (E' & H & _ & HH & _ & Q & S).
  fold (sw (sw x)) in HH. rewrite sw_sw in HH. unfold edge_at in HE, HH. rewrite HE in HH. injection HH as <-. auto.
Qed.
Lemma ex_recorded : ends_recorded d1.
Proof.
  split; [rewrite (ex_nedges _ _ _ _ X), (ex_ncross _ _ _ _ X); apply R|]. intros x E1 HE1.
  destruct (ex_cases x E1 HE1) as (E & H & HE & HH & Q1 & Q2 & S). unfold head_slot, tail_slot in *.
  apply pair_eq in Q1 as (-> & ->). apply pair_eq in Q2 as (-> & ->). split; auto. apply ex_tail; auto.
Qed.
Lemma ex_two_ended : two_ended d1.
Proof.
  intros x E1 HE1 Q. destruct (ex_cases x E1 HE1) as (E & H & HE & HH & Q1 & Q2 & S). rewrite Q1, Q2 in Q. fold (sw x) in HH.
  destruct R as (_ & Rr). destruct (Rr _ _ HE) as (_ & S1). destruct (Rr _ _ HH) as (S2 & _).
  unfold head_slot, tail_slot in Q. apply pair_eq in Q as (Q3 & Q4). rewrite Q3, Q4 in S2. pose proof (slot_fun _ _ _ _ _ S1 S2) as K.
  rewrite <- K in HH. unfold edge_at in HE, HH. rewrite HE in HH. injection HH as <-. apply (T x E HE). unfold head_slot, tail_slot. congruence.
Qed.
Lemma ex_through : goes_through d1.
Proof.
  intros x E1 HE1. destruct (ex_cases x E1 HE1) as (E & H & HE & HH & Q1 & Q2 & S). unfold head_slot, tail_slot in Q1, Q2.
  apply pair_eq in Q1 as (-> & ->). apply pair_eq in Q2 as (-> & ->).
  destruct (G _ H HH) as ((y & Y & HY & S1 & Q3) & _). destruct (G _ E HE) as (_ & (z & Z & HZ & S2 & Q4)). split.
  - destruct (ex_tail_back y Y HY) as (Y1 & HY1 & Q5). exists y, Y1. split; auto. split; [|congruence].
    unfold tail_slot in Q3. apply pair_eq in Q3 as (<- & <-). apply ex_tail; auto.
  - destruct (ex_head_back z Z HZ) as (Z1 & HZ1 & Q5 & S3). exists (sw z), Z1. split; auto. split; [|congruence].
    unfold head_slot in Q4. apply pair_eq in Q4 as (<- & <-). exact S3.
Qed.
Lemma ex_continues : forall x y, continues d x y -> continues d1 (sw x) y.
Proof.
  intros x y (P & Q & HP & HQ & K1 & K2). destruct (ex_head_back x P HP) as (P1 & HP1 & K3 & _). destruct (ex_tail_back y Q HQ) as (Q1 & HQ1 & K4).
  exists P1, Q1. split; auto. split; auto. unfold head_slot, tail_slot in *. apply pair_eq in K3 as (-> & ->). apply pair_eq in K4 as (-> & ->). auto.
Qed.
Lemma ex_strands0 : forall u v L, strand_partition d ((a :: u) :: (b :: v) :: L) -> strand_partition d1 ((a :: v ++ b :: u) :: L).
Proof.
  intros u v L HL. pose proof (ex_diff _ _ _ _ X) as N.
  assert (C : cpart (continues d1) (fun x => x < nedges d) ((a :: v ++ b :: u) :: L)).
  { apply (cpart_merge0 (continues d) (continues d1) (fun x => x < nedges d) a b); [| | |exact HL].
    - intros y H. apply ex_continues in H. unfold sw in H. rewrite Nat.eqb_refl in H. exact H.
    - intros y H. apply ex_continues in H. unfold sw in H. rewrite Nat.eqb_refl in H. destruct (Nat.eqb_spec b a); [congruence|exact H].
    - intros x y H1 H2 H. apply ex_continues in H. unfold sw in H. destruct (Nat.eqb_spec x a); [congruence|]. destruct (Nat.eqb_spec x b); [congruence|exact H]. }
  eapply cpart_ext; [exact C|auto|]. intro x. rewrite (ex_nedges _ _ _ _ X). reflexivity.
Qed.
Lemma ex_strands : forall L c1 c2, strand_partition d L -> In c1 L -> In c2 L -> In a c1 -> In b c2 -> ~ In b c1 ->
  exists u v L', Permutation L (c1 :: c2 :: L') /\ rotation c1 (a :: u) /\ rotation c2 (b :: v) /\ strand_partition d1 ((a :: v ++ b :: u) :: L').
Proof.
  intros L c1 c2 HL I1 I2 Ia Ib Nb. pose proof (ex_diff _ _ _ _ X) as N.
  destruct (cpart_merge (continues d) (continues d1) (fun x => x < nedges d) a b) with (L := L) (c1 := c1) (c2 := c2) as (u & v & L' & P & Ru & Rv & C); auto.
  - intros y H. apply ex_continues in H. unfold sw in H. rewrite Nat.eqb_refl in H. exact H.
  - intros y H. apply ex_continues in H. unfold sw in H. rewrite Nat.eqb_refl in H. destruct (Nat.eqb_spec b a); [congruence|exact H].
  - intros x y H1 H2 H. apply ex_continues in H. unfold sw in H. destruct (Nat.eqb_spec x a); [congruence|]. destruct (Nat.eqb_spec x b); [congruence|exact H].
  - exists u, v, L'. split; auto. split; auto. split; auto. eapply cpart_ext; [exact C|auto|]. intro x. rewrite (ex_nedges _ _ _ _ X). reflexivity.
Qed.

(** ** faces *)
Lemma ex_dart_to : forall x s, is_dart d x -> dart_to d x s -> dart_to d1 (if orient_eqb (snd x) Pos then (sw (fst x), Pos) else x) s.
Proof.
  intros (x, o) s (_ & O) (E & HE & Q). cbn [fst snd] in *. destruct O as [-> | ->]; cbn [orient_eqb].
  - destruct Q as [(_ & ->)|(K & _)]; [|discriminate]. destruct (ex_head_back x E HE) as (E1 & HE1 & Q1 & _). exists E1. split; auto.
  - destruct Q as [(K & _)|(_ & ->)]; [discriminate|]. destruct (ex_tail_back x E HE) as (E1 & HE1 & Q1). exists E1. split; auto.
Qed.
Lemma ex_dart_from : forall x s, is_dart d x -> dart_from d x s -> dart_from d1 (if orient_eqb (snd x) Neg then (sw (fst x), Neg) else x) s.
Proof.
  intros (x, o) s (_ & O) (E & HE & Q). cbn [fst snd] in *. destruct O as [-> | ->]; cbn [orient_eqb].
  - destruct Q as [(_ & ->)|(K & _)]; [|discriminate]. destruct (ex_tail_back x E HE) as (E1 & HE1 & Q1). exists E1. split; auto.
  - destruct Q as [(K & _)|(_ & ->)]; [discriminate|]. destruct (ex_head_back x E HE) as (E1 & HE1 & Q1 & _). exists E1. split; auto.
Qed.
Lemma ex_left : forall x y, is_dart d x -> is_dart d y -> left_turn d x y ->
  left_turn d1 (if orient_eqb (snd x) Pos then (sw (fst x), Pos) else x) (if orient_eqb (snd y) Neg then (sw (fst y), Neg) else y).
Proof. intros x y Dx Dy (c & p & Hp & Tx & Fy). exists c, p. split; auto. split; [apply ex_dart_to; auto|apply ex_dart_from; auto]. Qed.

Lemma ex_faces : forall fs pa na pb nb, face_partition d fs -> In pa fs -> In na fs -> In pb fs -> In nb fs ->
  In (a, Pos) pa -> In (a, Neg) na -> In (b, Pos) pb -> In (b, Neg) nb ->
  NoDup [pa; na; pb; nb] ->
  exists m1 m2 fs', Permutation fs (na :: nb :: pa :: pb :: fs') /\ face_partition d1 (m1 :: m2 :: fs') /\
    length m1 = length na + length nb /\ length m2 = length pa + length pb.
Proof.
  intros fs pa na pb nb FP Ipa Ina Ipb Inb Apa Ana Bpb Bnb ND. pose proof (ex_diff _ _ _ _ X) as N.
  assert (U : forall c c' x, In c fs -> In c' fs -> In x c -> In x c' -> c = c').
  { intros c c' x Hc Hc' Hx Hx'. destruct FP as (_ & P2 & _). apply In_nth_error in Hc as (i & Hi). apply In_nth_error in Hc' as (j & Hj).
    assert (i = j) as -> by (eapply (Cycles.blocks_disjoint fs i j c c' x); eauto). congruence. }
  assert (PND : pa <> na /\ pa <> pb /\ pa <> nb /\ na <> pb /\ na <> nb /\ pb <> nb).
  { inversion ND as [|? ? n1 ND1]; subst. inversion ND1 as [|? ? n2 ND2]; subst. inversion ND2 as [|? ? n3 ND3]; subst. simpl in n1, n2, n3. repeat split; intro Q; rewrite Q in *; tauto. }
  destruct PND as (q1 & q2 & q3 & q4 & q5 & q6).
  assert (FD : forall c x, In c fs -> In x c -> is_dart d x) by (intros c x Hc Hx; apply FP, in_concat; eauto).
  set (R1 := fun x y => (x = (a, Pos) /\ left_turn d (b, Pos) y) \/ (x = (b, Pos) /\ left_turn d (a, Pos) y) \/ (x <> (a, Pos) /\ x <> (b, Pos) /\ left_turn d x y)).
  assert (nAB : (a, Pos) <> (b, Pos)) by congruence.
  destruct (cpart_merge (left_turn d) R1 (is_dart d) (a, Pos) (b, Pos)) with (L := fs) (c1 := pa) (c2 := pb) as (u & v & L1 & P1 & Ru & Rv & C1); auto.
  { intros y H. right. left. auto. }
  { intros y H. left. auto. }
  { intros x y H1 H2 H. right. right. auto. }
  { intro I. apply q2. eapply U; eauto. }
  assert (In na L1) as Jna.
  { apply (Permutation_in _ P1) in Ina. destruct Ina as [Q|[Q|Q]]; [congruence|congruence|exact Q]. }
  assert (In nb L1) as Jnb.
  { apply (Permutation_in _ P1) in Inb. destruct Inb as [Q|[Q|Q]]; [congruence|congruence|exact Q]. }
  (* the darts before (a, Neg) and (b, Neg) *)
  assert (PR : forall c x, In c fs -> In x c -> exists y, In y c /\ left_turn d y x).
  { intros c x Hc Hx. destruct FP as (P1' & _). destruct (P1' c Hc) as (_ & CY). apply In_nth_error in Hx as (i & Hi).
    assert (Li : i < length c) by (apply nth_error_Some; congruence).
    destruct (nth_error c ((i + (length c - 1)) mod length c)) as [y|] eqn:Y.
    2:{ apply nth_error_None in Y. pose proof (Nat.mod_upper_bound (i + (length c - 1)) (length c)). lia. }
    exists y. split; [eapply nth_error_In; eauto|]. eapply CY; [exact Y|].
    replace (((i + (length c - 1)) mod length c + 1) mod length c) with i; [exact Hi|].
    rewrite Nat.add_mod_idemp_l by lia. replace (i + (length c - 1) + 1) with (i + 1 * length c) by lia. rewrite Nat.mod_add, Nat.mod_small by lia. reflexivity. }
  destruct (PR na (a, Neg) Ina Ana) as (ya & Iya & Lya). destruct (PR nb (b, Neg) Inb Bnb) as (yb & Iyb & Lyb).
  assert (Yn : ya <> yb) by (intros Q; rewrite Q in Iya; apply q5; exact (U _ _ _ Ina Inb Iya Iyb)).
  assert (DY : ya <> (a, Pos) /\ ya <> (b, Pos) /\ yb <> (a, Pos) /\ yb <> (b, Pos)).
  { repeat split; intro Q.
    - rewrite Q in Iya. apply q1. exact (U _ _ _ Ipa Ina Apa Iya).
    - rewrite Q in Iya. apply q4. exact (U _ _ _ Ina Ipb Iya Bpb).
    - rewrite Q in Iyb. apply q3. exact (U _ _ _ Ipa Inb Apa Iyb).
    - rewrite Q in Iyb. apply q6. exact (U _ _ _ Ipb Inb Bpb Iyb). }
  destruct DY as (DY1 & DY2 & DY3 & DY4).
  pose proof (FD _ _ Ina Iya) as dya. pose proof (FD _ _ Inb Iyb) as dyb.
  pose proof (FD _ _ Ina Ana) as daN. pose proof (FD _ _ Inb Bnb) as dbN.
  pose proof (FD _ _ Ipa Apa) as daP. pose proof (FD _ _ Ipb Bpb) as dbP.
  (* a dart other than (a, Pos), (b, Pos) ends where it did; one other than (a, Neg), (b, Neg) starts where it did *)
  assert (KT : forall x : nat * orient, x <> (a, Pos) -> x <> (b, Pos) -> (if orient_eqb (snd x) Pos then (sw (fst x), Pos) else x) = x).
  { intros (x, o) n1 n2. cbn [fst snd]. destruct o; cbn [orient_eqb]; auto. unfold sw. destruct (Nat.eqb_spec x a); [congruence|]. destruct (Nat.eqb_spec x b); congruence. }
  assert (KF : forall x : nat * orient, x <> (a, Neg) -> x <> (b, Neg) -> (if orient_eqb (snd x) Neg then (sw (fst x), Neg) else x) = x).
  { intros (x, o) n1 n2. cbn [fst snd]. destruct o; cbn [orient_eqb]; auto. unfold sw. destruct (Nat.eqb_spec x a); [congruence|]. destruct (Nat.eqb_spec x b); congruence. }
  assert (swa : sw a = b) by (unfold sw; rewrite Nat.eqb_refl; auto).
  assert (swb : sw b = a) by (unfold sw; rewrite Nat.eqb_refl; destruct (Nat.eqb_spec b a); congruence).
  assert (DL : forall x y, is_dart d x -> left_turn d x y -> is_dart d y).
  { intros x y Dx (c & p & Hp & _ & E & HE & Q). split; [eapply edge_at_lt; eauto|]. destruct Q as [(Q & _)|(Q & _)]; auto. }
  assert (BL : forall c x y, In c fs -> In x c -> left_turn d x y -> In y c).
  { intros c x y Hc Hx H. destruct FP as (P1' & P2' & P3'). destruct (P1' c Hc) as (_ & CY). apply In_nth_error in Hx as (i & Hi).
    assert (Li : i < length c) by (apply nth_error_Some; congruence).
    destruct (nth_error c ((i + 1) mod length c)) as [z|] eqn:Z.
    2:{ apply nth_error_None in Z. pose proof (Nat.mod_upper_bound (i + 1) (length c)). lia. }
    assert (y = z) as -> by (eapply (left_turn_fun d x); eauto). eapply nth_error_In; eauto. }
  destruct (cpart_merge (fun x y => is_dart d x /\ R1 x y) (left_turn d1) (is_dart d) ya yb) with (L := (((a, Pos) :: v ++ (b, Pos) :: u) :: L1)) (c1 := na) (c2 := nb) as (u' & v' & L2 & P2 & Ru' & Rv' & C2).
  - intros y (_ & [(Q & _)|[(Q & _)|(_ & _ & H)]]); [congruence|congruence|].
    assert (y = (a, Neg)) as -> by (eapply (left_turn_fun d ya); eauto).
    pose proof (ex_left yb (b, Neg) dyb dbN Lyb) as K. rewrite KT in K by auto. cbn [fst snd orient_eqb] in K. rewrite swb in K. exact K.
  - intros y (_ & [(Q & _)|[(Q & _)|(_ & _ & H)]]); [congruence|congruence|].
    assert (y = (b, Neg)) as -> by (eapply (left_turn_fun d yb); eauto).
    pose proof (ex_left ya (a, Neg) dya daN Lya) as K. rewrite KT in K by auto. cbn [fst snd orient_eqb] in K. rewrite swa in K. exact K.
  - intros x y n1 n2 (Dx & [(-> & H)|[(-> & H)|(n3 & n4 & H)]]).
    + assert (Iy : In y pb) by (eapply BL; [exact Ipb|exact Bpb|exact H]).
      pose proof (ex_left (b, Pos) y dbP (DL _ _ dbP H) H) as K. cbn [fst snd orient_eqb] in K. rewrite swb in K. rewrite KF in K; auto.
      * intros ->. apply q4. exact (U _ _ _ Ina Ipb Ana Iy).
      * intros ->. apply q6. exact (U _ _ _ Ipb Inb Iy Bnb).
    + assert (Iy : In y pa) by (eapply BL; [exact Ipa|exact Apa|exact H]).
      pose proof (ex_left (a, Pos) y daP (DL _ _ daP H) H) as K. cbn [fst snd orient_eqb] in K. rewrite swa in K. rewrite KF in K; auto.
      * intros ->. apply q1. exact (U _ _ _ Ipa Ina Iy Ana).
      * intros ->. apply q3. exact (U _ _ _ Ipa Inb Iy Bnb).
    + pose proof (ex_left x y Dx (DL _ _ Dx H) H) as K. rewrite KT in K by auto. rewrite KF in K; auto.
      * intros ->. apply n1. eapply (left_turn_inj d x ya); eauto.
      * intros ->. apply n2. eapply (left_turn_inj d x yb); eauto.
  - eapply cpart_ext; [exact C1| |reflexivity]. intros x y Dx _ H. auto.
  - right. exact Jna.
  - right. exact Jnb.
  - exact Iya.
  - exact Iyb.
  - intro I. apply q5. exact (U _ _ _ Ina Inb I Iyb).
  - assert (P3 : exists fs', Permutation L1 (na :: nb :: fs') /\ Permutation L2 (((a, Pos) :: v ++ (b, Pos) :: u) :: fs')).
    { assert (I : In ((a, Pos) :: v ++ (b, Pos) :: u) L2).
      { assert (Q : In ((a, Pos) :: v ++ (b, Pos) :: u) (na :: nb :: L2)) by (eapply Permutation_in; [exact P2|simpl; auto]).
        destruct Q as [Q|[Q|Q]]; [| |exact Q]; exfalso; [apply q1; refine (U _ _ _ Ipa Ina Apa _)|apply q3; refine (U _ _ _ Ipa Inb Apa _)]; rewrite Q; simpl; auto. }
      apply in_split in I as (l1 & l2 & ->). exists (l1 ++ l2). split.
      - apply (Permutation_cons_inv (a := (a, Pos) :: v ++ (b, Pos) :: u)). etransitivity; [exact P2|].
        etransitivity; [apply perm_skip, perm_skip, Permutation_sym, Permutation_middle|].
        etransitivity; [apply perm_skip, perm_swap|]. apply perm_swap.
      - apply Permutation_sym, Permutation_middle. }
    destruct P3 as (fs' & P3 & P4). exists (ya :: v' ++ yb :: u'), ((a, Pos) :: v ++ (b, Pos) :: u), fs'.
    split; [|split; [|split]].
    + etransitivity; [exact P1|]. etransitivity; [apply perm_skip, perm_skip; exact P3|].
      change (Permutation ([pa; pb] ++ [na; nb] ++ fs') ([na; nb] ++ [pa; pb] ++ fs')). rewrite !app_assoc. apply Permutation_app_tail, Permutation_app_comm.
    + eapply cpart_ext; [eapply cpart_perm; [apply perm_skip; exact P4|exact C2]|auto|].
      intros (x, o). unfold is_dart. rewrite (ex_nedges _ _ _ _ X). reflexivity.
    + apply rotation_perm, Permutation_length in Ru', Rv'. rewrite Ru', Rv'. cbn [length]. rewrite app_length. cbn [length]. lia.
    + apply rotation_perm, Permutation_length in Ru, Rv. rewrite Ru, Rv. cbn [length]. rewrite app_length. cbn [length]. lia.
Qed.

(** ** connections *)
Lemma joined_sym : forall e c c', joined e c c' -> joined e c' c.
Proof. intros e c c' (x & p & q & H & K). exists x, q, p. auto. Qed.
Lemma reach_sym : forall e c c', clos_refl_trans nat (joined e) c c' -> clos_refl_trans nat (joined e) c' c.
Proof.
  intros e c c' H. induction H as [c c' H|c|c c1 c2 H1 IH1 H2 IH2]; [apply rt_step, joined_sym; exact H|apply rt_refl|eapply rt_trans; eauto].
Qed.
Lemma strand_reach : forall u z, (forall x, In x (u ++ [z]) -> x < nedges d) -> ~ In a u -> ~ In b u -> linked (continues d) (u ++ [z]) -> u <> [] ->
  forall x0 t Z X0, u = x0 :: t -> edge_at d x0 X0 -> edge_at d z Z -> clos_refl_trans nat (joined d1) (e_tail X0) (e_tail Z).
Proof.
  induction u as [|x u IH]; intros z Hb Na Nb L NE x0 t Z X0 E H0 HZ; [congruence|]. injection E as -> ->.
  assert (J : joined d1 (e_tail X0) (e_head X0)).
  { destruct (proj2 R _ _ H0) as (S1 & S2). exists x0, (e_tailpos X0), (e_headpos X0). split; apply ex_other'; auto; intros ->; [apply Na|apply Nb|apply Na|apply Nb]; simpl; auto. }
  destruct t as [|y t].
  - cbn [app] in L. destruct L as ((P & Q & HP & HQ & K1 & _) & _). unfold edge_at in *. rewrite H0 in HP. injection HP as <-. rewrite HZ in HQ. injection HQ as <-.
    rewrite K1. apply rt_step. exact J.
  - cbn [app] in L. destruct L as ((P & Q & HP & HQ & K1 & _) & L'). unfold edge_at in HP, H0. rewrite H0 in HP. injection HP as <-.
    eapply rt_trans; [apply rt_step; exact J|]. rewrite <- K1. eapply (IH z); eauto.
    + intros w Hw. apply Hb. simpl. auto.
    + intro I. apply Na. simpl. auto.
    + intro I. apply Nb. simpl. auto.
    + discriminate.
Qed.
Lemma cycle_reach : forall e u E, e = a \/ e = b -> cyclically (continues d) (e :: u) -> ~ In a u -> ~ In b u -> (forall x, In x u -> x < nedges d) ->
  edge_at d e E -> clos_refl_trans nat (joined d1) (e_head E) (e_tail E).
Proof.
  intros e u E He C Na Nb Hu HE. apply cyclically_linked in C. destruct u as [|y u].
  - cbn [app] in C. destruct C as ((P & Q & HP & HQ & K1 & _) & _). unfold edge_at in *. rewrite HE in HP, HQ. injection HP as <-. injection HQ as <-. rewrite K1. apply rt_refl.
  - cbn [app] in C. destruct C as ((P & Q & HP & HQ & K1 & _) & C'). unfold edge_at in HE, HP. rewrite HE in HP. injection HP as <-. rewrite <- K1.
    eapply (strand_reach (y :: u) e); eauto; [|discriminate].
    intros x Hx. apply in_app_iff in Hx as [Hx|[<-|[]]]; [apply Hu; auto|]. eapply edge_at_lt; exact HE.
Qed.
Lemma ex_joined : forall u v, cyclically (continues d) (a :: u) -> cyclically (continues d) (b :: v) ->
  ~ In a u -> ~ In b u -> ~ In a v -> ~ In b v -> (forall x, In x (u ++ v) -> x < nedges d) ->
  forall c c', clos_refl_trans nat (joined d) c c' -> clos_refl_trans nat (joined d1) c c'.
Proof.
  intros u v Cu Cv Nau Nbu Nav Nbv Huv c c' H. induction H as [c c' (e & p & q & S1 & S2)|c|c c1 c2 H1 IH1 H2 IH2]; [|apply rt_refl|eapply rt_trans; eauto].
  destruct (Nat.eq_dec e a) as [->|Na].
  - destruct ex_recs as (E & F & HE & HF & _). pose proof (cycle_reach a u E (or_introl eq_refl) Cu Nau Nbu ltac:(intros; apply Huv, in_app_iff; auto) HE) as K.
    destruct (DeloopProofs.slot_end d c p a E R T S1 HE) as [Q|Q], (DeloopProofs.slot_end d c' q a E R T S2 HE) as [Q'|Q'];
      unfold head_slot, tail_slot in *; apply pair_eq in Q as (-> & _); apply pair_eq in Q' as (-> & _); try apply rt_refl; auto; apply reach_sym; auto.
  - destruct (Nat.eq_dec e b) as [->|Nb].
    + destruct ex_recs as (E & F & HE & HF & _). pose proof (cycle_reach b v F (or_intror eq_refl) Cv Nav Nbv ltac:(intros; apply Huv, in_app_iff; auto) HF) as K.
      destruct (DeloopProofs.slot_end d c p b F R T S1 HF) as [Q|Q], (DeloopProofs.slot_end d c' q b F R T S2 HF) as [Q'|Q'];
        unfold head_slot, tail_slot in *; apply pair_eq in Q as (-> & _); apply pair_eq in Q' as (-> & _); try apply rt_refl; auto; apply reach_sym; auto.
    + apply rt_step. exists e, p, q. split; apply ex_other'; auto.
Qed.
End Exchange.
