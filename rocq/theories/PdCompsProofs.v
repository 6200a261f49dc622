(** Proofs about pd_regenerate_comps. *)
From Coq Require Import List ZArith Lia Bool Arith Permutation Sorted.
From Verif Require Import Base Iterators ListAux Sorting Orbits Cycles Pd PdSpec PdProofs Relabel RelabelProofs
  SlotCount PdCross PdCrossProofs PdEdges PdEdgesProofs PdComps.
From Verif Require Perm PermProofs.
Import ListNotations.
Open Scope nat_scope.

Lemma upd_self : forall A (l : list A) i x, nth_error l i = Some x -> upd i x l = l.
Proof. induction l as [|y l IH]; intros [|i] x H; cbn in *; try congruence. f_equal. auto. Qed.

Section Trace.
Context (d : pd) (R : ends_recorded d) (G : goes_through d).
Notation D := (seq 0 (nedges d)).

(** the edge straight across from the head *)
Definition succ (e : nat) : nat :=
  match nth_error (p_edge d) e with
  | Some E => edge_in (p_cross d) (e_head E, (e_headpos E + 2) mod 4)
  | None => e
  end.

Lemma slot_edge_in : forall c p e, slot d c p e -> edge_in (p_cross d) (c, p) = e.
Proof. intros c p e (_ & x & Hx & K). unfold edge_in. cbn [fst snd]. rewrite Hx. auto. Qed.
Lemma succ_spec : forall e E, edge_at d e E -> exists N, edge_at d (succ e) N /\
  slot d (e_head E) ((e_headpos E + 2) mod 4) (succ e) /\ tail_slot N = (e_head E, (e_headpos E + 2) mod 4).
Proof.
  intros e E HE. destruct (G e E HE) as ((e' & E' & A & B & C) & _). exists E'.
  assert (succ e = e'); [|subst; auto]. unfold succ. unfold edge_at in HE. rewrite HE. apply slot_edge_in; auto.
Qed.
Lemma succ_lt : forall e, e < nedges d -> succ e < nedges d.
Proof.
  intros e H. destruct (edge_at_ex d e H) as (E & HE). destruct (succ_spec e E HE) as (N & HN & _).
  eapply edge_at_lt; eauto.
Qed.
Lemma continues_succ : forall a b, continues d a b <-> a < nedges d /\ b = succ a.
Proof.
  intros a b. split.
  - intros (A & B & HA & HB & T1 & T2). split; [eapply edge_at_lt; eauto|].
    destruct (succ_spec a A HA) as (N & HN & S & _). destruct R as (_ & R2). destruct (R2 b B HB) as (_ & S2).
    rewrite T1, T2 in S2. exact (slot_fun _ _ _ _ _ S2 S).
  - intros (H & ->). destruct (edge_at_ex d a H) as (E & HE). destruct (succ_spec a E HE) as (N & HN & S & T).
    exists E, N. unfold tail_slot in T. apply pair_equal_spec in T as (T1 & T2). auto.
Qed.
Lemma succ_inj : forall a b, a < nedges d -> b < nedges d -> succ a = succ b -> a = b.
Proof.
  intros a b Ha Hb E. destruct (edge_at_ex d a Ha) as (A & HA). destruct (edge_at_ex d b Hb) as (B & HB).
  destruct (succ_spec a A HA) as (N & HN & _ & T1). destruct (succ_spec b B HB) as (N' & HN' & _ & T2).
  rewrite E in HN. unfold edge_at in HN, HN'. assert (N = N') by congruence. subst N'. rewrite T1 in T2.
  apply pair_equal_spec in T2 as (Q1 & Q2). destruct R as (_ & R2). destruct (R2 a A HA) as (S1 & _).
  destruct (R2 b B HB) as (S2 & _). pose proof (slot_lt _ _ _ _ S1) as (_ & P1). pose proof (slot_lt _ _ _ _ S2) as (_ & P2).
  assert (e_headpos A = e_headpos B).
  { clear - Q2 P1 P2. revert Q2 P1 P2. generalize (e_headpos A) (e_headpos B). intros x y Q2 P1 P2.
    do 4 (destruct x as [|x]; [do 4 (destruct y as [|y]; [cbn in Q2; lia|]); lia|]); lia. }
  rewrite Q1, H in S1. exact (slot_fun _ _ _ _ _ S1 S2).
Qed.
Lemma next_succ : forall e, e < nedges d -> next_comp_edge d e = Ok (succ e, Pos).
Proof.
  intros e H. destruct (edge_at_ex d e H) as (E & HE). destruct (succ_spec e E HE) as (N & HN & S & T).
  unfold next_comp_edge. rewrite (proj2 (Nat.ltb_lt _ _) H). unfold edge_at in HE, HN.
  rewrite (proj2 (get_ok _ _ _ _) HE). cbn [bind]. destruct S as (_ & x & Hx & K).
  rewrite (proj2 (get_ok _ _ _ _) Hx). cbn [bind]. rewrite K, (proj2 (get_ok _ _ _ _) HN). cbn [bind].
  unfold tail_slot in T. apply pair_equal_spec in T as (-> & ->). rewrite !Nat.eqb_refl. reflexivity.
Qed.

Lemma D_closed : forall x, In x D -> In (succ x) D.
Proof. intros x H. apply in_seq in H. apply in_seq. pose proof (succ_lt x). lia. Qed.
Lemma D_inj : forall x y, In x D -> In y D -> succ x = succ y -> x = y.
Proof. intros x y H1 H2. apply in_seq in H1, H2. apply succ_inj; lia. Qed.

Lemma iter_lt : forall i s, s < nedges d -> iter i succ s < nedges d.
Proof. induction i; intros; cbn [iter]; auto using succ_lt. Qed.
Lemma period_le : forall s k, s < nedges d -> period succ k s -> k <= nedges d.
Proof.
  intros s k H P. destruct (period_exists succ D Nat.eq_dec D_closed D_inj s) as (k' & L & P').
  { apply in_seq. lia. }
  rewrite seq_length in L. rewrite (period_unique succ s k k' P P'). auto.
Qed.

Context (Hm : ncross d <= p_maxv d).

Lemma comp_loop_ok : forall s k m i fuel, s < nedges d -> period succ k s -> i + m = k -> 1 <= i -> m < fuel ->
  comp_loop fuel d s (iter i succ s, Pos) i = Ok (d, map (fun j => iter j succ s) (seq i m)).
Proof.
  intros s k. induction m as [|m IH]; intros i fuel Hs P Hi H1 Hf; (destruct fuel as [|f]; [lia|]); cbn [comp_loop fst snd].
  - replace i with k by lia. replace (iter k succ s) with s by (symmetry; apply P). rewrite Nat.eqb_refl. reflexivity.
  - destruct (Nat.eqb_spec (iter i succ s) s) as [E|_].
    { exfalso. destruct P as (P1 & P2 & P3). rewrite NoDup_nth_error in P3. specialize (P3 i 0).
      rewrite cyc_length, !cyc_nth in P3 by lia. cbn [iter] in P3. rewrite E in P3. specialize (P3 ltac:(lia) eq_refl). lia. }
    pose proof (period_le s k Hs P) as Lk. destruct R as (En & _).
    destruct (Nat.ltb_spec (MAXEDGES d + 1) i) as [Q|_]; [unfold MAXEDGES in Q; lia|]. cbn [orb].
    destruct (edge_at_ex d _ (iter_lt i s Hs)) as (E & HE). unfold edge_at in HE.
    rewrite (proj2 (get_ok _ _ _ _) HE). cbn [bind pd_oriented_edge]. rewrite (upd_self _ _ _ _ HE), with_edges_same.
    destruct (Nat.leb_spec (nedges d) i); [lia|]. rewrite next_succ by (apply iter_lt; auto). cbn [bind].
    change (succ (iter i succ s)) with (iter (S i) succ s). rewrite IH by (auto; lia). reflexivity.
Qed.

Lemma find_unassigned_spec : forall l, match find_unassigned_edge d l with
  | Some e => e < nedges d /\ ~ In e l /\ forall x, x < e -> In x l
  | None => forall x, x < nedges d -> In x l
  end.
Proof.
  intros l. unfold find_unassigned_edge.
  assert (X : forall e, negb (existsb (Nat.eqb e) l) = true <-> ~ In e l).
  { intros e. rewrite negb_true_iff, <- not_true_iff_false, existsb_exists. split.
    - intros H K. apply H. exists e. split; auto. apply Nat.eqb_refl.
    - intros H (y & Hy & E). apply Nat.eqb_eq in E. subst. auto. }
  assert (W : forall n k, match find (fun e => negb (existsb (Nat.eqb e) l)) (seq k n) with
    | Some e => e < k + n /\ ~ In e l /\ forall x, k <= x < e -> In x l
    | None => forall x, k <= x < k + n -> In x l end).
  { induction n as [|n IH]; intros k; cbn [seq find]; [intros; lia|].
    destruct (negb (existsb (Nat.eqb k) l)) eqn:E.
    - split; [lia|]. split; [apply X; auto|]. intros; lia.
    - assert (Ik : In k l).
      { destruct (in_dec Nat.eq_dec k l); auto. exfalso. assert (negb (existsb (Nat.eqb k) l) = true) by (apply X; auto). congruence. }
      specialize (IH (S k)). destruct (find _ (seq (S k) n)) as [e|].
      + destruct IH as (A & B & C). split; [lia|]. split; auto. intros x Hx. destruct (Nat.eq_dec x k) as [->|]; auto. apply C. lia.
      + intros x Hx. destruct (Nat.eq_dec x k) as [->|]; auto. apply IH. lia. }
  specialize (W (nedges d) 0). destruct (find _ _) as [e|].
  - destruct W as (A & B & C). split; [lia|]. split; auto. intros x Hx. apply C. lia.
  - intros x Hx. apply W. lia.
Qed.

Lemma comps_step : forall f edge done k, edge < nedges d -> period succ k edge ->
  comps_loop (S f) d edge done =
  if MAXCOMPONENTS d <? length done then Fail
  else if length done =? MAXCOMPONENTS d then UB
  else match find_unassigned_edge d (concat (done ++ [cyc succ k edge])) with
       | Some e => comps_loop f d e (done ++ [cyc succ k edge])
       | None => Ok (d, done ++ [cyc succ k edge])
       end.
Proof.
  intros f edge done k He P. cbn [comps_loop]. destruct (Nat.leb_spec (nedges d) edge); [lia|].
  rewrite next_succ by auto. cbn [bind]. change (succ edge) with (iter 1 succ edge).
  pose proof (period_le edge k He P) as Lk. assert (k0 : 0 < k) by apply P.
  rewrite (comp_loop_ok edge k (k - 1)) by (auto; lia). cbn [bind fst snd].
  assert (Q : edge :: map (fun j => iter j succ edge) (seq 1 (k - 1)) = cyc succ k edge).
  { unfold cyc. destruct k as [|k]; [lia|]. cbn [seq map iter]. rewrite Nat.sub_succ, Nat.sub_0_r. reflexivity. }
  rewrite Q. reflexivity.
Qed.

Lemma cyc_block : forall k e, period succ k e -> cyclic_block succ (cyc succ k e).
Proof.
  intros k e P. split.
  - intros E. apply (f_equal (@length _)) in E. rewrite cyc_length in E. destruct P. cbn in E. lia.
  - intros i x y Hx Hy. rewrite cyc_length in Hy. pose proof (cyc_cyclic succ k e i x P Hx). congruence.
Qed.

Record part_done (done : list (list nat)) : Prop := {
  pa_block : Forall (cyclic_block succ) done;
  pa_nodup : NoDup (concat done);
  pa_sub : forall x, In x (concat done) -> In x D;
  pa_closed : forall x, In x (concat done) -> In (succ x) (concat done) }.

Lemma NoDup_app_intro : forall A (a b : list A), NoDup a -> NoDup b -> (forall x, In x a -> In x b -> False) -> NoDup (a ++ b).
Proof.
  induction a as [|x a IH]; intros b Ha Hb K; cbn; auto. inversion Ha; subst. constructor.
  - rewrite in_app_iff. intros [X|X]; auto. apply (K x); cbn; auto.
  - apply IH; auto. intros y H H'. apply (K y); cbn; auto.
Qed.

Lemma part_extend : forall done e k, part_done done -> e < nedges d -> ~ In e (concat done) -> period succ k e ->
  part_done (done ++ [cyc succ k e]).
Proof.
  intros done e k [P1 P2 P3 P4] He Hn P.
  assert (C : concat (done ++ [cyc succ k e]) = concat done ++ cyc succ k e) by (rewrite concat_app; cbn; rewrite app_nil_r; auto).
  split; rewrite ?C.
  - apply Forall_app. split; auto. constructor; auto. apply cyc_block; auto.
  - apply NoDup_app_intro; auto; [apply P|]. intros x H1 H2. apply Hn. eapply (cyc_meets succ); eauto.
  - intros x H. apply in_app_iff in H as [H|H]; auto. apply in_cyc in H as (i & _ & ->). apply in_seq.
    pose proof (iter_lt i e He). lia.
  - intros x H. apply in_app_iff in H as [H|H]; apply in_app_iff; [left; auto|right]. apply cyc_closed; auto.
Qed.

Lemma comps_loop_ok : forall fuel edge done, part_done done -> edge < nedges d -> ~ In edge (concat done) ->
  nedges d < fuel + length (concat done) ->
  exists L, cycle_partition succ D L /\ length done < length L /\
    (length done <= MAXCOMPONENTS d ->
     comps_loop fuel d edge done = if length L <=? MAXCOMPONENTS d then Ok (d, L) else UB).
Proof.
  induction fuel as [|f IH]; intros edge done P He Hn Hf.
  { exfalso. pose proof (NoDup_incl_length (pa_nodup _ P) (pa_sub _ P)) as Q. rewrite seq_length in Q. lia. }
  destruct (period_exists succ D Nat.eq_dec D_closed D_inj edge) as (k & Lk & Pk); [apply in_seq; lia|].
  pose proof (part_extend done edge k P He Hn Pk) as P'. set (done' := done ++ [cyc succ k edge]) in *.
  assert (Ld : length done' = S (length done)) by (unfold done'; rewrite app_length; cbn; lia).
  pose proof (find_unassigned_spec (concat done')) as U.
  destruct (find_unassigned_edge d (concat done')) as [e|] eqn:Q.
  - destruct U as (U1 & U2 & U3).
    destruct (IH e done' P' U1 U2) as (L & C & Le & K).
    { unfold done' at 1. rewrite concat_app, app_length. cbn [concat]. rewrite app_nil_r, cyc_length.
      assert (0 < k) by apply Pk. lia. }
    exists L. split; auto. split; [lia|]. intros Lm. rewrite (comps_step f edge done k He Pk). fold done'. rewrite Q.
    destruct (Nat.ltb_spec (MAXCOMPONENTS d) (length done)); [lia|].
    destruct (Nat.eqb_spec (length done) (MAXCOMPONENTS d)) as [E|E].
    + destruct (Nat.leb_spec (length L) (MAXCOMPONENTS d)); [lia|auto].
    + apply K. lia.
  - exists done'. split.
    { destruct P' as [A B C _]. split; auto. split; auto. intros x. split; auto. intros H. apply U. apply in_seq in H. lia. }
    split; [lia|]. intros Lm. rewrite (comps_step f edge done k He Pk). fold done'. rewrite Q.
    destruct (Nat.ltb_spec (MAXCOMPONENTS d) (length done)); [lia|].
    destruct (Nat.eqb_spec (length done) (MAXCOMPONENTS d)) as [E|E];
      destruct (Nat.leb_spec (length done') (MAXCOMPONENTS d)); auto; lia.
Qed.
End Trace.

(** * Renumbering the edges along a list that names each edge once *)
Section Renumber.
Context (d : pd) (R : ends_recorded d) (Hb : forall c p e, slot d c p e -> e < nedges d).
Context (old : list nat) (Hp : Permutation old (seq 0 (nedges d))).

Lemma old_length : length old = nedges d.
Proof. rewrite (Permutation_length Hp), seq_length. auto. Qed.
Lemma old_nodup : NoDup old.
Proof. eapply Permutation_NoDup; [symmetry; exact Hp|apply seq_NoDup]. Qed.
Lemma old_lt : forall i, i < nedges d -> nth i old 0 < nedges d.
Proof.
  intros i H. assert (In (nth i old 0) (seq 0 (nedges d))) as K.
  { apply (Permutation_in _ Hp), nth_In. rewrite old_length. auto. }
  apply in_seq in K. lia.
Qed.

Lemma renum_ok : exists num, Perm.scatter old 0 (repeat 0 (nedges d)) = Ok num /\ length num = nedges d /\
  (forall i, i < nedges d -> nth (nth i old 0) num 0 = i) /\
  (forall e, e < nedges d -> nth e num 0 < nedges d /\ nth (nth e num 0) old 0 = e).
Proof.
  destruct (PermProofs.scatter_ok old 0 (repeat 0 (nedges d))) as (num & E & L & K).
  { apply Forall_forall. intros x Hx. rewrite repeat_length. apply (Permutation_in _ Hp) in Hx. apply in_seq in Hx. lia. }
  rewrite repeat_length in L. destruct (K old_nodup) as (K1 & _). rewrite old_length in K1.
  exists num. split; auto. split; auto. split; [exact K1|]. intros e He.
  assert (I : In e old) by (apply (Permutation_in _ (Permutation_sym Hp)), in_seq; lia).
  apply (In_nth old e 0) in I as (i & Hi & <-). rewrite old_length in Hi. rewrite K1 by auto. auto.
Qed.

Definition rename1 (num : list nat) (x : crossing) : crossing :=
  mkCross (nth (ce0 x) num 0) (nth (ce1 x) num 0) (nth (ce2 x) num 0) (nth (ce3 x) num 0) (csign x).
Lemma cedge_rename : forall num x p, p < 4 -> cedge (rename1 num x) p = nth (cedge x p) num 0.
Proof. intros num x p H. destruct (small4 p H) as [-> |[-> |[-> | ->]]]; reflexivity. Qed.

Lemma get_nth : forall A (l : list A) i (z : A), i < length l -> get l i = Ok (nth i l z).
Proof. intros. apply get_ok. apply nth_error_nth'; auto. Qed.
Lemma rename_ok : forall num, length num = nedges d ->
  map_ok (rename_cross num) (p_cross d) = Ok (map (rename1 num) (p_cross d)).
Proof.
  intros num L. apply map_ok_map. intros x Hx. apply In_nth_error in Hx as (c & Hc).
  assert (K : forall p, p < 4 -> cedge x p < length num).
  { intros p Hq. rewrite L. apply (Hb c p). split; eauto. }
  pose proof (K 0 ltac:(lia)). pose proof (K 1 ltac:(lia)). pose proof (K 2 ltac:(lia)). pose proof (K 3 ltac:(lia)).
  cbn [cedge] in *. unfold rename_cross. rewrite !(get_nth _ num _ 0) by auto. reflexivity.
Qed.
Lemma reorder_ok : map_ok (get (p_edge d)) old = Ok (map (fun e => nth e (p_edge d) (mkEdge 0 0 0 0)) old).
Proof.
  apply map_ok_map. intros e He. apply get_nth. apply (Permutation_in _ Hp) in He. apply in_seq in He. unfold nedges in He. lia.
Qed.

Definition renamed (num : list nat) (cs : list component) : pd :=
  with_comps (with_cross (with_edges d (map (fun e => nth e (p_edge d) (mkEdge 0 0 0 0)) old))
    (map (rename1 num) (p_cross d))) cs.
Lemma renamed_relabels : forall num cs, length num = nedges d ->
  (forall i, i < nedges d -> nth (nth i old 0) num 0 = i) ->
  (forall e, e < nedges d -> nth e num 0 < nedges d /\ nth (nth e num 0) old 0 = e) ->
  relabelled d (renamed num cs) (fun c => c) (fun _ => 0) (fun e => nth e num 0).
Proof.
  intros num cs L K1 K2.
  assert (M : forall p, p < 4 -> (p + 4 - 0) mod 4 = p).
  { intros p H. destruct (small4 p H) as [-> |[-> |[-> | ->]]]; reflexivity. }
  split.
  - unfold ncross. cbn. apply map_length.
  - unfold nedges. cbn. rewrite map_length. apply old_length.
  - apply bij_id.
  - intros; lia.
  - split; [intros; apply K2; auto|]. intros i j Hi Hj E. rewrite <- (proj2 (K2 i Hi)), E. apply K2; auto.
  - intros c p e (Hq & x & Hx & E). unfold moved. cbn [snd]. rewrite M by auto. split; auto.
    exists (rename1 num x). split; [cbn; apply map_nth_error; auto|]. rewrite cedge_rename, E; auto.
  - intros c s (x & Hx & E). exists (rename1 num x). split; [cbn; apply map_nth_error; auto|auto].
  - intros e E HE. pose proof (edge_at_lt _ _ _ HE) as Le. exists E. split.
    + unfold edge_at. cbn. rewrite nth_error_map, (nth_error_nth' _ 0) by (rewrite old_length; apply K2; auto).
      cbn [option_map]. rewrite (proj2 (K2 e Le)). f_equal. apply nth_error_nth; auto.
    + destruct R as (_ & R2). destruct (R2 e E HE) as (S1 & S2). apply slot_lt in S1 as (_ & P1). apply slot_lt in S2 as (_ & P2).
      unfold head_slot, tail_slot, moved. rewrite !M by auto. auto.
Qed.
End Renumber.

(** * The renumbered components *)
Lemma renumbered_length : forall cs num i, length (renumbered num i cs) = length cs.
Proof. induction cs; intros; cbn [renumbered length]; auto. Qed.
Lemma renumbered_concat : forall cs num i,
  concat (map cp_edge (renumbered num i cs)) = seq num (length (concat (map cp_edge cs))).
Proof.
  induction cs as [|c cs IH]; intros num i; auto. cbn [renumbered map concat cp_edge]. rewrite IH, app_length, seq_app. auto.
Qed.
Lemma renumbered_tag : forall cs num i j c, nth_error (renumbered num i cs) j = Some c -> cp_tag c = comp_tag (i + j).
Proof.
  induction cs as [|c cs IH]; intros num i [|j] x H; cbn in H; try discriminate.
  - injection H as <-. cbn. f_equal. lia.
  - apply IH in H. rewrite H. f_equal. lia.
Qed.
(** block [j] of the result is the image of block [j] of the input *)
Lemma renumbered_block : forall cs num i g, map g (concat (map cp_edge cs)) = seq num (length (concat (map cp_edge cs))) ->
  map cp_edge (renumbered num i cs) = map (fun c => map g (cp_edge c)) cs.
Proof.
  induction cs as [|c cs IH]; intros num i g H; auto. cbn [map concat] in H. rewrite map_app, app_length, seq_app in H.
  apply app_inj_len in H as (H1 & H2); [|rewrite map_length, seq_length; auto].
  cbn [renumbered map cp_edge]. rewrite H1. f_equal. apply IH; auto.
Qed.
Lemma seq_lex : forall n a b, a <= b -> lex_le (seq a n) (seq b n).
Proof.
  intros [|n] a b H; [left; auto|]. cbn [seq]. destruct (Nat.eq_dec a b) as [->|]; [left; auto|].
  right. apply lex_here. lia.
Qed.
Lemma renumbered_sorted : forall cs num i, StronglySorted big_first (map cp_edge cs) ->
  StronglySorted big_first (map cp_edge (renumbered num i cs)).
Proof.
  assert (W : forall cs num i x, In x (map cp_edge (renumbered num i cs)) -> exists c m, In c cs /\ num <= m /\ x = seq m (length (cp_edge c))).
  { induction cs as [|c cs IH]; intros num i x H; cbn in H; [destruct H|]. destruct H as [<-|H].
    - exists c, num. cbn; auto.
    - apply IH in H as (c' & m & A & B & C). exists c', m. split; [cbn; auto|]. split; [lia|auto]. }
  induction cs as [|c cs IH]; intros num i S; cbn [renumbered map cp_edge]; [constructor|].
  cbn [map] in S. inversion S as [|? ? S1 F]; subst. constructor; auto. apply Forall_forall. intros x Hx.
  apply W in Hx as (c' & m & A & B & ->). rewrite Forall_forall in F.
  assert (Q : big_first (cp_edge c) (cp_edge c')) by (apply F, in_map; auto).
  unfold big_first in *. rewrite !seq_length. destruct Q as [Q|(Q & _)]; [left; auto|right]. split; auto.
  rewrite Q. apply seq_lex. lia.
Qed.

Definition comp_le (a b : component) : bool := not_gt (pd_component_cmp a b).
Lemma comp_sort_sorted : forall l, StronglySorted big_first (map cp_edge (isort comp_le l)).
Proof.
  intros l. assert (S : StronglySorted (lep comp_le) (isort comp_le l)).
  { apply isort_sorted.
    - intros x y H. apply component_cmp_spec. destruct (big_first_total (cp_edge x) (cp_edge y)) as [K|K]; auto.
      apply component_cmp_spec in K. unfold comp_le in H. congruence.
    - intros x y z. unfold comp_le. rewrite !component_cmp_spec. apply big_first_trans. }
  induction S as [|x l' S IH F]; cbn [map]; constructor; auto. apply Forall_forall. intros y Hy.
  apply in_map_iff in Hy as (z & <- & Hz). rewrite Forall_forall in F. apply component_cmp_spec. apply F; auto.
Qed.
Lemma concat_perm : forall A (l m : list (list A)), Permutation l m -> Permutation (concat l) (concat m).
Proof.
  intros A l m P. induction P; cbn; auto.
  - apply Permutation_app_head; auto.
  - rewrite !app_assoc. apply Permutation_app_tail, Permutation_app_comm.
  - etransitivity; eauto.
Qed.

(** * The whole function *)
From Verif Require Import Strands.

Lemma strand_cycle : forall d L, ends_recorded d -> goes_through d ->
  strand_partition d L <-> cycle_partition (succ d) (seq 0 (nedges d)) L.
Proof.
  intros d L R G.
  assert (B : forall c, (forall e, In e c -> e < nedges d) -> cyclically (continues d) c <->
     forall i x y, nth_error c i = Some x -> nth_error c ((i + 1) mod length c) = Some y -> y = succ d x).
  { intros c Hc. split; intros H i x y Hx Hy.
    - apply (proj1 (continues_succ d R G x y)). eapply H; eauto.
    - apply (proj2 (continues_succ d R G x y)). split; [apply Hc; eapply nth_error_In; eauto|eapply H; eauto]. }
  unfold strand_partition, cycle_partition. rewrite Forall_forall. split.
  - intros (H1 & H2 & H3). split; [|split; auto].
    + intros c Hc. destruct (H1 c Hc) as (A & C). split; auto. apply B; auto. intros e He. apply H3, in_concat. eauto.
    + intros x. rewrite H3, in_seq. lia.
  - intros (H1 & H2 & H3).
    assert (H3' : forall e, In e (concat L) <-> e < nedges d) by (intros e; rewrite H3, in_seq; lia).
    split; [|split; auto]. intros c Hc. destruct (H1 c Hc) as (A & C). split; auto. apply B; auto.
    intros e He. apply H3', in_concat. eauto.
Qed.
Lemma strand_length : forall d L M, ends_recorded d -> goes_through d ->
  strand_partition d L -> strand_partition d M -> length L = length M.
Proof.
  intros d L M R G HL HM. apply strand_cycle in HL; auto. apply strand_cycle in HM; auto.
  eapply partition_length; eauto using D_closed, D_inj, Nat.eq_dec.
Qed.

Lemma cyclically_map : forall A B (g : A -> B) (P : A -> A -> Prop) (Q : B -> B -> Prop) l,
  (forall a b, P a b -> Q (g a) (g b)) -> cyclically P l -> cyclically Q (map g l).
Proof.
  intros A B g P Q l H C i a b Ha Hb. rewrite map_length in Hb. rewrite nth_error_map in Ha, Hb.
  destruct (nth_error l i) as [x|] eqn:X; [|discriminate].
  destruct (nth_error l ((i + 1) mod length l)) as [y|] eqn:Y; [|discriminate].
  cbn in Ha, Hb. injection Ha as <-. injection Hb as <-. apply H. eapply C; eauto.
Qed.

Section Comps.
Context (d : pd) (Hn : 0 < ncross d) (Hm : ncross d <= p_maxv d).
Context (HC : pd_cross_ok d = Ok true) (HE : pd_edges_ok d = Ok true).

Lemma regenerate_comps_cases : exists L, strand_partition d L /\
  comps_loop (nedges d + 1) d 0 [] = (if length L <=? MAXCOMPONENTS d then Ok (d, L) else UB) /\
  (length L <= MAXCOMPONENTS d -> exists d' sigma rho pi, pd_regenerate_comps d = Ok d' /\
     relabelled d d' sigma rho pi /\ crossings_sorted d' /\ (two_ended d -> crossings_canonical d') /\
     p_maxv d' = p_maxv d /\ p_uid d' = p_uid d /\ p_hash d' = p_hash d /\ p_face d' = p_face d /\
     ncomps d' = length L /\ numbered_along d' /\ tags_in_order d') /\
  (MAXCOMPONENTS d < length L -> pd_regenerate_comps d = UB).
Proof.
  pose proof (proj1 (edges_ok_spec d Hn) HE) as (R & G). pose proof R as (En & _).
  pose proof (proj1 (cross_ok_spec d Hn) HC) as (Hb & _ & _).
  destruct (comps_loop_ok d R G Hm (nedges d + 1) 0 []) as (L & CP & _ & K).
  { split; cbn; auto using NoDup_nil; intros x []. }
  { lia. } { cbn; auto. } { cbn; lia. }
  specialize (K ltac:(cbn; lia)). exists L. split; [apply strand_cycle; auto|]. split; auto.
  assert (Q : pd_regenerate_comps d =
    bind (if length L <=? MAXCOMPONENTS d then Ok (d, L) else UB) (fun r =>
      let d := fst r in
      let comps := isort comp_le (map (fun l => mkComp l 0%Z) (snd r)) in
      let old_num := concat (map cp_edge comps) in
      bind (Perm.scatter old_num 0 (repeat 0 (nedges d))) (fun new_num =>
      bind (map_ok (get (p_edge d)) old_num) (fun es =>
      bind (map_ok (rename_cross new_num) (p_cross d)) (fun cs =>
      pd_regenerate_crossings (with_comps (with_cross (with_edges d es) cs) (renumbered 0 0 comps))))))).
  { unfold pd_regenerate_comps. destruct (Nat.leb_spec (ncross d) (p_maxv d)); [|lia]. rewrite HC, HE. cbn [bind].
    rewrite K. reflexivity. }
  split; intros HL; rewrite Q.
  2:{ destruct (Nat.leb_spec (length L) (MAXCOMPONENTS d)); [lia|reflexivity]. }
  destruct (Nat.leb_spec (length L) (MAXCOMPONENTS d)); [|lia]. cbn [bind fst snd].
  set (comps := isort comp_le (map (fun l => mkComp l 0%Z) L)). set (old := concat (map cp_edge comps)).
  assert (PL : Permutation (map cp_edge comps) L).
  { unfold comps. etransitivity; [apply Permutation_map, isort_perm|]. rewrite map_map. cbn [cp_edge]. rewrite map_id. auto. }
  assert (Hp : Permutation old (seq 0 (nedges d))).
  { etransitivity; [apply concat_perm, PL|]. destruct CP as (_ & N & I). apply NoDup_Permutation; auto using seq_NoDup. }
  destruct (renum_ok d old Hp) as (num & E & Ln & K1 & K2). rewrite E. cbn [bind].
  rewrite (reorder_ok d old Hp), (rename_ok d Hb num Ln). cbn [bind].
  change (with_comps _ _) with (renamed d old num (renumbered 0 0 comps)).
  pose proof (renamed_relabels d R old Hp num (renumbered 0 0 comps) Ln K1 K2) as RL1.
  set (d1 := renamed d old num (renumbered 0 0 comps)) in *.
  pose proof (rl_ends_recorded _ _ _ _ _ RL1 R) as R1.
  destruct (regenerate_spec d1 (recorded_in_range d1 R1)) as (d' & cnum & E2 & Ed & _ & _ & _ & RL2 & S2).
  rewrite E2. exists d'. do 3 eexists. split; [reflexivity|]. pose proof (rl_trans _ _ _ _ _ _ _ _ _ R RL1 RL2) as RL.
  split; [exact RL|]. split; auto. split.
  { intros T. eapply regenerate_canonical; eauto. eapply rl_two_ended; eauto. }
  assert (Pc : p_comp d' = renumbered 0 0 comps) by (rewrite Ed; reflexivity).
  assert (Lc : length comps = length L) by (unfold comps; rewrite isort_length, map_length; auto).
  split; [rewrite Ed; reflexivity|]. split; [rewrite Ed; reflexivity|]. split; [rewrite Ed; reflexivity|].
  split; [rewrite Ed; reflexivity|]. split; [unfold ncomps; rewrite Pc, renumbered_length; auto|].
  assert (Ol : length old = nedges d) by (apply old_length; auto).
  assert (Bl : map cp_edge (renumbered 0 0 comps) = map (fun c => map (fun e => nth e num 0) (cp_edge c)) comps).
  { apply renumbered_block. fold old. rewrite Ol. apply nth_ext with (d := nth 0 num 0) (d' := 0).
    { rewrite map_length, seq_length. auto. }
    intros i Hi. rewrite map_length in Hi. rewrite (map_nth (fun e => nth e num 0)). rewrite seq_nth by lia. rewrite K1 by lia. auto. }
  split; [split; [|split]|].
  - rewrite Pc, renumbered_concat. fold old. rewrite Ol, <- (rl_nedges _ _ _ _ _ RL). reflexivity.
  - intros c Hc. rewrite Pc in Hc. apply (in_map cp_edge) in Hc. rewrite Bl in Hc. apply in_map_iff in Hc as (c0 & Ec & Hc0).
    rewrite <- Ec.
    assert (I0 : In (cp_edge c0) L) by (apply (Permutation_in _ PL), in_map; auto).
    assert (SP : strand_partition d L) by (apply strand_cycle; auto).
    destruct SP as (SP & _). destruct (SP _ I0) as (SP1 & SP2). split.
    + intros X. apply map_eq_nil in X. auto.
    + eapply cyclically_map; [|exact SP2]. intros a b X. apply (rl_continues _ _ _ _ _ RL R a b X).
  - unfold comps_sorted. rewrite Pc. apply renumbered_sorted, comp_sort_sorted.
  - intros i c Hc. rewrite Pc in Hc. apply renumbered_tag in Hc. exact Hc.
Qed.
End Comps.

(** * Diagrams that are left alone *)
Lemma block_is_cyc : forall A (f : A -> A) x b, cyclic_block f (x :: b) -> NoDup (x :: b) ->
  period f (length (x :: b)) x /\ cyc f (length (x :: b)) x = x :: b.
Proof.
  intros A f x b (_ & C) N. destruct (cyclic_list f (x :: b) N C x) as (P & _); [cbn; auto|]. split; auto.
  set (l := x :: b) in *.
  assert (K : forall i, i < length l -> nth_error l i = Some (iter i f x)).
  { induction i as [|i IH]; intros Hi; [reflexivity|]. specialize (IH ltac:(lia)).
    destruct (nth_error l (S i)) as [y|] eqn:Y; [|apply nth_error_None in Y; lia].
    f_equal. cbn [iter]. apply (C i); auto. rewrite Nat.mod_small by lia. rewrite Nat.add_1_r. auto. }
  apply nth_error_ext. intros i. destruct (lt_dec i (length l)) as [H|H].
  - rewrite cyc_nth, K by auto. auto.
  - rewrite !(proj2 (nth_error_None _ _)) by (rewrite ?cyc_length; lia). auto.
Qed.

Lemma seq_split_app : forall a b n, a ++ b = seq 0 n -> a = seq 0 (length a) /\ b = seq (length a) (n - length a) /\ length a <= n.
Proof.
  intros a b n H. assert (L : length a + length b = n) by (rewrite <- app_length, H; apply seq_length).
  replace n with (length a + (n - length a)) in H by lia. rewrite seq_app in H.
  apply app_inj_len in H as (H1 & H2); [|rewrite seq_length; auto]. split; auto. split; auto. lia.
Qed.

Section Fixed.
Context (d : pd) (R : ends_recorded d) (G : goes_through d) (Hm : ncross d <= p_maxv d).
Context (NA : numbered_along d).

Lemma comps_loop_fixed : forall rest done fuel, done ++ rest = map cp_edge (p_comp d) -> rest <> [] ->
  length rest <= fuel -> ncomps d <= MAXCOMPONENTS d ->
  comps_loop fuel d (length (concat done)) done = Ok (d, done ++ rest).
Proof.
  destruct NA as (N1 & N2 & _).
  induction rest as [|c rest IH]; intros done fuel HD NE Hf HM; [congruence|].
  assert (Hc : In c (map cp_edge (p_comp d))) by (rewrite <- HD; apply in_app_iff; cbn; auto).
  apply in_map_iff in Hc as (c0 & <- & Hc0). destruct (N2 c0 Hc0) as (B1 & B2). set (c := cp_edge c0) in *.
  assert (Q : concat (done ++ [c]) ++ concat rest = seq 0 (nedges d)).
  { rewrite <- N1, <- HD. rewrite !concat_app. cbn [concat]. rewrite app_nil_r, app_assoc. auto. }
  assert (Qc : concat (done ++ [c]) = concat done ++ c) by (rewrite concat_app; cbn; rewrite app_nil_r; auto).
  apply seq_split_app in Q as (Q1 & _ & Q3). pose proof Q1 as Q2. rewrite Qc in Q2.
  apply seq_split_app in Q2 as (_ & Q2 & _). rewrite app_length in Q2.
  replace (length (concat done) + length c - length (concat done)) with (length c) in Q2 by lia.
  set (m := length (concat done)) in *. rewrite Qc, app_length in Q3. fold m in Q3.
  destruct c as [|x c'] eqn:Ec; [congruence|]. assert (x = m) by (cbn in Q2; congruence). subst x.
  rewrite <- Ec in *. assert (Lc : 0 < length c) by (rewrite Ec; cbn; lia).
  assert (Pk : period (succ d) (length c) m /\ cyc (succ d) (length c) m = c).
  { rewrite Ec. apply block_is_cyc.
    - rewrite <- Ec. split; [congruence|]. intros i x y Hx Hy. apply (proj1 (continues_succ d R G x y)). eapply B2; eauto.
    - rewrite <- Ec, Q2. apply seq_NoDup. }
  destruct Pk as (Pk & Ck). destruct fuel as [|f]; [cbn in Hf; lia|].
  rewrite (comps_step d R G Hm f m done (length c)); [|lia|auto]. rewrite Ck.
  assert (LL : length done + S (length rest) = ncomps d).
  { unfold ncomps. rewrite <- (map_length cp_edge), <- HD, app_length. reflexivity. }
  destruct (Nat.ltb_spec (MAXCOMPONENTS d) (length done)); [lia|].
  destruct (Nat.eqb_spec (length done) (MAXCOMPONENTS d)); [lia|].
  pose proof (find_unassigned_spec d Hm (concat (done ++ [c]))) as U.
  assert (IS : forall x, In x (concat (done ++ [c])) <-> x < length (concat (done ++ [c]))).
  { intros x. rewrite Q1 at 1. rewrite in_seq. lia. }
  assert (HD' : (done ++ [c]) ++ rest = map cp_edge (p_comp d)) by (rewrite <- HD, <- app_assoc; reflexivity).
  destruct (find_unassigned_edge d (concat (done ++ [c]))) as [e|].
  - destruct U as (U1 & U2 & U3). rewrite IS in U2.
    assert (e = length (concat (done ++ [c]))).
    { destruct (le_lt_dec e (length (concat (done ++ [c])))) as [X|X]; [lia|]. apply U3 in X. apply IS in X. lia. }
    subst e. rewrite IH; auto.
    + rewrite <- app_assoc. reflexivity.
    + intros ->. rewrite <- HD', app_nil_r in N1. rewrite N1 in U1. rewrite seq_length in U1. lia.
    + cbn in Hf. lia.
  - destruct rest as [|c2 rest].
    + rewrite app_nil_r in HD'. reflexivity.
    + exfalso. assert (Hc2 : In c2 (map cp_edge (p_comp d))) by (rewrite <- HD'; apply in_app_iff; cbn; auto).
      apply in_map_iff in Hc2 as (c20 & <- & Hc20). destruct (N2 c20 Hc20) as (B21 & _).
      rewrite <- HD' in N1. rewrite concat_app in N1. apply (f_equal (@length _)) in N1.
      rewrite app_length, seq_length in N1. cbn [concat] in N1. rewrite app_length in N1.
      assert (0 < length (cp_edge c20)) by (destruct (cp_edge c20); [congruence|cbn; lia]).
      specialize (U (length (concat (done ++ [c]))) ltac:(lia)). apply IS in U. lia.
Qed.
End Fixed.

Lemma renumbered_same : forall cs num i, concat (map cp_edge cs) = seq num (length (concat (map cp_edge cs))) ->
  (forall j c, nth_error cs j = Some c -> cp_tag c = comp_tag (i + j)) ->
  renumbered num i (map (fun l => mkComp l 0%Z) (map cp_edge cs)) = cs.
Proof.
  induction cs as [|c cs IH]; intros num i H T; auto. cbn [map concat] in H. rewrite app_length, seq_app in H.
  apply app_inj_len in H as (H1 & H2); [|rewrite seq_length; auto]. cbn [map renumbered cp_edge]. f_equal.
  - specialize (T 0 c eq_refl). rewrite Nat.add_0_r in T. rewrite <- H1, <- T. destruct c; reflexivity.
  - apply IH; auto. intros j c' Hj. rewrite (T (S j) c' Hj). f_equal. lia.
Qed.

Lemma regenerate_comps_fixed : forall d, 0 < ncross d -> ncross d <= p_maxv d -> ncomps d <= MAXCOMPONENTS d ->
  pd_cross_ok d = Ok true -> pd_edges_ok d = Ok true ->
  numbered_along d -> tags_in_order d -> crossings_canonical d -> pd_regenerate_comps d = Ok d.
Proof.
  intros d Hn Hm HM HC HE NA T C. pose proof (proj1 (edges_ok_spec d Hn) HE) as (R & G). pose proof R as (En & _).
  pose proof (proj1 (cross_ok_spec d Hn) HC) as (Hb & _ & _). pose proof NA as (N1 & N2 & N3).
  unfold pd_regenerate_comps. destruct (Nat.leb_spec (ncross d) (p_maxv d)); [|lia]. rewrite HC, HE. cbn [bind].
  assert (NE : map cp_edge (p_comp d) <> []).
  { intros X. rewrite X in N1. cbn in N1. apply (f_equal (@length _)) in N1. rewrite seq_length in N1. cbn in N1. lia. }
  assert (LN : length (map cp_edge (p_comp d)) <= nedges d).
  { rewrite <- (seq_length (nedges d) 0), <- N1. assert (K : forall c, In c (map cp_edge (p_comp d)) -> c <> []).
    { intros c Hc. apply in_map_iff in Hc as (x & <- & Hx). apply N2; auto. }
    clear - K. induction (map cp_edge (p_comp d)) as [|c l IH]; auto. cbn [concat length]. rewrite app_length.
    assert (c <> []) by (apply K; cbn; auto). assert (length l <= length (concat l)) by (apply IH; intros; apply K; cbn; auto).
    destruct c; [congruence|cbn; lia]. }
  pose proof (comps_loop_fixed d R G Hm NA (map cp_edge (p_comp d)) [] (nedges d + 1) eq_refl NE ltac:(lia) HM) as CL.
  cbn [concat length app] in CL. rewrite CL.
  cbn [bind fst snd app]. change (fun a b : component => not_gt (pd_component_cmp a b)) with comp_le.
  assert (I : isort comp_le (map (fun l => mkComp l 0%Z) (map cp_edge (p_comp d))) = map (fun l => mkComp l 0%Z) (map cp_edge (p_comp d))).
  { apply isort_id. unfold comps_sorted in N3. clear - N3. induction N3 as [|c l S IH F]; cbn [map]; constructor; auto.
    apply Forall_forall. intros x Hx. apply in_map_iff in Hx as (y & <- & Hy). rewrite Forall_forall in F.
    unfold lep, comp_le. apply component_cmp_spec. apply F; auto. }
  rewrite I. rewrite (map_map (fun l => mkComp l 0%Z) cp_edge). cbn [cp_edge]. rewrite map_id, N1.
  pose proof (Permutation_refl (seq 0 (nedges d))) as Hp.
  destruct (renum_ok d _ Hp) as (num & E & Ln & K1 & K2). rewrite E. cbn [bind].
  rewrite (reorder_ok d _ Hp), (rename_ok d Hb num Ln). cbn [bind]. unfold nedges at 1. rewrite map_nth_seq.
  assert (Kn : forall e, e < nedges d -> nth e num 0 = e).
  { intros e He. specialize (K1 e He). rewrite seq_nth in K1 by auto. auto. }
  assert (Rc : map (rename1 num) (p_cross d) = p_cross d).
  { rewrite <- (map_id (p_cross d)) at 2. apply map_ext_in. intros x Hx. apply In_nth_error in Hx as (c & Hc).
    assert (K : forall p, p < 4 -> cedge x p < nedges d) by (intros p Hq; apply (Hb c p); split; eauto).
    unfold rename1. rewrite !Kn; [destruct x; reflexivity|apply (K 3)|apply (K 2)|apply (K 1)|apply (K 0)]; lia. }
  rewrite Rc, renumbered_same; [|rewrite N1, seq_length; auto|exact T].
  replace (with_comps (with_cross (with_edges d (p_edge d)) (p_cross d)) (p_comp d)) with d by (destruct d; reflexivity).
  apply regenerate_canonical_fixed; auto. apply recorded_in_range; auto.
Qed.
