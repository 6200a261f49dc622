(** Lemmas about pd_reorient_component and pd_renumber_component. *)
From Coq Require Import List ZArith Lia Bool Arith Permutation Sorted.
From Verif Require Import Base Iterators Sorting Orbits Cycles CycleMatch Pd PdSpec PdProofs Relabel RelabelProofs RelabelSym
  Strands SlotCount PdCross PdCrossProofs PdComps PdCompsProofs PdFaces PdFacesProofs PdHash HashSpec HashProofs HashIso
  Perm PermProofs RegenSpec RegenProofs Thm_Pd Thm_Perm Thm_Cross Thm_Comps Thm_Faces OverUnder OverUnderSpec OverUnderProofs LinkProofs
  PdIso IsoSpec IsoOpsProofs PdOps Carry CarryProofs ApplyProofs.
Import ListNotations.
Open Scope nat_scope.

(** ** The edges of a component are consecutive numbers *)
Lemma blocks_seq : forall L a k l, concat L = seq a k -> In l L -> exists f, l = seq f (length l) /\ a <= f /\ f + length l <= a + k.
Proof.
  induction L as [|x L IH]; intros a k l E H; [destruct H|]. cbn [concat] in E.
  assert (Lk : length x <= k). { assert (X := f_equal (@length nat) E). rewrite app_length, seq_length in X. lia. }
  replace k with (length x + (k - length x)) in E by lia. rewrite seq_app in E.
  apply app_inj_len in E as (E1 & E2); [|rewrite seq_length; auto].
  destruct H as [<-|H].
  - exists a. split; auto. lia.
  - destruct (IH _ _ _ E2 H) as (f & A & B & C). exists f. split; auto. lia.
Qed.

(** ** Moving the numbers of one block *)
Definition inb (f k x : nat) : bool := (f <=? x) && (x <? f + k).
Lemma inb_spec : forall f k x, inb f k x = true <-> f <= x < f + k.
Proof. intros. unfold inb. rewrite andb_true_iff, Nat.leb_le, Nat.ltb_lt. tauto. Qed.
Definition moved_no (f k : nat) (phi : nat -> nat) (x : nat) : nat := if inb f k x then f + phi (x - f) else x.
Definition block_map (n f k : nat) (phi : nat -> nat) (o : orient) : list nat * list orient :=
  (map (moved_no f k phi) (seq 0 n), map (fun x => if inb f k x then o else Pos) (seq 0 n)).

Lemma upd_mapseq : forall A (g : nat -> A) n i v, i < n ->
  upd i v (map g (seq 0 n)) = map (fun x => if x =? i then v else g x) (seq 0 n).
Proof.
  intros A g n i v Hi. apply list_ext. intros j. rewrite nth_error_upd, map_length, seq_length, !nth_error_map.
  destruct (Nat.ltb_spec i n); [|lia]. destruct (Nat.eqb_spec i j) as [->|N].
  - rewrite nth_error_nth' with (d := 0) by (rewrite seq_length; auto). rewrite seq_nth by auto. cbn. rewrite Nat.eqb_refl. auto.
  - destruct (lt_dec j n) as [L|L].
    + rewrite nth_error_nth' with (d := 0) by (rewrite seq_length; auto). rewrite seq_nth by auto. cbn.
      destruct (Nat.eqb_spec j i); [congruence|auto].
    + rewrite (proj2 (nth_error_None (seq 0 n) j)) by (rewrite seq_length; lia). auto.
Qed.
Lemma block_fold : forall (step : list nat * list orient -> nat -> res (list nat * list orient)) n f k phi o,
  f + k <= n ->
  (forall e m os, e < k -> length m = n -> length os = n -> step (m, os) e = Ok (upd (f + e) (f + phi e) m, upd (f + e) o os)) ->
  forall j, j <= k -> fold_ok step (seq 0 j) (seq 0 n, repeat Pos n) = Ok (block_map n f j phi o).
Proof.
  intros step n f k phi o Hk Hs. induction j as [|j IH]; intros Hj.
  - cbn [seq fold_ok]. f_equal. unfold block_map. f_equal.
    + symmetry. rewrite <- (map_id (seq 0 n)) at 2. apply map_ext. intros x. unfold moved_no.
      destruct (inb f 0 x) eqn:B; auto. apply inb_spec in B. lia.
    + apply list_ext. intros i. rewrite nth_error_map. destruct (lt_dec i n) as [L|L].
      * rewrite (nth_error_nth' _ 0) by (rewrite seq_length; auto). rewrite (nth_error_nth' (repeat Pos n) Pos) by (rewrite repeat_length; auto).
        rewrite seq_nth, nth_repeat by auto. cbn [option_map]. destruct (inb f 0 (0 + i)) eqn:B; auto. apply inb_spec in B. lia.
      * rewrite (proj2 (nth_error_None (seq 0 n) i)) by (rewrite seq_length; lia).
        rewrite (proj2 (nth_error_None (repeat Pos n) i)) by (rewrite repeat_length; lia). auto.
  - rewrite seq_S, fold_ok_app, IH by lia. cbn [bind plus fold_ok]. unfold block_map at 1.
    rewrite Hs by (rewrite ?map_length, ?seq_length; lia). cbn [bind]. f_equal. unfold block_map.
    rewrite !upd_mapseq by lia. f_equal; apply map_ext; intros x.
    + unfold moved_no. destruct (Nat.eqb_spec x (f + j)) as [->|N].
      * rewrite (proj2 (inb_spec f (S j) (f + j))) by lia. f_equal. f_equal. lia.
      * replace (inb f (S j) x) with (inb f j x); auto. apply eq_true_iff_eq. rewrite !inb_spec. lia.
    + destruct (Nat.eqb_spec x (f + j)) as [->|N].
      * rewrite (proj2 (inb_spec f (S j) (f + j))) by lia. auto.
      * replace (inb f (S j) x) with (inb f j x); auto. apply eq_true_iff_eq. rewrite !inb_spec. lia.
Qed.
Lemma block_perm : forall n f k phi, f + k <= n -> bij_on k phi -> bij_on n (moved_no f k phi).
Proof.
  intros n f k phi H (B1 & B2). unfold moved_no. split.
  - intros i Hi. destruct (inb f k i) eqn:E; auto. apply inb_spec in E. specialize (B1 (i - f) ltac:(lia)). lia.
  - intros i j Hi Hj. destruct (inb f k i) eqn:E, (inb f k j) eqn:E'; intros Q; auto.
    + apply inb_spec in E, E'. specialize (B2 (i - f) (j - f) ltac:(lia) ltac:(lia) ltac:(lia)). lia.
    + apply inb_spec in E. specialize (B1 (i - f) ltac:(lia)). assert (inb f k j = true) by (apply inb_spec; lia). congruence.
    + apply inb_spec in E'. specialize (B1 (j - f) ltac:(lia)). assert (inb f k i = true) by (apply inb_spec; lia). congruence.
Qed.
Lemma block_good : forall n f k phi o i, f + k <= n -> bij_on k phi -> sign_like o ->
  let m := mkEM (mkPerm (fst (block_map n f k phi o)) i) (snd (block_map n f k phi o)) in
  good_edgemap n m /\ (forall e, e < n -> source m e = moved_no f k phi e) /\
  (forall e, e < n -> turns m e = inb f k e && orient_eqb o Neg).
Proof.
  intros n f k phi o i H B O m. split; [split; [|split; [|split]]|split].
  - unfold is_perm, pn, m. cbn [em_perm pmap block_map fst]. rewrite map_length, seq_length.
    symmetry. apply bij_perm. apply block_perm; auto.
  - unfold pn, m. cbn. rewrite map_length, seq_length. auto.
  - unfold m. cbn. rewrite map_length, seq_length. auto.
  - unfold m. cbn [em_or block_map snd]. apply Forall_forall. intros x Hx. apply in_map_iff in Hx as (y & <- & _).
    destruct (inb f k y); auto. left; auto.
  - intros e He. unfold source, m. cbn [em_perm pmap block_map fst]. apply nth_mapseq; auto.
  - intros e He. unfold turns, m. cbn [em_or block_map snd]. rewrite nth_mapseq by auto. destruct (inb f k e); auto.
Qed.

Section Comp.
Context (d : pd) (R : ends_recorded d) (Th : goes_through d) (T : two_ended d).
Context (NA : numbered_along d).
Context (cmp : nat) (C : component) (HC : nth_error (p_comp d) cmp = Some C) (f k : nat) (EC : cp_edge C = seq f k).
Context (Hk : 0 < k) (Hf : f + k <= nedges d).

Lemma strands_part : strand_partition d (map cp_edge (p_comp d)).
Proof. apply numbered_strands; auto. Qed.
Lemma on_block : forall e, on_comp d e cmp <-> inb f k e = true.
Proof.
  intros e. rewrite inb_spec. split.
  - intros (C' & HC' & I). rewrite HC in HC'. injection HC' as <-. rewrite EC in I. apply in_seq in I. lia.
  - intros I. exists C. split; auto. rewrite EC. apply in_seq. lia.
Qed.
Lemma block_next : forall i, i < k -> continues d (f + i) (f + (i + 1) mod k).
Proof.
  intros i Hi. destruct NA as (_ & N & _). destruct (N C (nth_error_In _ _ HC)) as (_ & CY).
  assert (Hm : (i + 1) mod k < k) by (apply Nat.mod_upper_bound; lia).
  apply (CY i); rewrite EC, ?seq_length; rewrite nth_error_nth' with (d := 0) by (rewrite seq_length; auto); rewrite seq_nth by auto; auto.
Qed.
Lemma block_next_only : forall i b, i < k -> continues d (f + i) b -> b = f + (i + 1) mod k.
Proof.
  intros i b Hi Cb. pose proof (block_next i Hi) as C1. apply continues_succ in Cb as (_ & ->); auto.
  apply continues_succ in C1 as (_ & ->); auto.
Qed.

Lemma block_follows : forall phi o m, bij_on k phi -> sign_like o ->
  (forall e, e < nedges d -> source m e = moved_no f k phi e) ->
  (forall e, e < nedges d -> turns m e = inb f k e && orient_eqb o Neg) ->
  (forall i, i < k -> if orient_eqb o Neg then (phi ((i + 1) mod k) + 1) mod k = phi i else (phi i + 1) mod k = phi ((i + 1) mod k)) ->
  follows_strands d m.
Proof.
  intros phi o m (B1 & _) O S W H a b Cab. pose proof Cab as (A & B & HA & HB & _).
  pose proof (edge_at_lt _ _ _ HA) as La. pose proof (edge_at_lt _ _ _ HB) as Lb.
  rewrite !W, !S by auto. pose proof (on_comp_continues d R Th strands_part a b cmp Cab) as K. rewrite !on_block in K.
  unfold moved_no. destruct (inb f k a) eqn:Ia.
  - pose proof (proj1 K eq_refl) as Ib. rewrite Ib. split; auto. cbn [andb]. apply inb_spec in Ia, Ib.
    replace a with (f + (a - f)) in Cab by lia. apply block_next_only in Cab; [|lia].
    assert (Eb : b - f = (a - f + 1) mod k) by lia. rewrite Eb. specialize (H (a - f) ltac:(lia)).
    assert (Hm : (a - f + 1) mod k < k) by (apply Nat.mod_upper_bound; lia).
    destruct (orient_eqb o Neg).
    + rewrite <- H. apply block_next. auto.
    + rewrite <- H. apply block_next. apply B1. lia.
  - destruct (inb f k b); [specialize (proj2 K eq_refl); discriminate|]. split; auto.
Qed.
End Comp.

(** ** The signs *)
Definition heads (d : pd) (c : nat) (l : list nat) : nat :=
  length (filter (fun e => e_head (nth e (p_edge d) (mkEdge 0 0 0 0)) =? c) l).
Definition flip_if (b : bool) (x : crossing) : crossing := if b then set_sign x (opp (csign x)) else x.
Lemma flip_opp : forall o, flip_sign o = opp o.
Proof. intros []; reflexivity. Qed.
Lemma flips_ok : forall d l, ends_recorded d -> (forall e, In e l -> e < nedges d) ->
  fold_ok (flip_head d) l (p_cross d) = Ok (imap (fun c x => flip_if (Nat.odd (heads d c l)) x) 0 (p_cross d)).
Proof.
  intros d l R. induction l as [|e l IH] using rev_ind; intros H.
  - cbn [fold_ok]. f_equal. apply list_ext. intros i. rewrite nth_error_imap. cbn. destruct (nth_error _ i); reflexivity.
  - rewrite fold_ok_app, IH by (intros; apply H; apply in_app_iff; auto). cbn [bind fold_ok].
    assert (He : e < nedges d) by (apply H; apply in_app_iff; cbn; auto).
    destruct (edge_at_ex d e He) as (E & HE). pose proof (proj2 R e E HE) as ((_ & x & Hx & _) & _).
    unfold flip_head. replace (get (p_edge d) e) with (Ok E) by (symmetry; apply get_ok; exact HE). cbn [bind].
    set (cs := imap _ 0 (p_cross d)). assert (Hcs : nth_error cs (e_head E) = Some (flip_if (Nat.odd (heads d (e_head E) l)) x)).
    { unfold cs. rewrite nth_error_imap, Hx. reflexivity. }
    replace (get cs (e_head E)) with (Ok (flip_if (Nat.odd (heads d (e_head E) l)) x)) by (symmetry; apply get_ok; auto).
    cbn [bind]. f_equal. apply list_ext. intros i. rewrite nth_error_upd. rewrite nth_error_imap. cbn [plus].
    assert (N : heads d i (l ++ [e]) = heads d i l + if e_head E =? i then 1 else 0).
    { unfold heads. rewrite filter_app, app_length. f_equal. cbn [filter]. rewrite (nth_error_nth _ _ _ HE). destruct (_ =? _); auto. }
    rewrite N. clear N. destruct (Nat.eqb_spec (e_head E) i) as [Ei|Ni].
    + subst i. assert (Lc : e_head E < length cs) by (apply nth_error_Some; congruence).
      rewrite (proj2 (Nat.ltb_lt _ _) Lc), Hx. cbn [option_map]. f_equal. rewrite flip_opp.
      rewrite Nat.add_1_r, Nat.odd_succ, <- Nat.negb_odd. destruct (Nat.odd _); cbn [negb flip_if]; destruct x as [? ? ? ? []]; reflexivity.
    + unfold cs. rewrite nth_error_imap, Nat.add_0_r. reflexivity.
Qed.

(** what the parity of the number of passages says *)
Section Signs.
Context (d : pd) (R : ends_recorded d) (Th : goes_through d) (T : two_ended d).
Context (P : strand_partition d (map cp_edge (p_comp d))).
Lemma two_arrivals : forall c, c < ncross d -> exists e p f q, arrives d c p e /\ arrives d c q f /\ p <> q /\
  (forall r g, arrives d c r g -> r = p /\ g = e \/ r = q /\ g = f) /\
  (forall r x, slot d c r x -> forall i, on_comp d x i -> on_comp d e i \/ on_comp d f i).
Proof.
  intros c Hc.
  assert (A : exists p e, arrives d c p e /\ p < 4).
  { destruct (either d R T c 0 Hc ltac:(lia)) as (e & _ & [A|D]); [exists 0, e; split; [auto|lia]|].
    destruct (departs_across d R Th _ _ _ D) as (f & A & _). cbn in A. exists 2, f. auto. }
  destruct A as (p & e & Ae & Hp).
  destruct (either d R T c (nxt p) Hc (mod4_lt _)) as (x & Sx & _).
  destruct (crossing_strand d R Th T P c p x Hc Hp Sx (ex_intro _ e Ae)) as (f & q & Af & Nq & Oi & U).
  exists e, p, f, q. split; auto. split; auto. split; auto. split.
  - intros r g Ar. destruct (Nat.eq_dec r p) as [->|N]; [left; split; auto; eapply arrives_fun; eauto|].
    destruct (U g r Ar N) as (-> & ->). auto.
  - intros r y Sy i Oy. pose proof (slot_lt _ _ _ _ Sy) as (_ & Hr).
    destruct (either d R T c r Hc Hr) as (z & Sz & K). assert (z = y) by (eapply slot_fun; eauto). subst z.
    assert (X : forall g s, arrives d c s g -> on_comp d g i -> on_comp d e i \/ on_comp d f i).
    { intros g s Ag Og. destruct (Nat.eq_dec s p) as [->|N].
      - left. replace e with g; auto. eapply arrives_fun; eauto.
      - right. destruct (U g s Ag N) as (<- & _). auto. }
    destruct K as [K|K]; [eapply X; eauto|]. destruct (departs_across d R Th _ _ _ K) as (g & Ag & Cg).
    apply (X g _ Ag). apply (on_comp_continues d R Th P g y i Cg). auto.
Qed.
Lemma odd_heads : forall cmp C c, nth_error (p_comp d) cmp = Some C -> c < ncross d ->
  (Nat.odd (heads d c (cp_edge C)) = true <->
   (exists p e, slot d c p e /\ on_comp d e cmp) /\ (exists p e, slot d c p e /\ ~ on_comp d e cmp)).
Proof.
  intros cmp C c HC Hc. destruct (two_arrivals c Hc) as (e & p & f & q & Ae & Af & Npq & U & V).
  pose proof (comp_nodup d P cmp C HC) as ND.
  assert (Nef : e <> f).
  { intros ->. destruct (arrives_place d _ _ _ _ _ Ae Af) as (_ & X). auto. }
  assert (OC : forall x, on_comp d x cmp <-> In x (cp_edge C)).
  { intros x. split; [intros (C' & HC' & I); congruence|intros I; exists C; auto]. }
  assert (Hl : forall x, In x (cp_edge C) -> x < nedges d) by (intros x Hx; apply (on_comp_lt d P x cmp); apply OC; auto).
  assert (F : forall x, In x (filter (fun e => e_head (nth e (p_edge d) (mkEdge 0 0 0 0)) =? c) (cp_edge C)) <->
    In x (cp_edge C) /\ (x = e \/ x = f)).
  { intros x. rewrite filter_In, Nat.eqb_eq. split; intros (I & K); split; auto.
    - pose proof (rec_arrives d x (Hl x I)) as A. unfold hd, rec in A. rewrite K in A. destruct (U _ _ A) as [(_ & ->)|(_ & ->)]; auto.
    - destruct K as [->| ->].
      + destruct (arrives_rec d _ _ _ Ae) as (_ & X & _). exact X.
      + destruct (arrives_rec d _ _ _ Af) as (_ & X & _). exact X. }
  set (l := filter _ _) in F. assert (NL : NoDup l) by (apply NoDup_filter; auto).
  assert (LE : heads d c (cp_edge C) = length l) by reflexivity. rewrite LE. clear LE.
  destruct (in_dec Nat.eq_dec e (cp_edge C)) as [Ie|Ie], (in_dec Nat.eq_dec f (cp_edge C)) as [If|If].
  - assert (PM : Permutation l [e; f]).
    { apply NoDup_Permutation; auto.
      - repeat constructor; cbn; intuition.
      - intros x. rewrite F. cbn. intuition (subst; auto). }
    rewrite (Permutation_length PM). cbn. split; [discriminate|]. intros (_ & r & x & Sx & N). exfalso. apply N.
    destruct (comp_pos_ok d P x (consistent_bound d c r x R T Sx)) as (i & _ & _ & Oi).
    assert (Oe : on_comp d e cmp) by (apply OC; auto). assert (Of : on_comp d f cmp) by (apply OC; auto).
    destruct (V r x Sx i Oi) as [K|K]; [replace cmp with i; auto; eapply on_comp_fun; eauto|replace cmp with i; auto; eapply on_comp_fun; eauto].
  - assert (PM : Permutation l [e]).
    { apply NoDup_Permutation; auto; [repeat constructor; cbn; intuition|]. intros x. rewrite F. cbn. intuition (subst; auto; tauto). }
    rewrite (Permutation_length PM). cbn. split; auto. intros _. split.
    + exists p, e. split; [apply arrives_slot; auto|apply OC; auto].
    + exists q, f. split; [apply arrives_slot; auto|]. rewrite OC. auto.
  - assert (PM : Permutation l [f]).
    { apply NoDup_Permutation; auto; [repeat constructor; cbn; intuition|]. intros x. rewrite F. cbn. intuition (subst; auto; tauto). }
    rewrite (Permutation_length PM). cbn. split; auto. intros _. split.
    + exists q, f. split; [apply arrives_slot; auto|apply OC; auto].
    + exists p, e. split; [apply arrives_slot; auto|]. rewrite OC. auto.
  - assert (PM : Permutation l []).
    { apply NoDup_Permutation; auto; [constructor|]. intros x. rewrite F. cbn. intuition (subst; auto; tauto). }
    rewrite (Permutation_length PM). cbn. split; [discriminate|]. intros ((r & x & Sx & Ox) & _). exfalso.
    destruct (V r x Sx cmp Ox) as [K|K]; apply OC in K; auto.
Qed.
End Signs.

Lemma rl_refl0 : forall d, ends_recorded d -> relabelled d d (fun c => c) (fun _ => 0) (fun e => e).
Proof.
  intros d R. assert (M : forall c p, p < 4 -> moved (fun c => c) (fun _ => 0) c p = (c, p)).
  { intros c p Hp. unfold moved. f_equal. destruct (small4 p Hp) as [->|[->|[->| ->]]]; reflexivity. }
  constructor; auto using bij_id.
  - intros c p e S. rewrite M by (apply S). exact S.
  - intros e E HE. exists E. split; auto. destruct R as (_ & R2). destruct (R2 e E HE) as (A & B).
    apply slot_lt in A as (_ & A). apply slot_lt in B as (_ & B). rewrite !M by auto. auto.
Qed.
Definition none (x : nat) : bool := false.
Lemma imap_id : forall A (g : nat -> A -> A) l, (forall i x, g i x = x) -> imap g 0 l = l.
Proof. intros A g l H. apply list_ext. intros i. rewrite nth_error_imap. cbn. destruct (nth_error l i); cbn; rewrite ?H; auto. Qed.

(** ** Both operations *)
Section Op.
Context (d : pd) (TD : tidy d) (cmp : nat) (C : component) (HC : nth_error (p_comp d) cmp = Some C).
Notation k := (length (cp_edge C)).
Notation n := (nedges d).

Lemma tidy_planar : planar d.
Proof.
  destruct (td_regular d TD). exists (p_face d). split; auto. split; auto.
  pose proof (td_faces d TD) as F. pose proof (td_some d TD).
  destruct (loop_cases d H) as [(fs & E & _ & _ & _ & _ & B & _)|(E & _)].
  - apply edges_ok_spec; auto.
  - auto.
  - rewrite F in E. apply ok_inj in E. rewrite E. exact B.
  - rewrite F in E. discriminate.
Qed.
Lemma tidy_darts : forall f a, In f (p_face d) -> In a f -> is_dart d a.
Proof. intros f a Hf Ha. apply (rg_faces d (td_regular d TD)). apply in_concat. eauto. Qed.
Lemma block_of : exists f, cp_edge C = seq f k /\ 0 < k /\ f + k <= n.
Proof.
  destruct (rg_comps d (td_regular d TD)) as (A & B & _).
  destruct (blocks_seq _ _ _ (cp_edge C) A) as (f & E & _ & L); [apply in_map, (nth_error_In _ _ HC)|].
  exists f. split; auto. destruct (B C (nth_error_In _ _ HC)) as (N & _). assert (0 < k) by (destruct (cp_edge C); [congruence|cbn; lia]). lia.
Qed.
Context (f : nat) (EC : cp_edge C = seq f k) (Hk : 0 < k) (Hf : f + k <= n).

(** one application of a map that moves the numbers of this component, after changing signs *)
Lemma op_ok : forall G phi o m d1,
  d1 = rev_pd d none G -> good_edgemap n m -> sign_like o ->
  (forall e, e < n -> source m e = moved_no f k phi e) ->
  (forall e, e < n -> turns m e = inb f k e && orient_eqb o Neg) ->
  bij_on k phi ->
  (forall i, i < k -> if orient_eqb o Neg then (phi ((i + 1) mod k) + 1) mod k = phi i else (phi i + 1) mod k = phi ((i + 1) mod k)) ->
  exists d' sigma rho, bind (pd_apply_edgemap d1 m) pd_regenerate_faces = Ok d' /\
  carried d d' sigma rho (inv_on n (moved_no f k phi)) (fun e => inb f k e && orient_eqb o Neg) G /\ tidy d' /\
  p_comp d' = p_comp d /\ p_maxv d' = p_maxv d /\ p_uid d' = p_uid d.
Proof.
  intros G phi o m d1 E1 GM O S W B H.
  destruct (td_regular d TD) as [R Th T CA NA TG FP NF LO FS].
  assert (KF : forall a b, continues d a b -> none a = none b) by auto.
  pose proof (rev_ends_recorded d none G R) as R1. pose proof (rev_two_ended d none G T) as T1.
  pose proof (rev_goes_through d none G R Th KF) as Th1. rewrite <- E1 in *.
  assert (N1 : nedges d1 = n) by (rewrite E1; apply rev_nedges).
  assert (X1 : ncross d1 = ncross d) by (rewrite E1; apply rev_ncross).
  assert (C1 : forall a b, continues d a b -> continues d1 a b).
  { intros a b Cab. rewrite E1. exact (rev_continues d none G R KF a b Cab). }
  assert (NA1 : numbered_along d1).
  { destruct NA as (A1 & A2 & A3). unfold numbered_along, comps_sorted. rewrite N1. replace (p_comp d1) with (p_comp d) by (rewrite E1; reflexivity).
    split; auto. split; auto. intros c Hc. destruct (A2 c Hc) as (B1 & B2). split; auto. intros i a b Ha Hb. apply C1. eapply B2; eauto. }
  assert (P1 : planar d1) by (rewrite E1; apply (rev_planar d none G R T tidy_planar)).
  assert (HC1 : nth_error (p_comp d1) cmp = Some C) by (rewrite E1; exact HC).
  assert (F1 : follows_strands d1 m).
  { apply (block_follows d1 R1 Th1 NA1 cmp C HC1 f k EC Hk ltac:(lia) phi o m); auto; rewrite N1; auto. }
  destruct (apply_ok d1 R1 Th1 T1 (numbered_strands _ NA1) m ltac:(rewrite N1; auto) F1) as (d2 & s & r & A & CR & TD2 & A2 & A3 & A4).
  - rewrite X1. apply (td_some d TD).
  - intros g a Hg Ha. rewrite E1 in Hg. change (In g (p_face d)) in Hg. destruct (tidy_darts g a Hg Ha) as (Da & Do). split; [rewrite N1; exact Da|exact Do].
  - rewrite X1. rewrite E1. apply (td_room d TD).
  - auto.
  - auto.
  - rewrite E1. exact TG.
  - exists d2, s, r. rewrite A. cbn [bind]. split; [apply (td_faces _ TD2)|].
    split; [|split; auto; rewrite A2, A3, A4, E1; auto].
    assert (CR0 : carried d d1 (fun c => c) (fun _ => 0) (fun e => e) none G).
    { apply carried_rev; auto. rewrite <- E1. apply rl_refl0; auto. }
    pose proof (carried_trans _ _ _ _ _ _ _ _ _ _ _ _ _ R CR0 CR) as CR2. cbv beta in CR2.
    assert (CR3 : carried d d2 s r (inv_on n (moved_no f k phi)) (fun e => inb f k e && orient_eqb o Neg) G).
    { assert (Q : forall e, e < n -> target d1 m e = inv_on n (moved_no f k phi) e).
      { intros e He. unfold target. rewrite N1.
        destruct (inv_spec n (moved_no f k phi) e (block_perm _ _ _ _ Hf B) He) as (I1 & I2).
        set (y := inv_on n (moved_no f k phi) e) in *. rewrite <- I2, <- (S y I1).
        apply inv_left; auto. rewrite <- N1. apply source_bij. rewrite N1. auto. }
      destruct CR2 as [Y1 Y2 Y3 Y4 Y5 Y6 Y7 Y8].
      assert (CR3 : carried d d2 s r (fun e => target d1 m e) (fun e => xorb (none e) (flips d1 m e)) (fun c => xorb (G c) (no_change c))).
      { assert (ZR : forall c, c < ncross d -> (0 + r c) mod 4 = r c).
        { intros c Hc. apply Nat.mod_small. apply (ca_rho _ _ _ _ _ _ _ CR). lia. }
        assert (ZM : forall c p, c < ncross d -> moved s (fun c => (0 + r c) mod 4) c p = moved s r c p).
        { intros c p Hc. unfold moved. rewrite ZR; auto. }
        constructor; auto.
        - intros c Hc. rewrite <- ZR; auto.
        - intros c p e Sl. pose proof (slot_lt _ _ _ _ Sl) as (Hc & _). rewrite <- ZM by auto. auto.
        - intros e E HE. destruct (Y8 e E HE) as (E' & HE' & Z1 & Z2). exists E'. split; auto.
          destruct R as (_ & R2). destruct (R2 e E HE) as (SA & SB). apply slot_lt in SA as (SA & _). apply slot_lt in SB as (SB & _).
          rewrite !ZM in Z1, Z2 by auto. auto. }
      apply (carried_ext d d2 s r _ _ _ _ _ _ R T CR3).
      - intros e He. split; [apply Q; auto|]. cbn [none xorb]. unfold flips. rewrite (Q e He).
        destruct (inv_spec n (moved_no f k phi) e (block_perm _ _ _ _ Hf B) He) as (I1 & I2).
        set (y := inv_on n (moved_no f k phi) e) in *. rewrite W by auto.
        assert (IE : inb f k y = inb f k e).
        { rewrite <- I2. unfold moved_no. destruct (inb f k y) eqn:Iy; auto. apply inb_spec in Iy. symmetry. apply inb_spec.
          pose proof (proj1 B (y - f) ltac:(lia)). lia. }
        rewrite IE. destruct (inb f k e && orient_eqb o Neg); reflexivity.
      - intros c Hc. unfold no_change. apply xorb_false_r. }
    exact CR3.
Qed.

(** reversing *)
Definition back (i : nat) : nat := (k - i) mod k.
Lemma back_bij : bij_on k back.
Proof.
  unfold back. split.
  - intros i Hi. apply Nat.mod_upper_bound. lia.
  - intros i j Hi Hj. destruct i as [|i], j as [|j]; auto.
    + rewrite Nat.sub_0_r, Nat.mod_same, Nat.mod_small by lia. lia.
    + rewrite Nat.sub_0_r, Nat.mod_same, Nat.mod_small by lia. lia.
    + rewrite !Nat.mod_small by lia. lia.
Qed.
Lemma back_back : forall i, i < k -> back (back i) = i.
Proof.
  intros i Hi. unfold back. destruct i as [|i].
  - rewrite Nat.sub_0_r, Nat.mod_same by lia. rewrite Nat.sub_0_r, Nat.mod_same by lia. auto.
  - rewrite (Nat.mod_small (k - S i)) by lia. rewrite Nat.mod_small by lia. lia.
Qed.
Lemma mod_succ_cases : forall i, i < k -> (i + 1) mod k = if i + 1 =? k then 0 else i + 1.
Proof.
  intros i Hi. destruct (Nat.eqb_spec (i + 1) k) as [->|N]; [apply Nat.mod_same; lia|apply Nat.mod_small; lia].
Qed.
Lemma back_next : forall i, i < k -> (back ((i + 1) mod k) + 1) mod k = back i.
Proof.
  intros i Hi. rewrite (mod_succ_cases i) by auto. unfold back. destruct (Nat.eqb_spec (i + 1) k) as [E|E].
  - rewrite Nat.sub_0_r, Nat.mod_same by lia. f_equal. lia.
  - rewrite (Nat.mod_small (k - (i + 1))) by lia. f_equal. lia.
Qed.
Definition mixed (c : nat) : bool := Nat.odd (heads d c (cp_edge C)).
Lemma block_get : forall i, i < k -> get (cp_edge C) i = Ok (f + i).
Proof. intros i Hi. rewrite get_nth with (d := 0) by auto. f_equal. rewrite EC. apply seq_nth. auto. Qed.
Lemma reversal_ok : forall d1, nedges d1 = n -> exists i, reversal_map d1 C =
  Ok (mkEM (mkPerm (fst (block_map n f k back Neg)) i) (snd (block_map n f k back Neg))) /\
  canonical (mkPerm (fst (block_map n f k back Neg)) i).
Proof.
  intros d1 N1. unfold reversal_map. rewrite N1. rewrite !block_get by lia. cbn [bind].
  replace (f + (k - 1) + 1 =? k + (f + 0)) with true by (symmetry; apply Nat.eqb_eq; lia). cbn [pd_new_edgemap pd_new_perm em_perm em_or pmap pc_idx].
  rewrite (block_fold _ n f k back Neg Hf) with (j := k); auto.
  - cbn [bind]. destruct (block_good n f k back Neg 0 Hf back_bij (or_intror eq_refl)) as ((PM & PN & _) & _).
    destruct (regen_ok _ 0 PM) as (i & E & CN & _).
    + unfold pn in PN. cbn [em_perm pmap] in PN. rewrite PN. lia.
    + rewrite E. cbn [bind]. exists i. auto.
  - intros e m os He Lm Lo. unfold set_edge, put. cbn [fst snd]. rewrite Lm, Lo.
    replace (f + 0 + e) with (f + e) by lia. destruct (Nat.ltb_spec (f + e) n); [|lia]. cbn [bind]. do 3 f_equal.
    unfold back. destruct (Nat.eqb_spec e 0) as [->|Ne].
    + rewrite Nat.sub_0_r, Nat.mod_same by lia. auto.
    + rewrite Nat.mod_small by lia. lia.
Qed.
Lemma em_ok : forall m, good_edgemap n m -> canonical (em_perm m) -> pd_edgemap_ok m = Ok true.
Proof.
  intros m (A & B & L & F) CN. unfold pd_edgemap_ok.
  assert (E : pd_perm_ok (em_perm m) = Ok true).
  { destruct (perm_ok_exact (em_perm m)) as (b & E & K); [lia| |].
    { intros L6. specialize (CN L6). rewrite <- all_perms_length. apply nth_error_Some. congruence. }
    rewrite E. f_equal. apply K. auto. }
  rewrite E. cbn [bind]. f_equal. apply forallb_forall. intros o Ho. rewrite Forall_forall in F. destruct (F o Ho) as [->| ->]; auto.
Qed.
Lemma reorient_ok : exists d' sigma rho, pd_reorient_component d cmp Neg = Ok d' /\
  carried d d' sigma rho (moved_no f k back) (inb f k) mixed /\ tidy d' /\
  p_comp d' = p_comp d /\ p_maxv d' = p_maxv d /\ p_uid d' = p_uid d.
Proof.
  unfold pd_reorient_component. replace (get (p_comp d) cmp) with (Ok C) by (symmetry; apply get_ok; auto). cbn [bind].
  pose proof (rg_recorded d (td_regular d TD)) as R. pose proof (rg_ends d (td_regular d TD)) as T.
  rewrite flips_ok; auto. 2:{ intros e He. rewrite EC in He. apply in_seq in He. lia. }
  cbn [bind]. set (d1 := with_cross d _).
  assert (E1 : d1 = rev_pd d none mixed).
  { unfold rev_pd. rewrite (imap_id _ (turned_edge none)) by reflexivity. reflexivity. }
  destruct (reversal_ok d1 ltac:(rewrite E1; apply rev_nedges)) as (i & EM & CN). rewrite EM. cbn [bind].
  destruct (block_good n f k back Neg i Hf back_bij (or_intror eq_refl)) as (GM & S & W).
  rewrite em_ok; auto. cbn [bind].
  destruct (op_ok mixed back Neg _ d1 E1 GM (or_intror eq_refl) S W back_bij back_next) as (d' & s & r & E & CR & K).
  exists d', s, r. split; [exact E|]. split; auto.
  apply (carried_ext d d' s r _ _ _ _ _ _ R T CR); auto.
  intros e He. split; [|apply andb_true_r].
  destruct (inv_spec n (moved_no f k back) e (block_perm _ _ _ _ Hf back_bij) He) as (I1 & I2).
  set (y := inv_on n (moved_no f k back) e) in *. rewrite <- I2. unfold moved_no. destruct (inb f k y) eqn:Iy.
  - apply inb_spec in Iy. pose proof (proj1 back_bij (y - f) ltac:(lia)).
    rewrite (proj2 (inb_spec f k (f + back (y - f)))) by lia. replace (f + back (y - f) - f) with (back (y - f)) by lia.
    rewrite back_back by lia. lia.
  - rewrite Iy. auto.
Qed.

(** renumbering *)
Definition shifted (t i : nat) : nat := (i + t) mod k.
Lemma shifted_bij : forall t, bij_on k (shifted t).
Proof.
  intros t. unfold shifted. split; [intros; apply Nat.mod_upper_bound; lia|]. intros i j Hi Hj E.
  rewrite (Nat.add_mod i), (Nat.add_mod j) in E by lia. rewrite !(Nat.mod_small i), !(Nat.mod_small j) in E by lia.
  pose proof (Nat.mod_upper_bound t k ltac:(lia)) as L. set (u := t mod k) in *. clearbody u.
  assert (Q : forall x, x < k -> (x + u) mod k = if x + u <? k then x + u else x + u - k).
  { intros x Hx. destruct (Nat.ltb_spec (x + u) k); [apply Nat.mod_small; auto|].
    replace (x + u) with (x + u - k + 1 * k) at 1 by lia. rewrite Nat.mod_add by lia. apply Nat.mod_small. lia. }
  rewrite !Q in E by auto. destruct (Nat.ltb_spec (i + u) k), (Nat.ltb_spec (j + u) k); lia.
Qed.
Lemma shifted_next : forall t i, i < k -> (shifted t i + 1) mod k = shifted t ((i + 1) mod k).
Proof. intros t i Hi. unfold shifted. rewrite !Nat.add_mod_idemp_l by lia. f_equal. lia. Qed.
Lemma shift_ok : forall ofs, (0 <= ofs)%Z -> (ofs + Z.of_nat k <= 2 ^ 32)%Z -> exists i, shift_map d C ofs =
  Ok (mkEM (mkPerm (fst (block_map n f k (shifted (Z.to_nat ofs)) Pos)) i) (snd (block_map n f k (shifted (Z.to_nat ofs)) Pos))) /\
  canonical (mkPerm (fst (block_map n f k (shifted (Z.to_nat ofs)) Pos)) i).
Proof.
  intros ofs H0 H32. unfold shift_map. cbn [pd_new_edgemap pd_new_perm em_perm em_or pmap pc_idx].
  rewrite (block_fold _ n f k (shifted (Z.to_nat ofs)) Pos Hf) with (j := k); auto.
  - cbn [bind]. destruct (block_good n f k (shifted (Z.to_nat ofs)) Pos 0 Hf (shifted_bij _) (or_introl eq_refl)) as ((PM & PN & _) & _).
    destruct (regen_ok _ 0 PM) as (i & E & CN & _).
    + unfold pn in PN. cbn [em_perm pmap] in PN. rewrite PN. lia.
    + rewrite E. cbn [bind]. exists i. auto.
  - intros e m os He Lm Lo. unfold shift_edge.
    assert (Q : Z.to_nat ((Z.of_nat e + ofs) mod 2 ^ 32 mod Z.of_nat k) = shifted (Z.to_nat ofs) e).
    { rewrite (Z.mod_small _ (2 ^ 32)) by lia. unfold shifted. rewrite <- (Z2Nat.id ofs) at 1 by auto.
      rewrite <- Nat2Z.inj_add, <- Nat2Z.inj_mod. apply Nat2Z.id. }
    rewrite Q. pose proof (proj1 (shifted_bij (Z.to_nat ofs)) e He) as Hs.
    rewrite !block_get by auto. cbn [bind].
    unfold put. cbn [fst snd]. rewrite Lm, Lo. destruct (Nat.ltb_spec (f + e) n); [|lia]. reflexivity.
Qed.
Lemma renumber_ok : forall ofs, (0 <= ofs)%Z -> (ofs + Z.of_nat k <= 2 ^ 32)%Z ->
  exists d' sigma rho, pd_renumber_component d cmp ofs = Ok d' /\
  carried d d' sigma rho (inv_on n (moved_no f k (shifted (Z.to_nat ofs)))) none none /\ tidy d' /\
  p_comp d' = p_comp d /\ p_maxv d' = p_maxv d /\ p_uid d' = p_uid d.
Proof.
  intros ofs H0 H32. unfold pd_renumber_component.
  pose proof (rg_recorded d (td_regular d TD)) as R. pose proof (rg_ends d (td_regular d TD)) as T.
  destruct (Z.eqb_spec ofs 0) as [->|N0].
  - exists d, (fun c => c), (fun _ => 0). split; auto. split; [|auto].
    apply (carried_ext d d _ _ _ _ _ _ _ _ R T (carried_refl d R)); auto. intros e He. split; auto.
    symmetry. rewrite <- (inv_left n (moved_no f k (shifted (Z.to_nat 0))) e (block_perm _ _ _ _ Hf (shifted_bij _)) He) at 2.
    f_equal. unfold moved_no. destruct (inb f k e) eqn:Ie; auto. apply inb_spec in Ie. unfold shifted. cbn [Z.to_nat].
    rewrite Nat.add_0_r, Nat.mod_small by lia. lia.
  - replace (get (p_comp d) cmp) with (Ok C) by (symmetry; apply get_ok; auto). cbn [bind].
    destruct (shift_ok ofs H0 H32) as (i & EM & CN). rewrite EM. cbn [bind].
    destruct (block_good n f k (shifted (Z.to_nat ofs)) Pos i Hf (shifted_bij _) (or_introl eq_refl)) as (GM & S & W).
    rewrite em_ok; auto. cbn [bind].
    assert (E1 : d = rev_pd d none none).
    { unfold rev_pd. rewrite (imap_id _ (turned_edge none)), (imap_id _ (turned_sign none)) by reflexivity. destruct d. reflexivity. }
    destruct (op_ok none (shifted (Z.to_nat ofs)) Pos _ d E1 GM (or_introl eq_refl) S W (shifted_bij _)) as (d' & s & r & E & CR & K).
    { intros j Hj. cbn [orient_eqb]. apply shifted_next; auto. }
    exists d', s, r. split; [exact E|]. split; auto.
    apply (carried_ext d d' s r _ _ _ _ _ _ R T CR); auto. intros e He. split; auto. apply andb_false_r.
Qed.
End Op.
