(** Connected planar diagrams: cycles bound. *)
From Coq Require Import List ZArith Lia Bool Arith Permutation Relations.
From Verif Require Import Base ListAux Iterators Orbits Pd PdSpec PdProofs PdFaces PdFacesProofs PdCross PdCompsProofs SlotCount Thm_Faces Planar.
From Verif Require Homology.
Import ListNotations.
Open Scope nat_scope.

(** * Sums modulo 2 over lists *)
Fixpoint xl {A} (l : list A) (f : A -> bool) : bool :=
  match l with [] => false | a :: l' => xorb (f a) (xl l' f) end.
Lemma xl_app : forall A (l m : list A) f, xl (l ++ m) f = xorb (xl l f) (xl m f).
Proof. induction l as [|a l IH]; intros m f; cbn [app xl]; [destruct (xl m f); auto|]. rewrite IH, xorb_assoc. auto. Qed.
Lemma xl_perm : forall A (l m : list A) f, Permutation l m -> xl l f = xl m f.
Proof.
  intros A l m f H. induction H as [|x l l' P IH|x y l|l l' l'' P1 IH1 P2 IH2]; cbn [xl].
  - auto.
  - rewrite IH. auto.
  - destruct (f x), (f y), (xl l f); auto.
  - congruence.
Qed.
Lemma xl_map : forall A B (g : A -> B) l f, xl (map g l) f = xl l (fun a => f (g a)).
Proof. induction l as [|a l IH]; intros f; cbn [map xl]; auto. rewrite IH. auto. Qed.
Lemma xl_ext : forall A (l : list A) f g, (forall a, In a l -> f a = g a) -> xl l f = xl l g.
Proof. induction l as [|a l IH]; intros f g H; cbn [xl]; auto. rewrite (H a), (IH f g); auto; cbn; auto. intros. apply H. cbn; auto. Qed.
Lemma xl_xor : forall A (l : list A) f g, xl l (fun a => xorb (f a) (g a)) = xorb (xl l f) (xl l g).
Proof.
  induction l as [|a l IH]; intros f g; cbn [xl]; auto. rewrite IH.
  destruct (f a), (g a), (xl l f), (xl l g); auto.
Qed.
Lemma xl_false : forall A (l : list A) f, (forall a, In a l -> f a = false) -> xl l f = false.
Proof. induction l as [|a l IH]; intros f H; cbn [xl]; auto. rewrite (H a), IH; cbn; auto. intros. apply H. cbn; auto. Qed.
Lemma xl_flat : forall A B (g : A -> list B) l f, xl (flat_map g l) f = xl l (fun a => xl (g a) f).
Proof. induction l as [|a l IH]; intros f; cbn [flat_map xl]; auto. rewrite xl_app, IH. auto. Qed.
Lemma xl_one : forall A (l : list A) f a, NoDup l -> In a l -> (forall b, In b l -> b <> a -> f b = false) -> xl l f = f a.
Proof.
  intros A l f a N I H. apply in_split in I as (l1 & l2 & ->).
  apply NoDup_remove in N as (N & Na). rewrite xl_app. cbn [xl].
  rewrite (xl_false _ l1), (xl_false _ l2).
  - destruct (f a); auto.
  - intros b Hb. apply H; [apply in_app_iff; cbn; auto|]. intros ->. apply Na, in_app_iff. auto.
  - intros b Hb. apply H; [apply in_app_iff; cbn; auto|]. intros ->. apply Na, in_app_iff. auto.
Qed.
Lemma xsum_xl : forall n f, Homology.xsum n f = xl (seq 0 n) f.
Proof.
  induction n as [|n IH]; intros f; auto. rewrite seq_S, xl_app. cbn [Homology.xsum Nat.add xl]. rewrite IH, xorb_false_r. auto.
Qed.

Section Diagram.
Context (d : pd) (R : ends_recorded d) (T : two_ended d).
Context (FP : face_partition d (p_face d)).

(** * Places and darts *)
Definition eslot (s : nat * nat) : nat := cedge (nth (fst s) (p_cross d) no_cross) (snd s).
Lemma eslot_slot : forall c p e, slot d c p e -> eslot (c, p) = e.
Proof. intros c p e (Hp & x & Hx & <-). unfold eslot. cbn [fst snd]. erewrite nth_error_nth; eauto. Qed.
Lemma eslot_dto : forall a, is_dart d a -> eslot (dto d a) = fst a.
Proof. intros a Ha. pose proof (dto_slot d a R Ha) as S. destruct (dto d a) as (c, p). apply eslot_slot. exact S. Qed.
Definition arr (c p : nat) : dart := match find (fun a => let s := dto d a in (fst s =? c) && (snd s =? p)) (darts d) with Some a => a | None => (0, Pos) end.
Lemma arr_spec : forall c p, c < ncross d -> p < 4 -> is_dart d (arr c p) /\ dto d (arr c p) = (c, p).
Proof.
  intros c p Hc Hp. unfold arr. destruct (find _ (darts d)) as [a|] eqn:E.
  - apply find_some in E as (I & E). cbv beta zeta in E. apply andb_true_iff in E as (E1 & E2). apply Nat.eqb_eq in E1, E2.
    split; [apply in_darts; auto|]. destruct (dto d a); cbn in *; congruence.
  - destruct (dto_surj d c p R T Hc Hp) as (a & Da & Ea). exfalso.
    pose proof (find_none _ _ E a (proj2 (in_darts d a) Da)) as K. cbv beta zeta in K. rewrite Ea in K. cbn in K. rewrite !Nat.eqb_refl in K. discriminate.
Qed.
Lemma arr_dto : forall a, is_dart d a -> arr (fst (dto d a)) (snd (dto d a)) = a.
Proof.
  intros a Ha. pose proof (dto_slot d a R Ha) as S. apply slot_lt in S as (Hc & Hp).
  destruct (arr_spec _ _ Hc Hp) as (D & E). apply (dto_inj d R T); auto. rewrite E. destruct (dto d a); auto.
Qed.
Lemma arr_slot : forall c p e, slot d c p e -> fst (arr c p) = e.
Proof.
  intros c p e S. pose proof (slot_lt _ _ _ _ S) as (Hc & Hp). destruct (arr_spec c p Hc Hp) as (D & E).
  rewrite <- (eslot_dto _ D), E. apply eslot_slot; auto.
Qed.

(** * The face of a dart *)
Definition fno (a : dart) : nat :=
  match find (fun i => existsb (dart_eqb a) (nth i (p_face d) [])) (seq 0 (nfaces d)) with Some i => i | None => 0 end.
Lemma along_unique : forall a i j F G, nth_error (p_face d) i = Some F -> nth_error (p_face d) j = Some G -> In a F -> In a G -> i = j.
Proof.
  destruct FP as (_ & N & _). revert N. generalize (p_face d). clear. induction l as [|H l IH]; intros N a i j F G Hi Hj Ia Ib; [destruct i; discriminate|].
  cbn in N. assert (N2 : NoDup (concat l)) by (clear -N; induction H; cbn in N; auto; inversion N; auto).
  assert (X : forall k K, nth_error l k = Some K -> In a K -> In a H -> False).
  { intros k K Hk IK IH'. apply nth_error_In in Hk. assert (In a (concat l)) by (apply in_concat; eauto).
    clear - N IH' H0. induction H as [|z H IHH]; [destruct IH'|]. cbn in N. inversion N; subst. destruct IH' as [->|]; auto. apply H3, in_app_iff; auto. }
  destruct i as [|i], j as [|j]; auto; cbn in Hi, Hj.
  - injection Hi as <-. exfalso. eauto.
  - injection Hj as <-. exfalso. eauto.
  - f_equal. eapply IH; eauto.
Qed.
Lemma fno_spec : forall a, is_dart d a -> exists F, nth_error (p_face d) (fno a) = Some F /\ In a F.
Proof.
  intros a Ha. destruct FP as (_ & _ & C). apply C in Ha. apply in_concat in Ha as (F & HF & Ia).
  apply In_nth_error in HF as (i & Hi). unfold fno. destruct (find _ _) as [j|] eqn:E.
  - apply find_some in E as (I & E). apply in_seq in I. apply existsb_dart in E. unfold nfaces in I.
    exists (nth j (p_face d) []). split; auto. apply nth_error_nth'. lia.
  - exfalso. assert (Hl : i < nfaces d) by (apply nth_error_Some; congruence).
    pose proof (find_none _ _ E i) as K. rewrite in_seq in K. cbv beta in K. erewrite nth_error_nth in K by eauto.
    assert (existsb (dart_eqb a) F = true) by (apply existsb_dart; auto). rewrite K in H; [discriminate|lia].
Qed.
Lemma fno_lt : forall a, is_dart d a -> fno a < nfaces d.
Proof. intros a Ha. destruct (fno_spec a Ha) as (F & HF & _). apply nth_error_Some. congruence. Qed.
Lemma fno_is : forall a i, face_along d i (fst a) (snd a) -> fno a = i.
Proof.
  intros (e, o) i (F & HF & I). cbn [fst snd] in *. assert (Ha : is_dart d (e, o)).
  { destruct FP as (_ & _ & C). apply C, in_concat. exists F. split; auto. eapply nth_error_In; eauto. }
  destruct (fno_spec _ Ha) as (G & HG & IG). eapply along_unique; eauto.
Qed.
Lemma fno_along : forall a, is_dart d a -> face_along d (fno a) (fst a) (snd a).
Proof. intros (e, o) Ha. destruct (fno_spec _ Ha) as (F & HF & I). exists F. auto. Qed.
Lemma fno_turn : forall a b, left_turn d a b -> fno a = fno b.
Proof.
  intros a b L. destruct (left_turn_darts d a b L) as (Da & Db). destruct (fno_spec a Da) as (F & HF & Ia).
  symmetry. apply fno_is. exists F. split; auto.
  destruct FP as (H & _ & _). destruct (H F (nth_error_In _ _ HF)) as (N & CY).
  apply In_nth_error in Ia as (i & Hi). assert (Li : i < length F) by (apply nth_error_Some; congruence).
  assert (Lm : (i + 1) mod length F < length F) by (apply Nat.mod_upper_bound; lia).
  destruct (nth_error F ((i + 1) mod length F)) as [b'|] eqn:Hb; [|apply nth_error_None in Hb; lia].
  pose proof (CY i a b' Hi Hb) as L'. assert (b = b') by (eapply left_turn_fun; eauto). subst b'.
  destruct b. eapply nth_error_In; eauto.
Qed.
Lemma fno_corner : forall c p, c < ncross d -> p < 4 -> fno (arr c ((p + 1) mod 4)) = fno (flip (arr c p)).
Proof.
  intros c p Hc Hp. apply fno_turn. assert (Hq : (p + 1) mod 4 < 4) by (apply Nat.mod_upper_bound; lia).
  destruct (arr_spec c p Hc Hp) as (D1 & E1). destruct (arr_spec c _ Hc Hq) as (D2 & E2).
  exists c, ((p + 1) mod 4). split; auto. split; [apply dart_to_dto; auto|].
  apply dart_from_to. rewrite flip_flip. apply dart_to_dto. split; auto. rewrite E1. f_equal.
  destruct p as [|[|[|[|]]]]; cbn; lia.
Qed.

(** * Sums over edges and over the places of a crossing *)
Definition heads (e : nat) : nat := fst (dto d (e, Pos)).
Definition tails (e : nat) : nat := fst (dto d (e, Neg)).
Lemma edges_to_places : forall v g, v < ncross d ->
  xl (seq 0 (nedges d)) (fun e => g e && Homology.inc (heads e) (tails e) v) =
  xorb (xorb (g (eslot (v, 0))) (g (eslot (v, 1)))) (xorb (g (eslot (v, 2))) (g (eslot (v, 3)))).
Proof.
  intros v g Hv. set (H := fun s : nat * nat => (fst s =? v) && g (eslot s)).
  transitivity (xl (darts d) (fun a => H (dto d a))).
  - assert (P : Permutation (darts d) (flat_map (fun e => [(e, Pos); (e, Neg)]) (seq 0 (nedges d)))).
    { apply NoDup_Permutation; [apply NoDup_darts| |].
      - generalize (nedges d). intros n. assert (Q : forall l, NoDup l -> NoDup (flat_map (fun e : nat => [(e, Pos); (e, Neg)]) l)).
        { induction l as [|e l IH]; intros N; cbn; [constructor|]. inversion N; subst.
          assert (K : forall o, ~ In (e, o) (flat_map (fun e : nat => [(e, Pos); (e, Neg)]) l)).
          { intros o I. apply in_flat_map in I as (x & Hx & [I|[I|[]]]); injection I as -> _; auto. }
          constructor; [intros [I|I]; [discriminate|]; eapply K; eauto|]. constructor; [apply K|]. auto. }
        apply Q, seq_NoDup.
      - intros (e, o). rewrite in_darts, in_flat_map. unfold is_dart. cbn [fst snd]. split.
        + intros (He & Ho). exists e. rewrite in_seq. split; [lia|]. cbn. destruct Ho as [->| ->]; auto.
        + intros (x & Hx & I). apply in_seq in Hx. destruct I as [I|[I|[]]]; injection I as <- <-; split; auto; lia. }
    rewrite (xl_perm _ _ _ _ P), xl_flat. apply xl_ext. intros e He. apply in_seq in He.
    cbn [xl]. unfold H. rewrite !eslot_dto by (split; cbn; auto; lia). cbn [fst]. unfold Homology.inc. fold (heads e) (tails e).
    destruct (heads e =? v), (tails e =? v), (g e); reflexivity.
  - rewrite <- (xl_map _ _ (dto d) (darts d) H). rewrite (xl_perm _ _ _ _ (dto_perm d R T)).
    assert (P : xl (places d) H = xl (map (fun p => (v, p)) (seq 0 4)) H).
    { assert (Pm : Permutation (places d) (map (fun p => (v, p)) (seq 0 4) ++ filter (fun s => negb (fst s =? v)) (places d))).
      { apply NoDup_Permutation; [apply NoDup_places| |].
        - apply NoDup_app_intro; [apply FinFun.Injective_map_NoDup; [intros a b E; congruence|apply seq_NoDup]|apply NoDup_filter, NoDup_places|].
          intros s I1 I2. apply in_map_iff in I1 as (p & <- & _). apply filter_In in I2 as (_ & I2). cbn in I2. rewrite Nat.eqb_refl in I2. discriminate.
        - intros (c, p). rewrite in_app_iff, filter_In, in_map_iff, in_places. cbn [fst]. split.
          + intros (Hc & Hp). destruct (Nat.eqb_spec c v) as [->|N]; [left|right; auto]. exists p. rewrite in_seq. split; auto; lia.
          + intros [(q & E & I)|(I & _)]; auto. injection E as <- <-. apply in_seq in I. split; auto; lia. }
      rewrite (xl_perm _ _ _ _ Pm), xl_app. rewrite (xl_false _ (filter _ _)), xorb_false_r; auto.
      intros s I. apply filter_In in I as (_ & I). unfold H. destruct (fst s =? v); auto. discriminate. }
    rewrite P. cbn [seq map xl]. unfold H. cbn [fst]. rewrite Nat.eqb_refl. cbn [andb].
    destruct (g (eslot (v, 0))), (g (eslot (v, 1))), (g (eslot (v, 2))), (g (eslot (v, 3))); reflexivity.
Qed.

Context (NF : nfaces d = ncross d + 2) (CN : connected d).
Definition lfs (e : nat) : nat := fno (e, Pos).
Definition rts (e : nat) : nat := fno (e, Neg).
Lemma dart_lt : forall e o, e < nedges d -> o = Pos \/ o = Neg -> is_dart d (e, o).
Proof. intros; split; auto. Qed.
Lemma ends_of : forall c p e, slot d c p e -> c = heads e \/ c = tails e.
Proof.
  intros c p e S. pose proof (slot_lt _ _ _ _ S) as (Hc & Hp). destruct (arr_spec c p Hc Hp) as ((L & O) & E).
  pose proof (arr_slot _ _ _ S) as Q. destruct (arr c p) as (e', o). cbn [fst snd] in *. subst e'. unfold heads, tails.
  destruct O as [->| ->]; rewrite E; auto.
Qed.
Lemma conn_const : forall x : nat -> bool, (forall e, e < nedges d -> x (heads e) = x (tails e)) ->
  forall v w, v < ncross d -> w < ncross d -> x v = x w.
Proof.
  intros x H v w Hv Hw. induction (CN v w Hv Hw) as [a b (e & p & p' & S & S')|a|a b c P1 I1 P2 I2]; auto.
  - assert (He : e < nedges d) by (eapply consistent_bound; eauto). specialize (H e He).
    destruct (ends_of _ _ _ S) as [->| ->], (ends_of _ _ _ S') as [->| ->]; congruence.
  - destruct (Nat.lt_ge_cases b (ncross d)) as [Hb|Hb]; [rewrite I1, I2; auto|].
    assert (K : forall u t, clos_refl_trans nat (joined d) u t -> u = t \/ u < ncross d /\ t < ncross d).
    { clear. intros u t H. induction H as [a b (e & p & p' & S & S')|a|a b c P1 I1 P2 I2]; auto.
      - right. split; eapply slot_lt; eauto.
      - destruct I1 as [->|I1], I2 as [->|I2]; auto. right. tauto. }
    destruct (K _ _ P1) as [->|]; [|lia]. auto.
Qed.
Lemma sides : forall a, is_dart d a -> lfs (fst a) = fno a /\ rts (fst a) = fno (flip a) \/ lfs (fst a) = fno (flip a) /\ rts (fst a) = fno a.
Proof. intros (e, o) (L & [O|O]); cbn in O; subst o; unfold lfs, rts, flip; cbn; auto. Qed.
Lemma dual_const : forall y : nat -> bool, (forall e, e < nedges d -> y (lfs e) = y (rts e)) ->
  forall f g, f < nfaces d -> g < nfaces d -> y f = y g.
Proof.
  intros y H.
  assert (Q : forall a, is_dart d a -> y (fno a) = y (fno (flip a))).
  { intros a Ha. pose proof (H (fst a) (proj1 Ha)) as K. destruct (sides a Ha) as [(E1 & E2)|(E1 & E2)]; congruence. }
  assert (A : forall c p, c < ncross d -> p < 4 -> y (fno (arr c p)) = y (fno (arr c 0))).
  { intros c p Hc. induction p as [|p IH]; intros Hp; auto. rewrite <- IH by lia.
    replace (S p) with ((p + 1) mod 4) by (rewrite Nat.mod_small; lia). rewrite fno_corner by (auto; lia).
    symmetry. apply Q. apply arr_spec; auto; lia. }
  assert (B : forall a, is_dart d a -> y (fno a) = y (fno (arr (fst (dto d a)) 0))).
  { intros a Ha. pose proof (dto_slot d a R Ha) as S. apply slot_lt in S as (Hc & Hp).
    rewrite <- (arr_dto a Ha) at 1. apply A; auto. }
  assert (C : forall c c', c < ncross d -> c' < ncross d -> y (fno (arr c 0)) = y (fno (arr c' 0))).
  { apply (conn_const (fun c => y (fno (arr c 0)))). intros e He. unfold heads, tails.
    rewrite <- !B by (apply dart_lt; auto). rewrite Q by (apply dart_lt; auto). reflexivity. }
  assert (D : forall f, f < nfaces d -> exists a, is_dart d a /\ fno a = f).
  { intros f Hf. destruct (nth_error (p_face d) f) as [F|] eqn:HF; [|apply nth_error_None in HF; unfold nfaces in Hf; lia].
    destruct FP as (P1 & _ & P3). destruct (P1 F (nth_error_In _ _ HF)) as (N & _). destruct F as [|a F]; [congruence|].
    exists a. assert (is_dart d a) by (apply P3, in_concat; exists (a :: F); split; [eapply nth_error_In; eauto|cbn; auto]).
    split; auto. apply fno_is. exists (a :: F). split; auto. destruct a; cbn; auto. }
  intros f g Hf Hg. destruct (D f Hf) as (a & Da & <-), (D g Hg) as (b & Db & <-).
  rewrite (B a Da), (B b Db). apply C; eapply slot_lt; eapply dto_slot; eauto.
Qed.

(** * The cut theorem *)
Lemma cut : forall z, even_everywhere d z -> exists u : nat -> bool, forall e, e < nedges d -> z e = xorb (u (lfs e)) (u (rts e)).
Proof.
  intros z Z. apply (@Homology.cycles_bound (ncross d) (nedges d) (nfaces d) heads tails lfs rts).
  - intros e He. unfold heads, tails, lfs, rts. repeat split; try (eapply slot_lt; eapply dto_slot; auto; apply dart_lt; auto); apply fno_lt, dart_lt; auto.
  - destruct R as (N & _). rewrite NF. lia.
  - exact conn_const.
  - exact dual_const.
  - intros f v Hf Hv. rewrite xsum_xl.
    rewrite (edges_to_places v (fun e => Homology.inc (lfs e) (rts e) f) Hv).
    assert (K : forall p, p < 4 -> Homology.inc (lfs (eslot (v, p))) (rts (eslot (v, p))) f =
       xorb (fno (arr v p) =? f) (fno (arr v ((p + 1) mod 4)) =? f)).
    { intros p Hp. destruct (arr_spec v p Hv Hp) as (Da & Ea). rewrite fno_corner by auto. rewrite <- Ea, eslot_dto by auto.
      unfold Homology.inc. destruct (sides _ Da) as [(-> & ->)|(-> & ->)]; auto. apply xorb_comm. }
    rewrite !K by lia. cbn [Nat.add Nat.modulo Nat.divmod fst snd Nat.sub].
    change (1 mod 4) with 1. change (2 mod 4) with 2. change (3 mod 4) with 3. change (4 mod 4) with 0.
    destruct (fno (arr v 0) =? f), (fno (arr v 1) =? f), (fno (arr v 2) =? f), (fno (arr v 3) =? f); reflexivity.
  - intros v Hv. rewrite xsum_xl, (edges_to_places v z Hv).
    destruct (nth_error (p_cross d) v) as [x|] eqn:Hx; [|apply nth_error_None in Hx; unfold ncross in Hv; lia].
    rewrite !(eslot_slot v _ (cedge x _)) by (split; [lia|eauto]). exact (Z v x Hx).
Qed.
End Diagram.
