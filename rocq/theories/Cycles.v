(** Partitions of a finite set into the cycles of an injective map. *)
From Coq Require Import List Arith Lia Permutation.
From Verif Require Import Base Orbits.
Import ListNotations.

Section Cycles.
Context {A : Type} (f : A -> A) (D : list A) (dec : forall x y : A, {x = y} + {x <> y}).
Context (cl : forall x, In x D -> In (f x) D) (inj : forall x y, In x D -> In y D -> f x = f y -> x = y).

Definition cyclic_block (b : list A) : Prop :=
  b <> [] /\ forall i x y, nth_error b i = Some x -> nth_error b ((i + 1) mod length b) = Some y -> y = f x.
Definition cycle_partition (L : list (list A)) : Prop :=
  Forall cyclic_block L /\ NoDup (concat L) /\ forall x, In x (concat L) <-> In x D.

Lemma block_nodup : forall (L : list (list A)) b, NoDup (concat L) -> In b L -> NoDup b.
Proof.
  induction L as [|c L IH]; intros b N []; cbn in N.
  - subst. clear - N. induction b as [|x b IHb]; [constructor|]. cbn in N. inversion N; subst.
    constructor; auto. intros K. apply H1, in_app_iff. auto.
  - apply IH; auto. clear - N. induction c; cbn in N; auto. inversion N; auto.
Qed.
Lemma blocks_disjoint : forall (L : list (list A)) i j b c x, NoDup (concat L) ->
  nth_error L i = Some b -> nth_error L j = Some c -> In x b -> In x c -> i = j.
Proof.
  induction L as [|d L IH]; intros i j b c x N Hi Hj Hb Hc; [destruct i; discriminate|].
  cbn in N.
  assert (W : forall e, In e L -> In x d -> In x e -> False).
  { intros e He H1 H2. assert (In x (concat L)) by (apply in_concat; eauto).
    clear - N H1 H. induction d as [|y d IHd]; [destruct H1|]. cbn in N. inversion N; subst.
    destruct H1 as [->|H1]; auto. apply H3, in_app_iff. auto. }
  destruct i as [|i], j as [|j]; cbn in Hi, Hj; auto.
  - injection Hi as <-. exfalso. eapply W; eauto using nth_error_In.
  - injection Hj as <-. exfalso. eapply W; eauto using nth_error_In.
  - f_equal. eapply IH; eauto. clear - N. induction d; cbn in N; auto. inversion N; auto.
Qed.

Lemma block_cycle : forall L b x, cycle_partition L -> In b L -> In x b ->
  In x D /\ period f (length b) x /\ Permutation (cyc f (length b) x) b.
Proof.
  intros L b x (F & N & C) Hb Hx. rewrite Forall_forall in F. destruct (F b Hb) as (B1 & B2). split.
  - apply C, in_concat. eauto.
  - apply cyclic_list; auto. eapply block_nodup; eauto.
Qed.
Lemma block_closed : forall L b x n, cycle_partition L -> In b L -> In x b -> In (iter n f x) b.
Proof.
  intros L b x n P Hb Hx. destruct (block_cycle L b x P Hb Hx) as (_ & (P1 & P2 & _) & PP).
  apply (Permutation_in _ PP). rewrite <- (iter_mod f (length b)) by auto. apply in_cyc.
  exists (n mod length b). split; auto. apply Nat.mod_upper_bound. lia.
Qed.

Definition same_cycle (x y : A) : Prop := In x D /\ In y D /\ exists n, iter n f x = y.
Lemma same_cycle_sym : forall x y, same_cycle x y -> same_cycle y x.
Proof.
  intros x y (Hx & Hy & n & E). split; auto. split; auto.
  destruct (period_exists f D dec cl inj x Hx) as (k & _ & P1 & P2 & _).
  exists (k - n mod k). rewrite <- E, <- iter_add.
  assert (n mod k < k) by (apply Nat.mod_upper_bound; lia).
  replace (k - n mod k + n) with ((1 + n / k) * k).
  - apply iter_period; auto.
  - pose proof (Nat.div_mod n k). nia.
Qed.
Lemma same_cycle_trans : forall x y z, same_cycle x y -> same_cycle y z -> same_cycle x z.
Proof.
  intros x y z (H1 & _ & n & <-) (_ & H2 & m & <-). split; auto. split; auto. exists (m + n). apply iter_add.
Qed.

Lemma first_unrelated : forall L (hd : list A -> A), cycle_partition L -> (forall b, In b L -> In (hd b) b) ->
  ForallOrdPairs (fun x y => ~ same_cycle x y) (map hd L).
Proof.
  intros L hd P Hh. pose proof P as (F & N & C).
  assert (B : forall b x, In b L -> In x b -> forall y, same_cycle x y -> In y b).
  { intros b x Hb Hx y (_ & _ & n & <-). eapply block_closed; eauto. }
  clear P F C. induction L as [|b L IH]; cbn [map]; constructor.
  - apply Forall_forall. intros x Hx R. apply in_map_iff in Hx as (c & <- & Hc).
    apply In_nth_error in Hc as Hj. destruct Hj as (j & Hj).
    assert (0 = S j); [|discriminate].
    eapply (blocks_disjoint (b :: L) 0 (S j) b c (hd c)); eauto; [|apply Hh; cbn; auto].
    eapply B; [| |exact R]; [cbn; auto|]. apply Hh. cbn; auto.
  - apply IH.
    + intros c Hc. apply Hh. cbn; auto.
    + cbn in N. clear - N. induction b; cbn in N; auto. inversion N; auto.
    + intros c x Hc. apply B. cbn; auto.
Qed.
Lemma partition_le : forall L M, cycle_partition L -> cycle_partition M -> length L <= length M.
Proof.
  intros L M PL PM.
  assert (Hd : forall L, cycle_partition L -> L <> [] -> exists hd, forall b, In b L -> In (hd b) b).
  { intros K (F & _) NE. destruct K as [|[|x c] L0]; [congruence| |].
    - inversion F as [|? ? (B & _) _]; congruence.
    - exists (fun b => hd x b). intros b Hb. rewrite Forall_forall in F. destruct (F b Hb) as (B & _).
      destruct b; [congruence|cbn; auto]. }
  destruct L as [|b0 L0]; [cbn; lia|]. destruct M as [|c0 M0].
  { exfalso. destruct PL as (F & _ & C). destruct PM as (_ & _ & C'). inversion F as [|? ? (B & _) _]; subst.
    destruct b0 as [|x b0]; [congruence|]. apply (proj2 (C' x)). apply C. cbn; auto. }
  destruct (Hd _ PL) as (hl & Hl); [congruence|]. destruct (Hd _ PM) as (hm & Hm); [congruence|].
  set (L := b0 :: L0) in *. set (M := c0 :: M0) in *.
  rewrite <- (map_length hl L), <- (map_length hm M).
  apply (unrelated_le _ same_cycle same_cycle_sym same_cycle_trans).
  - apply first_unrelated; auto.
  - intros x Hx. apply in_map_iff in Hx as (b & <- & Hb).
    destruct (block_cycle L b (hl b) PL Hb (Hl b Hb)) as (Dx & _).
    pose proof PM as (_ & _ & C). pose proof (proj2 (C _) Dx) as I. apply in_concat in I as (c & Hc & Ix).
    exists (hm c). split; [apply in_map; auto|]. split; auto. destruct (block_cycle M c _ PM Hc Ix) as (_ & P & PP).
    destruct (block_cycle M c (hm c) PM Hc (Hm c Hc)) as (Dm & _). split; auto.
    pose proof (Permutation_in _ (Permutation_sym PP) (Hm c Hc)) as I2. apply in_cyc in I2 as (i & _ & ->). eauto.
Qed.
Lemma partition_length : forall L M, cycle_partition L -> cycle_partition M -> length L = length M.
Proof. intros. apply Nat.le_antisymm; apply partition_le; auto. Qed.
End Cycles.
