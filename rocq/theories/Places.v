(** Places around crossings: the other end of an edge, the opposite place, and the walk that
    goes straight through crossings. *)
From Coq Require Import List ZArith Lia Bool Arith Permutation.
From Verif Require Import Base Iterators ListAux Orbits Pd PdSpec PdProofs RelabelProofs SlotCount PdEdges.
Import ListNotations.
Open Scope nat_scope.

Lemma place_dec : forall s t : nat * nat, {s = t} + {s <> t}.
Proof. decide equality; apply Nat.eq_dec. Qed.

Section P.
Context (cs : list crossing) (H4 : Permutation (all_slots cs) (twice (2 * length cs))).
Notation n := (length cs).
Notation pl := (place_list (length cs)).
Notation edg := (edge_in cs).

Lemma in_pl : forall c p, In (c, p) pl <-> c < n /\ p < 4.
Proof. intros. unfold place_list. rewrite in_prod_iff, !in_seq. lia. Qed.
Lemma NoDup_pl : NoDup pl.
Proof. apply NoDup_list_prod; apply seq_NoDup. Qed.
Lemma pl_length : length pl = 4 * n.
Proof. unfold place_list. rewrite prod_length, !seq_length. lia. Qed.

Lemma filter_count : forall A (f : A -> nat) e l,
  length (filter (fun s => f s =? e) l) = count_occ Nat.eq_dec (map f l) e.
Proof.
  induction l as [|x l IH]; auto. cbn [filter map count_occ]. destruct (Nat.eqb_spec (f x) e); destruct (Nat.eq_dec (f x) e);
    cbn [length]; congruence.
Qed.
Lemma edge_bound : forall s, In s pl -> edg s < 2 * n.
Proof.
  intros s H. apply twice_in. eapply Permutation_in; [exact H4|]. rewrite all_slots_places. apply in_map. auto.
Qed.
Lemma two_places : forall e, e < 2 * n -> exists a b, filter (fun s => edg s =? e) pl = [a; b] /\ a <> b.
Proof.
  intros e He. pose proof (filter_count _ edg e pl) as L. unfold place_list in L at 2.
  rewrite <- all_slots_places in L. rewrite (proj1 (Permutation_count_occ Nat.eq_dec _ _) H4) in L.
  rewrite twice_count in L by auto. pose proof (NoDup_filter (fun s => edg s =? e) NoDup_pl) as N.
  destruct (filter (fun s => edg s =? e) pl) as [|a [|b [|]]]; try discriminate. exists a, b. split; auto.
  inversion N as [|? ? N1 _]; subst. intros ->. apply N1. cbn; auto.
Qed.
Lemma edge_places : forall e a b s, filter (fun s => edg s =? e) pl = [a; b] ->
  (In s pl /\ edg s = e <-> s = a \/ s = b).
Proof.
  intros e a b s H. transitivity (In s [a; b]).
  - rewrite <- H, filter_In, Nat.eqb_eq. tauto.
  - cbn. intuition congruence.
Qed.

Definition mate (s : nat * nat) : nat * nat :=
  match find (fun t => (edg t =? edg s) && (if place_dec t s then false else true)) pl with
  | Some t => t
  | None => s
  end.
Lemma mate_spec : forall s, In s pl ->
  In (mate s) pl /\ edg (mate s) = edg s /\ mate s <> s /\
  forall t, In t pl -> edg t = edg s -> t = s \/ t = mate s.
Proof.
  intros s Hs. destruct (two_places (edg s) (edge_bound s Hs)) as (a & b & F & N).
  assert (P := fun t => edge_places _ a b t F).
  assert (Q : exists t, In t pl /\ edg t = edg s /\ t <> s).
  { destruct (proj1 (P s)) as [-> | ->]; auto.
    - exists b. assert (K : In b pl /\ edg b = edg a) by (apply (P b); auto). intuition.
    - exists a. assert (K : In a pl /\ edg a = edg b) by (apply (P a); auto). intuition. }
  unfold mate. destruct (find _ pl) as [t|] eqn:E.
  - apply find_some in E as (E1 & E2). apply andb_true_iff in E2 as (E2 & E3). apply Nat.eqb_eq in E2.
    destruct (place_dec t s); [discriminate|]. split; auto. split; auto. split; auto.
    intros u Hu Eu. assert (Ku : u = a \/ u = b) by (apply P; auto).
    assert (Ks : s = a \/ s = b) by (apply P; auto). assert (Kt : t = a \/ t = b) by (apply P; auto).
    intuition congruence.
  - destruct Q as (t & Q1 & Q2 & Q3). apply (find_none _ _ E) in Q1. rewrite Q2, Nat.eqb_refl in Q1.
    destruct (place_dec t s); [contradiction|discriminate].
Qed.

Lemma mate_in : forall s, In s pl -> In (mate s) pl.
Proof. intros s H. apply mate_spec; auto. Qed.
Lemma mate_edge : forall s, In s pl -> edg (mate s) = edg s.
Proof. intros s H. apply mate_spec; auto. Qed.
Lemma mate_neq : forall s, In s pl -> mate s <> s.
Proof. intros s H. apply mate_spec; auto. Qed.
Lemma mate_unique : forall s t, In s pl -> In t pl -> edg t = edg s -> t <> s -> t = mate s.
Proof. intros s t Hs Ht E N. destruct (mate_spec s Hs) as (_ & _ & _ & K). destruct (K t Ht E); auto; contradiction. Qed.
Lemma mate_mate : forall s, In s pl -> mate (mate s) = s.
Proof.
  intros s H. symmetry. apply mate_unique; auto using mate_in.
  - rewrite mate_edge; auto.
  - intros E. apply (mate_neq s H). auto.
Qed.

Definition opp (s : nat * nat) : nat * nat := (fst s, (snd s + 2) mod 4).
Lemma opp_in : forall s, In s pl -> In (opp s) pl.
Proof. intros (c, p) H. apply in_pl in H. apply in_pl. cbn [fst snd]. split; [tauto|apply mod4_lt]. Qed.
Lemma opp_opp : forall s, In s pl -> opp (opp s) = s.
Proof.
  intros (c, p) H. apply in_pl in H as (_ & H). unfold opp. cbn [fst snd].
  destruct (small4 p H) as [-> |[-> |[-> | ->]]]; reflexivity.
Qed.
Lemma opp_neq : forall s, In s pl -> opp s <> s.
Proof.
  intros (c, p) H. apply in_pl in H as (_ & H). unfold opp. cbn [fst snd]. intros E. apply pair_equal_spec in E as (_ & E).
  destruct (small4 p H) as [-> |[-> |[-> | ->]]]; cbn in E; lia.
Qed.

(** the place where the walk arrives next *)
Definition psi (s : nat * nat) : nat * nat := mate (opp s).
Lemma psi_in : forall s, In s pl -> In (psi s) pl.
Proof. intros. apply mate_in, opp_in; auto. Qed.
Lemma psi_inj : forall s t, In s pl -> In t pl -> psi s = psi t -> s = t.
Proof.
  intros s t Hs Ht E. unfold psi in E. assert (E2 : mate (mate (opp s)) = mate (mate (opp t))) by congruence.
  rewrite !mate_mate in E2 by auto using opp_in. rewrite <- (opp_opp s), <- (opp_opp t) by auto. congruence.
Qed.
Lemma mate_psi : forall s, In s pl -> mate (psi s) = opp s.
Proof. intros. unfold psi. apply mate_mate, opp_in; auto. Qed.
Lemma psi_mate_psi : forall s, In s pl -> psi (mate (psi s)) = mate s.
Proof. intros s H. rewrite mate_psi by auto. unfold psi. rewrite opp_opp by auto. auto. Qed.
Lemma iter_psi_in : forall m s, In s pl -> In (iter m psi s) pl.
Proof. intros. apply iter_in; auto using psi_in. Qed.
Lemma psi_back : forall j s, In s pl -> iter j psi (mate (iter j psi s)) = mate s.
Proof.
  induction j as [|j IH]; intros s Hs; auto. rewrite iter_succ_r. cbn [iter]. rewrite psi_mate_psi by (apply iter_psi_in; auto). apply IH; auto.
Qed.
(** the walk never comes back along the edge it started on in the other direction *)
Lemma no_return : forall m s, In s pl -> iter m psi s <> mate s.
Proof.
  intros m s Hs E.
  assert (D : exists i, m = i + i \/ m = i + S i).
  { destruct (Nat.Even_or_Odd m) as [(i & Hi)|(i & Hi)]; exists i; lia. }
  destruct D as (i & [-> | ->]).
  - rewrite iter_add in E. rewrite <- (psi_back i s Hs) in E.
    apply (iter_inj psi pl psi_in psi_inj) in E; auto using iter_psi_in, mate_in.
    symmetry in E. revert E. apply mate_neq, iter_psi_in; auto.
  - rewrite iter_add in E. cbn [iter] in E. rewrite <- (psi_back i s Hs) in E.
    apply (iter_inj psi pl psi_in psi_inj) in E; auto using iter_psi_in, mate_in, psi_in.
    unfold psi in E at 1.
    assert (E2 : mate (mate (opp (iter i psi s))) = mate (mate (iter i psi s))) by congruence.
    rewrite !mate_mate in E2 by auto using iter_psi_in, opp_in. revert E2. apply opp_neq, iter_psi_in; auto.
Qed.
Lemma no_mates : forall i j s, In s pl -> iter i psi s <> mate (iter j psi s).
Proof.
  intros i j s Hs E. apply (no_return (j + i) s Hs). rewrite iter_add, E. apply psi_back; auto.
Qed.
Lemma psi_period : forall s, In s pl -> exists k, period psi k s.
Proof.
  intros s Hs. destruct (period_exists psi pl place_dec psi_in psi_inj s Hs) as (k & _ & P). eauto.
Qed.
Lemma same_edge_iter : forall i j s, In s pl -> edg (iter i psi s) = edg (iter j psi s) -> iter i psi s = iter j psi s.
Proof.
  intros i j s Hs E. destruct (place_dec (iter i psi s) (iter j psi s)) as [|N]; auto. exfalso.
  apply (no_mates i j s Hs). apply mate_unique; auto using iter_psi_in.
Qed.
Lemma period_distinct : forall k s i j, period psi k s -> i < k -> j < k -> iter i psi s = iter j psi s -> i = j.
Proof.
  intros k s i j (_ & _ & N) Hi Hj E. rewrite NoDup_nth_error in N. apply N; [rewrite cyc_length; auto|].
  rewrite !cyc_nth by auto. congruence.
Qed.
Lemma period_edges : forall k s, In s pl -> period psi k s -> k <= 2 * n.
Proof.
  intros k s Hs P. assert (N : NoDup (map edg (cyc psi k s))).
  { apply NoDup_map_inj; [|apply P]. intros x y Hx Hy E. apply in_cyc in Hx as (i & Hi & ->). apply in_cyc in Hy as (j & Hj & ->).
    apply same_edge_iter; auto. }
  apply NoDup_incl_length with (l' := seq 0 (2 * n)) in N.
  - rewrite map_length, cyc_length, seq_length in N. auto.
  - intros e He. apply in_map_iff in He as (t & <- & Ht). apply in_cyc in Ht as (i & Hi & ->).
    apply in_seq. pose proof (edge_bound _ (iter_psi_in i s Hs)). lia.
Qed.
End P.
