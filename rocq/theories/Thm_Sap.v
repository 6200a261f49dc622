(** C73: the test for self-avoiding polygons. *)
From Coq Require Import List NArith ZArith QArith Lia Bool Arith Lqa.
From Verif Require Import Base Nearest Sap.
Import ListNotations.
Open Scope nat_scope.

(** In the "string of pearls" model a curve is self-avoiding if all distances between different vertices are (almost) 1 or more. *)
Definition apart (u v : vec) : Prop := (1 - (1 # 10000000000) <= sq_dist u v)%Q.
Definition self_avoiding (L : list (list vec)) : Prop :=
  forall c i c' i' l l' u v, nth_error L c = Some l -> nth_error L c' = Some l' -> nth_error l i = Some u -> nth_error l' i' = Some v -> (c, i) <> (c', i') -> apart u v.

(** The test accepts every curve. *)
Lemma close_quiet : forall v b, close_before false v b = false.
Proof. intros v. induction b as [|u b IH]; auto. cbn [close_before]. rewrite andb_false_r. auto. Qed.
Lemma same_quiet : forall vs b, same_component false b vs = true.
Proof. induction vs as [|v vs IH]; intros b; auto. cbn [same_component]. rewrite close_quiet. auto. Qed.
Theorem is_sap_always : forall L, plc_is_sap L = true.
Proof.
  intros L. unfold plc_is_sap, plc_is_sap_internal. generalize (@nil (list vec)) at 1. induction L as [|c L IH]; intros b; auto. cbn [sap_components]. rewrite same_quiet, IH, !andb_true_r. apply forallb_forall. intros x _. destruct c, x; reflexivity.
Qed.
Print Assumptions is_sap_always.
(** So it does not test what it is documented to test. *)
Definition folded : list (list vec) := [[mkVec 0 0 0; mkVec 1 0 0; mkVec 0 0 0; mkVec 1 0 0; mkVec 0 0 0]].
Theorem is_sap_refuted : ~ (forall L, plc_is_sap L = true -> self_avoiding L).
Proof.
  intros H. pose proof (H folded (is_sap_always folded) 0 0 0 2 _ _ _ _ eq_refl eq_refl eq_refl eq_refl ltac:(congruence)) as A. unfold apart in A. vm_compute in A. apply A. reflexivity.
Qed.
Print Assumptions is_sap_refuted.

(** With messages switched on it is right for curves of one component ... *)
Lemma qltb_spec : forall a b, Qltb a b = false <-> (b <= a)%Q.
Proof. intros a b. unfold Qltb. rewrite negb_false_iff. apply Qle_bool_iff. Qed.
Lemma close_loud : forall v b, close_before true v b = false <-> Forall (fun u => apart v u) b.
Proof.
  intros v. induction b as [|u b IH]; cbn [close_before]; [split; auto|]. rewrite andb_true_r, orb_false_iff, IH, qltb_spec. split; [intros (A & B); constructor; auto|intros F; inversion F; auto].
Qed.
Lemma apart_sym : forall u v, apart u v <-> apart v u.
Proof. assert (K : forall u v, apart u v -> apart v u). { intros u v H. unfold apart in *. assert (E : (sq_dist v u == sq_dist u v)%Q) by (unfold sq_dist, sqr; ring). rewrite E. auto. } intros; split; auto. Qed.
Lemma same_loud : forall vs b, same_component true b vs = true <-> (forall i v, nth_error vs i = Some v -> (forall u, In u b -> apart v u) /\ forall j u, j < i -> nth_error vs j = Some u -> apart v u).
Proof.
  induction vs as [|v vs IH]; intros b; cbn [same_component]; [split; auto; intros _ [|i] v E; discriminate|]. destruct (close_before true v b) eqn:C.
  - split; [discriminate|]. intros H. exfalso. assert (F : close_before true v b = false) by (apply close_loud; apply Forall_forall; apply (H 0 v eq_refl)). congruence.
  - apply close_loud in C. rewrite Forall_forall in C. rewrite IH. split.
    + intros H [|i] w E; cbn in E; [injection E as <-; split; auto; intros; lia|]. destruct (H i w E) as (A & B). split; [intros u I; apply A; apply in_or_app; auto|]. intros [|j] u L E'; cbn in E'; [injection E' as <-; apply A; apply in_or_app; right; left; auto|apply (B j u); auto; lia].
    + intros H i w E. destruct (H (S i) w E) as (A & B). split; [intros u I; apply in_app_or in I as [I|[<-|[]]]; auto; apply (B 0); auto; lia|]. intros j u L E'. apply (B (S j) u); auto. lia.
Qed.
Theorem is_sap_verbose_one : forall c, plc_is_sap_internal [c] true = true <-> self_avoiding [c].
Proof.
  intros c. unfold plc_is_sap_internal. cbn [sap_components forallb andb]. rewrite andb_true_r, same_loud. split.
  - intros H a i a' i' l l' u v Ea Ea' Eu Ev N. destruct a as [|[|a]]; [|discriminate|discriminate]. destruct a' as [|[|a']]; [|discriminate|discriminate]. injection Ea as <-. injection Ea' as <-.
    destruct (Nat.lt_trichotomy i i') as [L|[L|L]]; [apply apart_sym; apply (H i' v Ev) with i; auto|subst; congruence|apply (H i u Eu) with i'; auto].
  - intros H i v E. split; [intros u []|]. intros j u L E'. apply (H 0 i 0 j c c v u); auto. intros K. injection K as K. lia.
Qed.
Print Assumptions is_sap_verbose_one.
(** ... and rejects every curve with two components that have vertices. *)
Theorem is_sap_verbose_two_refuted : forall L i j a b, i <> j -> nth_error L i = Some a -> nth_error L j = Some b -> a <> [] -> b <> [] -> plc_is_sap_internal L true = false.
Proof.
  assert (K : forall L bf j a b, (exists i, i < j /\ nth_error L i = Some a \/ In a bf) -> nth_error L j = Some b -> a <> [] -> b <> [] -> sap_components true bf L = false).
  { induction L as [|c L IH]; intros bf j a b H Ej Na Nb; [destruct j; discriminate|]. cbn [sap_components]. destruct j as [|j].
    - cbn in Ej. injection Ej as ->. destruct H as (i & [(L0 & _)|I]); [lia|]. assert (F : forallb (fun b0 => two_components true b b0) bf = false); [|rewrite F; auto]. apply not_true_is_false. intros F. rewrite forallb_forall in F. specialize (F a I). destruct a, b; try congruence. discriminate.
    - cbn in Ej. rewrite (IH (bf ++ [c]) j a b); auto using andb_false_r. destruct H as ([|i] & [(L0 & E)|I]); cbn in *; try (exists 0; right; apply in_or_app; auto; fail).
      + injection E as ->. exists 0. right. apply in_or_app. right. left. auto.
      + exists i. left. split; [lia|auto]. }
  intros L i j a b N Ei Ej Na Nb. unfold plc_is_sap_internal. destruct (Nat.lt_trichotomy i j) as [H|[H|H]]; [apply (K L [] j a b)|congruence|apply (K L [] i b a)]; auto; eexists; left; eauto.
Qed.
Print Assumptions is_sap_verbose_two_refuted.
(** Two curves far apart are rejected, and a polygon of one component is judged. *)
Example far_rejected : plc_is_sap_internal [[mkVec 0 0 0]; [mkVec 9 0 0]] true = false. Proof. reflexivity. Qed.
Example square_accepted : plc_is_sap_internal [[mkVec 0 0 0; mkVec 1 0 0; mkVec 1 1 0; mkVec 0 1 0]] true = true /\ plc_is_sap_internal folded true = false. Proof. split; vm_compute; reflexivity. Qed.
