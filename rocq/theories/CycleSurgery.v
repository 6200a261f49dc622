(** Cyclic lists and partitions into cycles under insertion and removal of elements. *)
From Coq Require Import List Arith Lia Bool Permutation.
From Verif Require Import Base ListAux PdSpec HashSpec CycleMatch.
Import ListNotations.
Open Scope nat_scope.

Section Linked.
Context {A : Type}.
Implicit Types (R : A -> A -> Prop) (l : list A).

Fixpoint linked R l : Prop :=
  match l with
  | x :: ((y :: _) as l') => R x y /\ linked R l'
  | _ => True
  end.
Lemma linked_cons : forall R x y l, linked R (x :: y :: l) <-> R x y /\ linked R (y :: l).
Proof. reflexivity. Qed.
Lemma linked_nth : forall R l, linked R l <-> forall i a b, nth_error l i = Some a -> nth_error l (S i) = Some b -> R a b.
Proof.
  intros R. induction l as [|x l IH]; [split; [intros _ [|i] a b H; discriminate H|constructor]|].
  destruct l as [|y l].
  - split; [|constructor]. intros _ [|[|i]] a b Ha Hb; discriminate.
  - rewrite linked_cons, IH. split.
    + intros (H & K) [|i] a b Ha Hb; [cbn in Ha, Hb; injection Ha as <-; injection Hb as <-; auto|]. eapply K; eauto.
    + intros K. split; [apply (K 0); auto|]. intros i a b Ha Hb. apply (K (S i)); auto.
Qed.
Lemma linked_app : forall R l m, linked R (l ++ m) ->
  linked R l /\ linked R m.
Proof.
  intros R l m H. rewrite !linked_nth. rewrite linked_nth in H. split; intros i a b Ha Hb.
  - assert (S i < length l) by (apply nth_error_Some; congruence). apply (H i); rewrite nth_error_app1; auto; lia.
  - apply (H (length l + i)); rewrite nth_error_app2 by lia; [rewrite <- Ha|rewrite <- Hb]; f_equal; lia.
Qed.
Lemma cyclically_linked : forall R x l, cyclically R (x :: l) <-> linked R (x :: l ++ [x]).
Proof.
  intros R x l. rewrite linked_nth. unfold cyclically. cbn [length].
  assert (Q : forall i, i <= length l -> nth_error (x :: l) ((i + 1) mod S (length l)) = nth_error (x :: l ++ [x]) (S i)).
  { intros i Hi. cbn [nth_error]. destruct (Nat.eq_dec i (length l)) as [->|N].
    - rewrite Nat.add_1_r, Nat.mod_same, nth_error_app2, Nat.sub_diag by lia. reflexivity.
    - rewrite Nat.mod_small, nth_error_app1, Nat.add_1_r by lia. reflexivity. }
  assert (P : forall i, i <= length l -> nth_error (x :: l ++ [x]) i = nth_error (x :: l) i).
  { intros i Hi. change (x :: l ++ [x]) with ((x :: l) ++ [x]). apply nth_error_app1. cbn. lia. }
  split; intros H i a b Ha Hb.
  - assert (L : S i < length (x :: l ++ [x])) by (apply nth_error_Some; congruence). cbn [length] in L. rewrite app_length in L. cbn in L.
    apply (H i); [rewrite <- P by lia; auto|rewrite Q by lia; auto].
  - assert (L : i < length (x :: l)) by (apply nth_error_Some; congruence). cbn [length] in L.
    apply (H i); [rewrite P by lia; auto|rewrite <- Q by lia; auto].
Qed.
End Linked.

(** ** every element replaced by a list *)
Section Expand.
Context {A B : Type} (R : A -> A -> Prop) (R' : B -> B -> Prop) (E : A -> list B) (P : A -> Prop).
Context (ne : forall a, P a -> E a <> []) (inner : forall a, P a -> linked R' (E a)).
Context (outer : forall a b x y, P a -> P b -> R a b -> (exists u, E a = u ++ [x]) -> (exists v, E b = y :: v) -> R' x y).

Lemma linked_join : forall (l m : list B), linked R' l -> linked R' m ->
  (forall x y u v, l = u ++ [x] -> m = y :: v -> R' x y) -> linked R' (l ++ m).
Proof.
  induction l as [|a l IH]; intros m Hl Hm H; [exact Hm|]. destruct l as [|b l].
  - cbn [app]. destruct m as [|y v]; [constructor|]. split; auto. apply (H a y [] v); auto.
  - cbn [app]. destruct Hl as (H1 & H2). split; auto. apply IH; auto. intros x y u v E1 E2. apply (H x y (a :: u) v); auto. cbn. rewrite E1. reflexivity.
Qed.
Lemma linked_flat : forall l, (forall a, In a l -> P a) -> linked R l -> linked R' (flat_map E l).
Proof.
  induction l as [|a l IH]; intros HP H; [constructor|]. cbn [flat_map].
  assert (Pa : P a) by (apply HP; simpl; auto).
  apply linked_join; auto.
  - apply IH; [intros; apply HP; simpl; auto|]. destruct l; [constructor|]. apply H.
  - intros x y u v E1 E2. destruct l as [|b l]; [discriminate|]. destruct H as (Hab & _).
    assert (Pb : P b) by (apply HP; simpl; auto). cbn [flat_map] in E2. pose proof (ne b Pb). destruct (E b) as [|z w] eqn:Eb; [congruence|].
    injection E2 as <- _. apply (outer a b); eauto.
Qed.
Lemma cyclically_expand : forall l, (forall a, In a l -> P a) -> cyclically R l -> cyclically R' (flat_map E l).
Proof.
  intros [|x l] HP H; [intros i a b Ha; destruct i; discriminate|]. apply cyclically_linked in H.
  assert (L : linked R' (flat_map E (x :: l ++ [x]))).
  { apply linked_flat; auto. intros a [<-|Ha]; [apply HP; simpl; auto|]. apply in_app_iff in Ha. destruct Ha as [Ha|[<-|[]]]; apply HP; simpl; auto. }
  cbn [flat_map] in *. rewrite flat_map_app in L. cbn [flat_map] in L. rewrite app_nil_r in L.
  assert (Px : P x) by (apply HP; simpl; auto). pose proof (ne x Px). destruct (E x) as [|y w] eqn:Ex; [congruence|].
  cbn [app] in *. apply cyclically_linked.
  replace (y :: w ++ flat_map E l ++ y :: w) with ((y :: (w ++ flat_map E l) ++ [y]) ++ w) in L by (cbn; rewrite <- !app_assoc; reflexivity).
  apply linked_app in L. apply L.
Qed.
End Expand.

(** ** some elements left out *)
Section Erase.
Context {A : Type} (R R' : A -> A -> Prop) (keep : A -> bool).
(** from [a] to [b] over elements that are left out *)
Inductive skip : A -> A -> Prop :=
| skip_one : forall a b, R a b -> skip a b
| skip_more : forall a b c, skip a b -> keep b = false -> R b c -> skip a c.
Context (jump : forall a b, keep a = true -> keep b = true -> skip a b -> R' a b).

Lemma linked_erase : forall l x a, keep a = true -> a = x \/ (keep x = false /\ skip a x) ->
  linked R (x :: l) -> linked R' (a :: filter keep l).
Proof.
  induction l as [|y l IH]; intros x a Ka H L; [constructor|]. destruct L as (Rxy & L). cbn [filter].
  assert (S : skip a y) by (destruct H as [->|(Kx & S)]; [apply skip_one; auto|eapply skip_more; eauto]).
  destruct (keep y) eqn:Ky.
  - split; [apply jump; auto|]. apply (IH y y Ky (or_introl eq_refl) L).
  - apply (IH y a Ka (or_intror (conj Ky S)) L).
Qed.
Lemma filter_rotation : forall (l m : list A), rotation l m -> rotation (filter keep l) (filter keep m).
Proof. intros l m (u & v & -> & ->). exists (filter keep u), (filter keep v). rewrite !filter_app. auto. Qed.
Lemma cyclically_erase : forall l, cyclically R l -> cyclically R' (filter keep l).
Proof.
  intros l H. destruct (filter keep l) as [|x t] eqn:F; [intros i a b Ha; destruct i; discriminate|]. rewrite <- F.
  assert (I : In x (filter keep l)) by (rewrite F; simpl; auto). apply filter_In in I. destruct I as (I & K).
  destruct (rotation_in_front A x l I) as (m & Rm).
  assert (C : cyclically R' (filter keep (x :: m))).
  { pose proof (cyclically_rotation A R _ _ Rm H) as C. apply cyclically_linked in C. cbn [filter]. rewrite K. apply cyclically_linked.
    pose proof (linked_erase (m ++ [x]) x x K (or_introl eq_refl) C) as L. rewrite filter_app in L. cbn [filter] in L. rewrite K in L. exact L. }
  assert (S : rotation (x :: m) l) by (destruct Rm as (u & v & -> & ->); exists v, u; auto).
  eapply cyclically_rotation; [apply filter_rotation; exact S|exact C].
Qed.
End Erase.

(** ** partitions into cycles *)
Definition cpart {A} (R : A -> A -> Prop) (D : A -> Prop) (L : list (list A)) : Prop :=
  (forall c, In c L -> c <> [] /\ cyclically R c) /\ NoDup (concat L) /\ (forall x, In x (concat L) <-> D x).

Lemma concat_map_flat : forall A B (E : A -> list B) (L : list (list A)), concat (map (flat_map E) L) = flat_map E (concat L).
Proof. intros A B E. induction L as [|c L IH]; [reflexivity|]. cbn [map concat]. rewrite IH, flat_map_app. reflexivity. Qed.
Lemma NoDup_flat : forall A B (E : A -> list B) l, NoDup l -> (forall a, In a l -> NoDup (E a)) ->
  (forall a b x, In a l -> In b l -> In x (E a) -> In x (E b) -> a = b) -> NoDup (flat_map E l).
Proof.
  intros A B E. induction l as [|a l IH]; intros N H D; [constructor|]. inversion N as [|? ? Na Nl]; subst. cbn [flat_map].
  assert (X : forall l m : list B, NoDup l -> NoDup m -> (forall x, In x l -> ~ In x m) -> NoDup (l ++ m)).
  { clear. induction l as [|y l IH]; intros m H1 H2 H3; [exact H2|]. inversion H1; subst. cbn. constructor.
    - rewrite in_app_iff. intros [I|I]; [auto|]. apply (H3 y); simpl; auto.
    - apply IH; auto. intros x Hx. apply H3. simpl. auto. }
  apply X; [apply H; simpl; auto|apply IH; auto; intros; try apply H; try eapply D; simpl; eauto|].
  intros x Hx Hf. apply in_flat_map in Hf. destruct Hf as (b & Hb & Hxb). assert (a = b) by (eapply D; simpl; eauto). subst. auto.
Qed.
Lemma cpart_expand : forall A B (R : A -> A -> Prop) (R' : B -> B -> Prop) (E : A -> list B) (D : A -> Prop) L,
  cpart R D L ->
  (forall a, D a -> E a <> [] /\ linked R' (E a) /\ NoDup (E a)) ->
  (forall a b x, D a -> D b -> In x (E a) -> In x (E b) -> a = b) ->
  (forall a b x y, D a -> D b -> R a b -> (exists u, E a = u ++ [x]) -> (exists v, E b = y :: v) -> R' x y) ->
  cpart R' (fun x => exists a, D a /\ In x (E a)) (map (flat_map E) L).
Proof.
  intros A B R R' E D L (H1 & H2 & H3) HE HD HO. split; [|split].
  - intros c Hc. apply in_map_iff in Hc. destruct Hc as (b & <- & Hb). destruct (H1 b Hb) as (Nb & Cb).
    assert (Db : forall a, In a b -> D a) by (intros a Ha; apply H3, in_concat; eauto). split.
    + destruct b as [|x b]; [congruence|]. cbn [flat_map]. destruct (HE x (Db x (or_introl eq_refl))) as (Q & _). destruct (E x); [congruence|discriminate].
    + eapply (cyclically_expand R R' E D); eauto; intros a Ha; apply HE; auto.
  - rewrite concat_map_flat. apply NoDup_flat; auto; [intros a Ha; apply HE, H3, Ha|]. intros a b x Ha Hb. apply HD; apply H3; auto.
  - intro x. rewrite concat_map_flat, in_flat_map. split; intros (a & Ha & Hx); exists a; split; auto; apply H3; auto.
Qed.
Lemma cpart_cons : forall A (R : A -> A -> Prop) (D D' : A -> Prop) L c, cpart R D L -> c <> [] -> cyclically R c -> NoDup c ->
  (forall x, In x c -> ~ D x) -> (forall x, D' x <-> In x c \/ D x) -> cpart R D' (c :: L).
Proof.
  intros A R D D' L c (H1 & H2 & H3) N C ND Dj HD. split; [|split].
  - intros b [<-|Hb]; auto.
  - cbn [concat]. clear N C HD. induction c as [|x c IH]; [exact H2|]. inversion ND; subst. cbn [app]. constructor.
    + rewrite in_app_iff. intros [I|I]; [auto|]. apply H3 in I. apply (Dj x); simpl; auto.
    + apply IH; auto. intros y Hy. apply Dj. simpl. auto.
  - intro x. cbn [concat]. rewrite in_app_iff, HD, H3. reflexivity.
Qed.
Lemma cpart_ext : forall A (R R' : A -> A -> Prop) (D D' : A -> Prop) L, cpart R D L ->
  (forall a b, D a -> D b -> R a b -> R' a b) -> (forall x, D' x <-> D x) -> cpart R' D' L.
Proof.
  intros A R R' D D' L (H1 & H2 & H3) HR HD. split; [|split; auto].
  - intros c Hc. destruct (H1 c Hc) as (N & C). split; auto. intros i a b Ha Hb.
    assert (In a c) by (eapply nth_error_In; eauto). assert (In b c) by (eapply nth_error_In; eauto).
    apply HR; [apply H3, in_concat; eauto|apply H3, in_concat; eauto|]. eapply C; eauto.
  - intro x. rewrite HD. apply H3.
Qed.
Definition nonempty {A} (l : list A) : bool := match l with [] => false | _ => true end.
Lemma concat_nonempty : forall A (L : list (list A)), concat (filter nonempty L) = concat L.
Proof. intros A. induction L as [|[|x c] L IH]; cbn [filter nonempty concat]; auto. rewrite IH. reflexivity. Qed.
Lemma concat_filter : forall A (k : A -> bool) (L : list (list A)), concat (map (filter k) L) = filter k (concat L).
Proof. intros A k. induction L as [|c L IH]; [reflexivity|]. cbn [map concat]. rewrite IH, filter_app. reflexivity. Qed.
Lemma cpart_erase : forall A (R R' : A -> A -> Prop) (keep : A -> bool) (D : A -> Prop) L, cpart R D L ->
  (forall a b, D a -> D b -> keep a = true -> keep b = true -> skip (fun a b => D a /\ D b /\ R a b) keep a b -> R' a b) ->
  cpart R' (fun x => D x /\ keep x = true) (filter nonempty (map (filter keep) L)).
Proof.
  intros A R R' keep D L (H1 & H2 & H3) J. split; [|split].
  - intros c Hc. apply filter_In in Hc. destruct Hc as (Hc & Nc). split; [destruct c; [discriminate|discriminate]|].
    apply in_map_iff in Hc. destruct Hc as (b & <- & Hb). destruct (H1 b Hb) as (_ & C).
    apply (cyclically_erase (fun a b => D a /\ D b /\ R a b)).
    + intros x y Kx Ky S. assert (D x /\ D y) as (Dx & Dy) by (clear -S; induction S as [a b (Da & Db & _)|a b c S IH K (_ & Dc & _)]; [auto|split; [apply IH|exact Dc]]). apply J; auto.
    + intros i x y Hx Hy. split; [|split; [|eapply C; eauto]]; apply H3, in_concat; exists b; split; auto; eapply nth_error_In; eauto.
  - rewrite concat_nonempty, concat_filter. apply NoDup_filter. exact H2.
  - intro x. rewrite concat_nonempty, concat_filter, filter_In, H3. reflexivity.
Qed.
Lemma cpart_map : forall A B (R : A -> A -> Prop) (R' : B -> B -> Prop) (h : A -> B) (D : A -> Prop) (D' : B -> Prop) L, cpart R D L ->
  (forall a b, D a -> D b -> R a b -> R' (h a) (h b)) -> (forall a b, D a -> D b -> h a = h b -> a = b) ->
  (forall y, D' y <-> exists a, D a /\ y = h a) -> cpart R' D' (map (map h) L).
Proof.
  intros A B R R' h D D' L H HR HI HD. assert (Q : map (map h) L = map (flat_map (fun a => [h a])) L).
  { apply map_ext. intro l. induction l as [|x l IH]; [reflexivity|]. cbn [map flat_map app]. rewrite IH. reflexivity. }
  rewrite Q. eapply cpart_ext; [apply (cpart_expand _ _ R R' (fun a => [h a]) D L H)| |].
  - intros a _. split; [discriminate|]. split; [constructor|]. repeat constructor. simpl. tauto.
  - intros a b x Da Db [<-|[]] [E|[]]. apply HI; auto.
  - intros a b x y Da Db Rab (u & Eu) (v & Ev). injection Ev as <- _. destruct u as [|? [|? ?]]; try discriminate. injection Eu as <-. auto.
  - intros a b _ _ H0. exact H0.
  - intro x. rewrite HD. cbn [In]. split; intros (a & Da & Hx); exists a; split; auto.
    destruct Hx as [<-|[]]. reflexivity.
Qed.
Lemma erase_count : forall A (keep : A -> bool) (L : list (list A)) m, NoDup (concat L) -> In m L -> m <> [] ->
  (forall c, In c L -> c <> m -> exists x, In x c /\ keep x = true) -> (forall x, In x m -> keep x = false) ->
  length (filter nonempty (map (filter keep) L)) = length L - 1.
Proof.
  intros A keep L m N Im Nm HK HM. apply in_split in Im. destruct Im as (u & v & ->).
  assert (X : forall c, In c u \/ In c v -> c <> m).
  { intros c Hc ->. rewrite concat_app in N. cbn [concat] in N. destruct m as [|x m]; [congruence|].
    assert (I : In x (concat u ++ concat v)).
    { apply in_app_iff. destruct Hc as [Hc|Hc]; [left|right]; apply in_concat; exists (x :: m); simpl; auto. }
    cbn [app] in N. apply NoDup_remove_2 in N. apply N. rewrite in_app_iff in *. rewrite in_app_iff. tauto. }
  assert (Y : forall w, (forall c, In c w -> In c u \/ In c v) -> length (filter nonempty (map (filter keep) w)) = length w).
  { induction w as [|c w IH]; intro Hw; [reflexivity|]. cbn [map filter].
    destruct (HK c) as (x & Hx & Kx).
    - destruct (Hw c (or_introl eq_refl)); rewrite in_app_iff; simpl; auto.
    - apply X, Hw. simpl. auto.
    - assert (I : In x (filter keep c)) by (apply filter_In; auto). destruct (filter keep c); [destruct I|]. cbn [nonempty length]. f_equal. apply IH. intros; apply Hw; simpl; auto. }
  assert (Z : filter keep m = []).
  { clear -HM. induction m as [|x m IH]; [reflexivity|]. cbn [filter]. rewrite HM by (simpl; auto). apply IH. intros; apply HM; simpl; auto. }
  rewrite map_app, filter_app, !app_length. cbn [map filter]. rewrite Z. cbn [nonempty length]. rewrite !Y by auto. lia.
Qed.
