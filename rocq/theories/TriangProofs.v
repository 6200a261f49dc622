(** Proofs about chord systems. *)
From Coq Require Import List Bool Arith Lia Sorted Permutation.
From Verif Require Import Base Sorting Pd KAscent Triang TriangSpec.
Import ListNotations.
Open Scope nat_scope.
Open Scope res_scope.

(** ** the crossing test *)
Lemma same_chord_spec : forall a b, same_chord a b = true <-> same a b.
Proof.
  intros [a0 a1] [b0 b1]. unfold same_chord, same. cbn. rewrite orb_true_iff, !andb_true_iff, !Nat.eqb_eq.
  split; [intros [[-> ->]|[-> ->]]; auto|]. intros [E|E]; inversion E; auto.
Qed.
Lemma share_vertex_spec : forall a b, share_vertex a b = true <-> meet a b.
Proof. intros a b. unfold share_vertex, meet. rewrite !orb_true_iff, !Nat.eqb_eq. tauto. Qed.
Lemma chords_cross_spec : forall a b, fst a <> snd a -> fst b <> snd b ->
  (chords_cross a b = true <-> same a b \/ crosses a b).
Proof.
  intros a b Ha Hb. unfold chords_cross. destruct (same_chord a b) eqn:S.
  - apply same_chord_spec in S. tauto.
  - assert (NS : ~ same a b) by (intro H; apply same_chord_spec in H; congruence).
    destruct (share_vertex a b) eqn:M.
    + apply share_vertex_spec in M. split; [discriminate|]. intros [H|[H _]]; tauto.
    + assert (NM : ~ meet a b) by (intro H; apply share_vertex_spec in H; congruence). clear S M.
      destruct a as [a0 a1], b as [b0 b1]. unfold crosses, meet, inside in *. cbn [fst snd] in *.
      assert (D : a0 <> b0 /\ a0 <> b1 /\ a1 <> b0 /\ a1 <> b1) by tauto.
      cbn [isort sinsert]. unfold endpoint_le. cbn [fst snd].
      repeat match goal with
      | |- context [?x <=? ?y] => destruct (Nat.leb_spec x y); cbn [sinsert fst snd map]
      end; (split; [intros H'; try discriminate; right; split; auto; lia | intros [H'|[_ H']]; [tauto|]; try reflexivity; exfalso; lia]).
Qed.
Lemma system_ok_from : forall cs e, Forall (fun c => fst c <> snd c) (e ++ cs) ->
  (no_cross_earlier e cs = true <->
   ForallOrdPairs (fun c d => ~ crosses c d /\ ~ same c d) cs /\
   forall c d, In c cs -> In d e -> ~ crosses c d /\ ~ same c d).
Proof.
  assert (sym : forall c d, (crosses c d -> crosses d c) /\ (same c d -> same d c)).
  { intros [c0 c1] [d0 d1]. unfold crosses, same, meet, inside. cbn [fst snd]. split.
    - intros [M H]. split; [lia|]. lia.
    - intros [E|E]; inversion E; auto. }
  induction cs as [|c cs IH]; intros e F.
  - simpl. split; [|reflexivity]. intros _. split; [constructor|]. intros c d [].
  - cbn [no_cross_earlier]. rewrite andb_true_iff, forallb_forall, IH by (rewrite <- app_assoc; exact F).
    assert (Hc : fst c <> snd c) by (rewrite Forall_forall in F; apply F; rewrite in_app_iff; simpl; auto).
    assert (He : forall d, In d e -> fst d <> snd d) by (intros d Hd; rewrite Forall_forall in F; apply F; rewrite in_app_iff; auto).
    assert (X : forall d, In d e -> (negb (chords_cross c d) = true <-> ~ crosses c d /\ ~ same c d)).
    { intros d Hd. rewrite negb_true_iff, <- not_true_iff_false, chords_cross_spec by auto. tauto. }
    split.
    + intros [H [P Q]]. split.
      * constructor; auto. apply Forall_forall. intros d Hd.
        destruct (Q d c Hd) as [A B]; [rewrite in_app_iff; simpl; auto|].
        split; intro K; apply sym in K; auto.
      * intros x d [<-|Hx] Hd; [apply X; auto|]. apply Q; auto. rewrite in_app_iff. auto.
    + intros [P Q]. split; [intros d Hd; apply X; auto; apply Q; simpl; auto|].
      inversion P as [|? ? F1 F2]; subst. split; auto. intros x d Hx Hd. rewrite in_app_iff in Hd.
      destruct Hd as [Hd|[<-|[]]]; [apply Q; simpl; auto|]. rewrite Forall_forall in F1.
      destruct (F1 x Hx) as [A B]. split; intro K; apply sym in K; auto.
Qed.

(** ** polygons as cyclically ordered lists of vertices *)
Definition rot (N t x : nat) : nat := if t <=? x then x - t else x + N - t.
Definition cyc (N : nat) (p : list nat) : Prop :=
  Forall (fun x => x < N) p /\ exists t, t < N /\ StronglySorted lt (map (rot N t) p).

Lemma rot_inj : forall N t x y, t < N -> x < N -> y < N -> rot N t x = rot N t y -> x = y.
Proof. intros N t x y Ht Hx Hy. unfold rot. destruct (Nat.leb_spec t x), (Nat.leb_spec t y); lia. Qed.
Lemma inside_rot : forall N t x y u, t < N -> x < N -> y < N -> u < N -> u <> x -> u <> y ->
  if Bool.eqb (t <=? x) (t <=? y) then (inside (rot N t x, rot N t y) (rot N t u) <-> inside (x, y) u)
  else (inside (rot N t x, rot N t y) (rot N t u) <-> ~ inside (x, y) u).
Proof.
  intros. unfold inside, rot. cbn [fst snd].
  destruct (Nat.leb_spec t x), (Nat.leb_spec t y), (Nat.leb_spec t u); cbn [Bool.eqb]; lia.
Qed.
Lemma crosses_rot : forall N t x y u v, t < N -> x < N -> y < N -> u < N -> v < N ->
  (crosses (x, y) (u, v) <-> crosses (rot N t x, rot N t y) (rot N t u, rot N t v)).
Proof.
  intros N t x y u v Ht Hx Hy Hu Hv. unfold crosses.
  assert (M : meet (x, y) (u, v) <-> meet (rot N t x, rot N t y) (rot N t u, rot N t v)).
  { unfold meet. cbn [fst snd]. split; [intuition congruence|].
    intros [H|[H|[H|H]]]; apply rot_inj in H; auto. }
  rewrite <- M. cbn [fst snd].
  assert (D : ~ meet (x, y) (u, v) -> u <> x /\ u <> y /\ v <> x /\ v <> y).
  { unfold meet. cbn [fst snd]. intuition congruence. }
  split; intros [NM H]; (split; [exact NM|]); destruct (D NM) as (A & B & C & E);
    pose proof (inside_rot N t x y u Ht Hx Hy Hu A B) as I1; pose proof (inside_rot N t x y v Ht Hx Hy Hv C E) as I2;
    assert (dec : inside (x, y) u \/ ~ inside (x, y) u) by (unfold inside; lia);
    assert (dec2 : inside (x, y) v \/ ~ inside (x, y) v) by (unfold inside; lia);
    destruct (Bool.eqb (t <=? x) (t <=? y)); tauto.
Qed.

Lemma ss_app_lt : forall l1 l2, StronglySorted lt (l1 ++ l2) -> forall x y, In x l1 -> In y l2 -> x < y.
Proof.
  induction l1 as [|a l1 IH]; intros l2 S x y Hx Hy; [destruct Hx|]. inversion S as [|? ? S' F]; subst.
  destruct Hx as [->|Hx]; [|eapply IH; eauto]. rewrite Forall_forall in F. apply F. rewrite in_app_iff. auto.
Qed.
Lemma ss_app_l : forall l1 l2, StronglySorted lt (l1 ++ l2) -> StronglySorted lt l1.
Proof.
  induction l1 as [|a l1 IH]; intros l2 S; [constructor|]. inversion S as [|? ? S' F]; subst. constructor; eauto.
  rewrite Forall_forall in *. intros x Hx. apply F. rewrite in_app_iff. auto.
Qed.
Lemma ss_app_r : forall l1 l2, StronglySorted lt (l1 ++ l2) -> StronglySorted lt l2.
Proof. induction l1 as [|a l1 IH]; intros l2 S; auto. inversion S; subst. eauto. Qed.
Lemma ss_app : forall l1 l2, StronglySorted lt l1 -> StronglySorted lt l2 ->
  (forall x y, In x l1 -> In y l2 -> x < y) -> StronglySorted lt (l1 ++ l2).
Proof.
  induction l1 as [|a l1 IH]; intros l2 S1 S2 H; auto. inversion S1 as [|? ? S' F]; subst. cbn [app]. constructor.
  - apply IH; auto. intros x y Hx Hy. apply H; simpl; auto.
  - rewrite Forall_forall in *. intros x Hx. apply in_app_iff in Hx. destruct Hx; [auto|apply H; simpl; auto].
Qed.

(** a rotation of a cyclic list is cyclic *)
Lemma cyc_rotate : forall N l1 l2, cyc N (l1 ++ l2) -> cyc N (l2 ++ l1).
Proof.
  intros N l1 [|b l2] [F [t [Ht S]]].
  - rewrite app_nil_r in *. split; eauto.
  - assert (F' : Forall (fun x => x < N) ((b :: l2) ++ l1)) by (apply Forall_app in F; apply Forall_app; tauto).
    split; auto. exists b.
    assert (Fx : forall x, In x (l1 ++ b :: l2) -> x < N) by (rewrite Forall_forall in F; auto).
    assert (Hb : b < N) by (apply Fx; rewrite in_app_iff; simpl; auto). split; auto.
    rewrite map_app in S. rewrite map_app.
    assert (R : forall x, x < N -> rot N b x = rot N (rot N t b) (rot N t x)).
    { intros x Hx. unfold rot. destruct (Nat.leb_spec t b), (Nat.leb_spec b x), (Nat.leb_spec t x);
      match goal with |- context [?u <=? ?v] => destruct (Nat.leb_spec u v) end; lia. }
    assert (M : forall l, (forall x, In x l -> x < N) -> map (rot N b) l = map (rot N (rot N t b)) (map (rot N t) l)).
    { intros l Hl. rewrite map_map. apply map_ext_in. auto. }
    rewrite (M (b :: l2)), (M l1) by (intros x Hx; apply Fx; rewrite in_app_iff; auto).
    pose proof (ss_app_lt _ _ S) as L. pose proof (ss_app_l _ _ S) as S1. pose proof (ss_app_r _ _ S) as S2.
    assert (B2 : forall y, In y (map (rot N t) (b :: l2)) -> rot N t b <= y < N).
    { intros y Hy. split.
      - cbn [map] in *. inversion S2 as [|? ? _ F2]; subst. destruct Hy as [<-|Hy]; auto.
        rewrite Forall_forall in F2. apply F2 in Hy. lia.
      - apply in_map_iff in Hy. destruct Hy as [x [<- Hx]]. assert (x < N) by (apply Fx; rewrite in_app_iff; auto).
        unfold rot. destruct (Nat.leb_spec t x); lia. }
    assert (B1 : forall y, In y (map (rot N t) l1) -> y < rot N t b).
    { intros y Hy. apply L; auto. simpl; auto. }
    assert (Hc : rot N t b < N) by (unfold rot; destruct (Nat.leb_spec t b); lia).
    set (c := rot N t b) in *. clearbody c.
    assert (mono : forall l, StronglySorted lt l ->
      (forall y, In y l -> c <= y) \/ (forall y, In y l -> y < c) -> StronglySorted lt (map (rot N c) l)).
    { clear -Hc. intros l S. induction S as [|x l S IH F]; intros H; [constructor|]. cbn [map]. constructor.
      - apply IH. destruct H as [H|H]; [left|right]; intros y Hy; apply H; simpl; auto.
      - rewrite Forall_forall in *. intros z Hz. apply in_map_iff in Hz. destruct Hz as [y [<- Hy]].
        pose proof (F y Hy). unfold rot.
        destruct H as [H|H]; pose proof (H x (or_introl eq_refl)); pose proof (H y (or_intror Hy));
          destruct (Nat.leb_spec c x), (Nat.leb_spec c y); lia. }
    apply ss_app.
    + apply mono; auto. left. intros y Hy. apply B2 in Hy. lia.
    + apply mono; auto.
    + intros x y Hx Hy. apply in_map_iff in Hx. apply in_map_iff in Hy.
      destruct Hx as [x' [<- Hx]], Hy as [y' [<- Hy]]. apply B2 in Hx. apply B1 in Hy. unfold rot.
      destruct (Nat.leb_spec c x'), (Nat.leb_spec c y'); lia.
Qed.
Lemma cyc_sub : forall N l1 l2, cyc N (l1 ++ l2) -> cyc N l1 /\ cyc N l2.
Proof.
  intros N l1 l2 [F [t [Ht S]]]. apply Forall_app in F. destruct F as [F1 F2]. rewrite map_app in S.
  split; (split; [assumption|]); exists t; split; eauto using ss_app_l, ss_app_r.
Qed.
Lemma cyc_drop : forall N l1 x l2, cyc N (l1 ++ x :: l2) -> cyc N (l1 ++ l2).
Proof.
  intros N l1 x l2 H. apply cyc_rotate in H. cbn [app] in H. change (x :: l2 ++ l1) with ([x] ++ (l2 ++ l1)) in H.
  apply cyc_sub in H. apply cyc_rotate. tauto.
Qed.

(** ** chords that separate the vertices of a polygon *)
Definition sep (p : list nat) (c : chord) : Prop :=
  In (fst c) p /\ In (snd c) p /\ exists u v, In u p /\ In v p /\ crosses c (u, v).
Definition apart (c d : chord) : Prop := ~ crosses c d /\ ~ same c d.
Definition good (p : list nat) (cs : list chord) : Prop := Forall (sep p) cs /\ ForallOrdPairs apart cs.

Lemma crosses_sym : forall c d, crosses c d -> crosses d c.
Proof. intros [c0 c1] [d0 d1]. unfold crosses, meet, inside. cbn [fst snd]. intros [M H]. split; lia. Qed.
Lemma same_sym : forall c d, same c d -> same d c.
Proof. intros [c0 c1] [d0 d1] [E|E]; inversion E; subst; [left|right]; auto. Qed.
Lemma apart_sym : forall c d, apart c d -> apart d c.
Proof. intros c d [A B]. split; intro H; [apply A, crosses_sym, H|apply B, same_sym, H]. Qed.
Lemma crosses_swap : forall c d, (crosses (snd c, fst c) d <-> crosses c d) /\ (crosses c (snd d, fst d) <-> crosses c d).
Proof.
  intros [c0 c1] [d0 d1]. unfold crosses, meet, inside. cbn [fst snd].
  rewrite (Nat.min_comm c1 c0), (Nat.max_comm c1 c0). tauto.
Qed.
Lemma crosses_same : forall c c' d, same c c' -> (crosses c d <-> crosses c' d).
Proof. intros c c' d [->| ->]; [tauto|]. apply crosses_swap. Qed.
Lemma sep_incl : forall p q c, incl p q -> sep p c -> sep q c.
Proof. intros p q c I (A & B & u & v & U & V & X). repeat split; auto. exists u, v. auto. Qed.
Lemma good_incl : forall p q cs, incl p q -> good p cs -> good q cs.
Proof. intros p q cs I [S F]. split; auto. eapply Forall_impl; [|exact S]. intros c. apply sep_incl. auto. Qed.

Lemma fop_app : forall {A} (R : A -> A -> Prop) l1 l2,
  ForallOrdPairs R (l1 ++ l2) <->
  ForallOrdPairs R l1 /\ ForallOrdPairs R l2 /\ (forall x y, In x l1 -> In y l2 -> R x y).
Proof.
  intros A R l1 l2. induction l1 as [|a l1 IH]; cbn [app].
  - split; [intro H; repeat split; auto; [constructor|intros ? ? []]|tauto].
  - split.
    + intro H. inversion H as [|? ? F F2]; subst. apply IH in F2. destruct F2 as (P & Q & X). rewrite Forall_app in F.
      destruct F as [F1 F2]. repeat split; auto; [constructor; auto|]. intros x y [<-|Hx] Hy; auto.
      rewrite Forall_forall in F2. auto.
    + intros (P & Q & X). inversion P as [|? ? F F2]; subst. constructor.
      * rewrite Forall_app. split; auto. apply Forall_forall. intros y Hy. apply X; simpl; auto.
      * apply IH. repeat split; auto. intros x y Hx Hy. apply X; simpl; auto.
Qed.
Lemma fop_perm : forall {A} (R : A -> A -> Prop), (forall x y, R x y -> R y x) ->
  forall l l', Permutation l l' -> ForallOrdPairs R l -> ForallOrdPairs R l'.
Proof.
  intros A R sym l l' P. induction P as [|x l l' P IH|x y l|l l' l'' P IH P' IH']; intros F; auto.
  - inversion F as [|? ? F1 F2]; subst. constructor; auto. rewrite Forall_forall in *. intros y Hy. apply F1.
    apply (Permutation_in _ (Permutation_sym P)). auto.
  - inversion F as [|? ? F1 F2]; subst. inversion F2 as [|? ? F3 F4]; subst. inversion F1; subst.
    constructor; [constructor; auto|]. constructor; auto.
Qed.

Section Split.
Context (N : nat) (a b : nat) (mid rest : list nat) (C : cyc N (a :: mid ++ b :: rest)).
Let A := a :: mid ++ [b].
Let B := b :: rest ++ [a].
Let P := a :: mid ++ b :: rest.

Lemma in_A : forall x, In x A <-> x = a \/ In x mid \/ x = b.
Proof. intro x. unfold A. cbn [In]. rewrite in_app_iff. cbn [In]. intuition. Qed.
Lemma in_B : forall x, In x B <-> x = b \/ In x rest \/ x = a.
Proof. intro x. unfold B. cbn [In]. rewrite in_app_iff. cbn [In]. intuition. Qed.
Lemma in_P : forall x, In x P <-> x = a \/ In x mid \/ x = b \/ In x rest.
Proof. intro x. unfold P. cbn [In]. rewrite in_app_iff. cbn [In]. intuition. Qed.

(** numbers that follow the polygon round from a *)
Lemma zones : exists t, t < N /\ (forall x, In x P -> x < N) /\ rot N t a < rot N t b /\
  (forall x, In x mid -> rot N t a < rot N t x < rot N t b) /\ (forall x, In x rest -> rot N t b < rot N t x).
Proof.
  destruct C as [F [t [Ht S]]]. exists t. split; auto. split; [rewrite Forall_forall in F; exact F|].
  cbn [map] in S. rewrite map_app in S. cbn [map] in S. inversion S as [|? ? S' Fa]; subst.
  rewrite Forall_forall in Fa.
  assert (La : forall x, In x (mid ++ b :: rest) -> rot N t a < rot N t x).
  { intros x Hx. apply Fa. rewrite in_app_iff in *. destruct Hx as [Hx|[->|Hx]]; [left|right|right]; simpl; auto using in_map. }
  pose proof (ss_app_lt _ _ S') as L. apply ss_app_r in S'. inversion S' as [|? ? _ Fb]; subst. rewrite Forall_forall in Fb.
  split; [apply La; rewrite in_app_iff; simpl; auto|]. split.
  - intros x Hx. split; [apply La; rewrite in_app_iff; auto|]. apply L; simpl; auto using in_map.
  - intros x Hx. apply Fb, in_map, Hx.
Qed.

Lemma sep_not_base : forall c, sep A c -> ~ same (a, b) c.
Proof.
  intros c (_ & _ & u & v & Hu & Hv & X) S. apply (crosses_same _ _ _ S) in X.
  destruct zones as (t & Ht & L & Lab & Lm & Lr).
  assert (IA : forall x, In x A -> In x P) by (intros x; rewrite in_A, in_P; tauto).
  apply (crosses_rot N t) in X; auto; try (apply L; rewrite ?in_P; auto; fail).
  assert (ZA : forall x, In x A -> rot N t a <= rot N t x <= rot N t b).
  { intros x Hx. apply in_A in Hx. destruct Hx as [->|[Hx| ->]]; [lia| |lia]. apply Lm in Hx. lia. }
  pose proof (ZA u Hu). pose proof (ZA v Hv). unfold crosses, meet, inside in X. cbn [fst snd] in X. lia.
Qed.
Lemma base_apart : forall c, sep A c -> apart (a, b) c.
Proof.
  intros c S. split; [|apply sep_not_base; auto]. destruct S as (H0 & H1 & _). intro X.
  destruct zones as (t & Ht & L & Lab & Lm & Lr). destruct c as [x y]. cbn [fst snd] in *.
  assert (IA : forall x, In x A -> In x P) by (intros z; rewrite in_A, in_P; tauto).
  apply (crosses_rot N t) in X; auto; try (apply L; rewrite ?in_P; auto; fail).
  assert (ZA : forall x, In x A -> rot N t a <= rot N t x <= rot N t b).
  { intros z Hz. apply in_A in Hz. destruct Hz as [->|[Hz| ->]]; [lia| |lia]. apply Lm in Hz. lia. }
  pose proof (ZA x H0). pose proof (ZA y H1). unfold crosses, meet, inside in X. cbn [fst snd] in X. lia.
Qed.
Lemma sides_apart : forall c d, sep A c -> In (fst d) B -> In (snd d) B -> apart c d.
Proof.
  intros c d S D0 D1. destruct zones as (t & Ht & L & Lab & Lm & Lr).
  assert (IA : forall x, In x A -> In x P) by (intros z; rewrite in_A, in_P; tauto).
  assert (IB : forall x, In x B -> In x P) by (intros z; rewrite in_B, in_P; tauto).
  assert (ZA : forall x, In x A -> rot N t a <= rot N t x <= rot N t b).
  { intros z Hz. apply in_A in Hz. destruct Hz as [->|[Hz| ->]]; [lia| |lia]. apply Lm in Hz. lia. }
  assert (ZB : forall x, In x B -> rot N t x = rot N t a \/ rot N t b <= rot N t x).
  { intros z Hz. apply in_B in Hz. destruct Hz as [->|[Hz| ->]]; [lia| |lia]. apply Lr in Hz. lia. }
  pose proof (sep_not_base c S) as NB. destruct S as (C0 & C1 & u & v & Hu & Hv & X).
  destruct c as [x y], d as [z w]. cbn [fst snd] in *.
  pose proof (ZA x C0). pose proof (ZA y C1). pose proof (ZB z D0). pose proof (ZB w D1).
  split.
  - intro Y. apply (crosses_rot N t) in Y; auto; try (apply L; auto; fail).
    unfold crosses, meet, inside in Y. cbn [fst snd] in Y. lia.
  - assert (AB : forall q, In q A -> In q B -> q = a \/ q = b).
    { intros q Qa Qb. apply in_A in Qa. apply in_B in Qb. destruct Qa as [->|[Qa| ->]]; auto.
      destruct Qb as [->|[Qb| ->]]; auto. apply Lm in Qa. apply Lr in Qb. lia. }
    assert (NE : x <> y). { intros ->. unfold crosses, inside in X. cbn [fst snd] in X. lia. }
    intros [E|E]; inversion E; subst; destruct (AB z) as [Ez|Ez]; auto; destruct (AB w) as [Ew|Ew]; auto; subst;
      try (apply NE; reflexivity); apply NB; [left|right|right|left]; reflexivity.
Qed.
(** a chord of one part that separates the vertices of the whole separates those of the part *)
Lemma sep_part : forall c, In (fst c) A -> In (snd c) A -> sep P c -> ~ same (a, b) c -> sep A c.
Proof.
  intros [x y] X Y (_ & _ & u & v & Hu & Hv & K) NS. cbn [fst snd] in *. split; [|split]; auto.
  destruct zones as (t & Ht & L & Lab & Lm & Lr).
  assert (IA : forall x, In x A -> In x P) by (intros z; rewrite in_A, in_P; tauto).
  assert (ZA : forall x, In x A -> rot N t a <= rot N t x <= rot N t b).
  { intros z Hz. apply in_A in Hz. destruct Hz as [->|[Hz| ->]]; [lia| |lia]. apply Lm in Hz. lia. }
  assert (ZP : forall z, In z P -> rot N t a <= rot N t z <= rot N t b -> In z A).
  { intros z Hz Q. apply in_P in Hz. apply in_A. destruct Hz as [->|[Hz|[->|Hz]]]; auto. apply Lr in Hz. lia. }
  assert (Aa : In a A) by (apply in_A; auto). assert (Ab : In b A) by (apply in_A; auto).
  assert (LA : forall z, In z A -> z < N) by auto.
  assert (inj : forall z w, In z P -> In w P -> rot N t z = rot N t w -> z = w) by (intros z w Hz Hw; apply rot_inj; auto).
  assert (exists w, In w A /\ inside (rot N t x, rot N t y) (rot N t w)) as [w [Hw IW]].
  { apply (crosses_rot N t) in K; auto. destruct K as [_ [[K _]|[_ K]]]; cbn [fst snd] in K; [exists u|exists v]; (split; [|exact K]);
      apply ZP; auto; pose proof (ZA x X); pose proof (ZA y Y); unfold inside in K; cbn [fst snd] in K; lia. }
  assert (NE : rot N t x <> rot N t y) by (unfold inside in IW; cbn [fst snd] in IW; lia).
  assert (exists z, In z A /\ rot N t z <> rot N t x /\ rot N t z <> rot N t y /\ ~ inside (rot N t x, rot N t y) (rot N t z))
    as [z [Hz [Z1 [Z2 OZ]]]].
  { destruct (Nat.eq_dec a x) as [Ex|Nx]; [destruct (Nat.eq_dec b y) as [Ey|Ny]|];
      [exfalso; apply NS; subst; left; auto | exists b | destruct (Nat.eq_dec a y) as [Ey|Ny]; [destruct (Nat.eq_dec b x) as [Ex|Nx']|]].
    - split; auto. split; [subst; lia|]. split; [intro E; apply Ny, inj; auto|].
      pose proof (ZA x X). pose proof (ZA y Y). unfold inside. cbn [fst snd]. lia.
    - exfalso; apply NS; subst; right; auto.
    - exists b. split; auto. split; [intro E; apply Nx', inj; auto|]. split; [subst; lia|].
      pose proof (ZA x X). pose proof (ZA y Y). unfold inside. cbn [fst snd]. lia.
    - exists a. split; auto. split; [intro E; apply Nx, inj; auto|]. split; [intro E; apply Ny, inj; auto|].
      pose proof (ZA x X). pose proof (ZA y Y). unfold inside. cbn [fst snd]. lia. }
  exists w, z. split; auto. split; auto. apply (crosses_rot N t); auto. split.
  - unfold meet, inside in *. cbn [fst snd] in *. lia.
  - left. auto.
Qed.
End Split.

Lemma good_perm : forall p cs cs', Permutation cs cs' -> good p cs -> good p cs'.
Proof.
  intros p cs cs' P [S F]. split; [|eapply fop_perm; eauto; exact apart_sym].
  rewrite Forall_forall in *. intros c Hc. apply S, (Permutation_in _ (Permutation_sym P)), Hc.
Qed.
Lemma same_apart : forall c c' d, same c c' -> apart c d -> apart c' d.
Proof.
  intros c c' d S [X Y]. split; [intro H; apply X, (crosses_same _ _ _ S), H|]. intro H. apply Y.
  destruct c as [c0 c1], c' as [e0 e1], d as [d0 d1].
  destruct S as [S|S], H as [H|H]; inversion S; inversion H; subst; [left|right|right|left]; auto.
Qed.

Lemma split_good : forall N a b mid rest csA csB, cyc N (a :: mid ++ b :: rest) -> mid <> [] -> rest <> [] ->
  good (a :: mid ++ [b]) csA -> good (b :: rest ++ [a]) csB -> good (a :: mid ++ b :: rest) ((a, b) :: csA ++ csB).
Proof.
  intros N a b mid rest csA csB C Hm Hr [SA FA] [SB FB].
  assert (C' : cyc N (b :: rest ++ a :: mid)) by (apply (cyc_rotate N (a :: mid) (b :: rest)); exact C).
  rewrite Forall_forall in SA, SB. split.
  - constructor.
    + split; [cbn; auto|]. split; [cbn [fst snd In]; right; rewrite in_app_iff; simpl; auto|].
      destruct mid as [|m mid]; [congruence|]. destruct rest as [|r rest]; [congruence|]. exists m, r.
      destruct (zones N a b (m :: mid) (r :: rest) C) as (t & Ht & L & Lab & Lm & Lr).
      assert (Im : In m (a :: (m :: mid) ++ b :: r :: rest)) by (simpl; auto).
      assert (Ir : In r (a :: (m :: mid) ++ b :: r :: rest)) by (cbn [In]; right; rewrite in_app_iff; simpl; auto).
      assert (Ib : In b (a :: (m :: mid) ++ b :: r :: rest)) by (cbn [In]; right; rewrite in_app_iff; simpl; auto).
      split; auto. split; auto. apply (crosses_rot N t); auto; [apply L; simpl; auto|].
      pose proof (Lm m (or_introl eq_refl)). pose proof (Lr r (or_introl eq_refl)).
      unfold crosses, meet, inside. cbn [fst snd]. lia.
    + rewrite Forall_forall. intros c Hc. apply in_app_iff in Hc. destruct Hc as [Hc|Hc].
      * eapply sep_incl; [|apply SA; exact Hc]. intros x Hx. apply in_A in Hx. apply in_P. tauto.
      * eapply sep_incl; [|apply SB; exact Hc]. intros x Hx. apply in_B in Hx. apply in_P. tauto.
  - constructor.
    + rewrite Forall_forall. intros c Hc. apply in_app_iff in Hc. destruct Hc as [Hc|Hc].
      * eapply base_apart; eauto.
      * apply (same_apart (b, a)); [right; reflexivity|]. eapply base_apart; eauto.
    + rewrite fop_app. repeat split; auto; try (eapply (sides_apart N a b mid rest C); eauto; apply SB; auto).
Qed.

Lemma unsplit_good : forall N a b mid rest c cs, cyc N (a :: mid ++ b :: rest) -> same c (a, b) ->
  good (a :: mid ++ b :: rest) (c :: cs) ->
  mid <> [] /\ rest <> [] /\
  exists csA csB, Permutation cs (csA ++ csB) /\ good (a :: mid ++ [b]) csA /\ good (b :: rest ++ [a]) csB.
Proof.
  intros N a b mid rest c cs C Sc [SS FF].
  assert (C' : cyc N (b :: rest ++ a :: mid)) by (apply (cyc_rotate N (a :: mid) (b :: rest)); exact C).
  inversion SS as [|? ? Sh St]; subst. inversion FF as [|? ? Fh Ft]; subst.
  destruct (zones N a b mid rest C) as (t & Ht & L & Lab & Lm & Lr).
  assert (Ia : In a (a :: mid ++ b :: rest)) by (simpl; auto).
  assert (Ib : In b (a :: mid ++ b :: rest)) by (apply in_P; auto).
  destruct Sh as (_ & _ & u & v & Hu & Hv & X). apply (crosses_same _ _ _ Sc) in X.
  assert (Xr := X). apply (crosses_rot N t) in Xr; auto.
  assert (Z : forall w, In w (a :: mid ++ b :: rest) -> w <> a -> w <> b ->
    (inside (rot N t a, rot N t b) (rot N t w) -> In w mid) /\ (~ inside (rot N t a, rot N t b) (rot N t w) -> In w rest)).
  { intros w Hw Na Nb. apply in_P in Hw. destruct Hw as [->|[Hw|[->|Hw]]]; try congruence.
    - pose proof (Lm w Hw). split; auto. intro K. exfalso. apply K. unfold inside. cbn [fst snd]. lia.
    - pose proof (Lr w Hw). split; auto. intro K. unfold inside in K. cbn [fst snd] in K. lia. }
  assert (ND : u <> a /\ u <> b /\ v <> a /\ v <> b).
  { destruct X as [NM _]. unfold meet in NM. cbn [fst snd] in NM. intuition. }
  destruct ND as (Ua & Ub & Va & Vb).
  assert (NE : mid <> [] /\ rest <> []).
  { destruct Xr as [_ [[K1 K2]|[K1 K2]]]; cbn [fst snd] in *.
    - apply (Z u) in K1; auto. apply (Z v) in K2; auto. split; intros ->; auto.
    - apply (Z u) in K1; auto. apply (Z v) in K2; auto. split; intros ->; auto. }
  destruct NE as [Nm Nr]. split; auto. split; auto.
  set (inA := fun x => existsb (Nat.eqb x) (a :: mid ++ [b])).
  assert (inA_spec : forall x, inA x = true <-> In x (a :: mid ++ [b])).
  { intro x. unfold inA. rewrite existsb_exists. split; [intros [y [Hy E]]; apply Nat.eqb_eq in E; subst; auto|].
    intro H. exists x. rewrite Nat.eqb_refl. auto. }
  set (both := fun d : chord => inA (fst d) && inA (snd d)).
  exists (filter both cs), (filter (fun d => negb (both d)) cs).
  assert (PM : Permutation cs (filter both cs ++ filter (fun d => negb (both d)) cs)).
  { clear. induction cs as [|d cs IH]; simpl; auto. destruct (both d); simpl; [constructor; auto|].
    etransitivity; [apply perm_skip, IH|]. apply Permutation_middle. }
  split; auto.
  assert (G2 : good (a :: mid ++ b :: rest) (filter both cs ++ filter (fun d => negb (both d)) cs)).
  { eapply good_perm; [exact PM|]. split; auto. }
  destruct G2 as [_ G2]. apply fop_app in G2. destruct G2 as (GA & GB & _).
  rewrite Forall_forall in St, Fh.
  assert (NS : forall d, In d cs -> ~ same (a, b) d /\ ~ crosses (a, b) d).
  { intros d Hd. destruct (same_apart c (a, b) d Sc (Fh d Hd)). auto. }
  split; split; auto.
  - rewrite Forall_forall. intros d Hd. apply filter_In in Hd. destruct Hd as [Hd B]. apply andb_true_iff in B.
    destruct B as [B0 B1]. apply inA_spec in B0, B1. eapply sep_part; eauto. apply NS; auto.
  - rewrite Forall_forall. intros d Hd. apply filter_In in Hd. destruct Hd as [Hd B]. apply negb_true_iff in B.
    destruct (NS d Hd) as [NSd NX]. pose proof (St d Hd) as Sd.
    assert (InB : In (fst d) (b :: rest ++ [a]) /\ In (snd d) (b :: rest ++ [a])).
    { destruct d as [x y]. destruct Sd as (Dx & Dy & _). cbn [fst snd] in *. unfold both in B. cbn [fst snd] in B.
      assert (Q : forall w, In w (a :: mid ++ b :: rest) -> In w (b :: rest ++ [a]) \/ In w mid).
      { intros w Hw. apply in_P in Hw. rewrite in_B. tauto. }
      assert (Q2 : forall w z, In w mid -> In z rest -> ~ crosses (a, b) (w, z) -> False).
      { intros w z Hw Hz K. apply K. assert (In w (a :: mid ++ b :: rest)) by (apply in_P; auto).
        assert (In z (a :: mid ++ b :: rest)) by (apply in_P; auto).
        apply (crosses_rot N t); auto. pose proof (Lm w Hw). pose proof (Lr z Hz).
        unfold crosses, meet, inside. cbn [fst snd]. lia. }
      assert (Q3 : forall w, In w mid -> inA w = true) by (intros w Hw; apply inA_spec, in_A; auto).
      assert (Q4 : forall w, In w (b :: rest ++ [a]) -> inA w = true \/ In w rest).
      { intros w Hw. apply in_B in Hw. destruct Hw as [->|[Hw| ->]]; auto; left; apply inA_spec, in_A; auto. }
      destruct (Q x Dx) as [Hx|Hx], (Q y Dy) as [Hy|Hy]; auto; exfalso.
      - destruct (Q4 x Hx) as [Ax|Rx]; [rewrite Ax, (Q3 y Hy) in B; discriminate|].
        apply (Q2 y x Hy Rx). intro K. apply NX. apply (proj2 (crosses_swap (a, b) (y, x))). exact K.
      - destruct (Q4 y Hy) as [Ay|Ry]; [rewrite Ay, (Q3 x Hx) in B; discriminate|]. apply (Q2 x y Hx Ry NX).
      - rewrite (Q3 x Hx), (Q3 y Hy) in B. discriminate. }
    destruct InB as [B0 B1]. eapply (sep_part N b a rest mid C'); eauto.
    + eapply sep_incl; [|exact Sd]. intros w Hw. apply in_P in Hw. apply in_P. tauto.
    + intro K. apply NSd. destruct d as [x y]. destruct K as [K|K]; inversion K; subst; [right|left]; reflexivity.
Qed.

Lemma cut_at : forall p x y, In x p -> In y p -> x <> y ->
  exists pre a mid b post, p = pre ++ a :: mid ++ b :: post /\ same (x, y) (a, b).
Proof.
  intros p x y Hx Hy N. apply in_split in Hx. destruct Hx as (l1 & l2 & ->). apply in_app_iff in Hy.
  destruct Hy as [Hy|[E|Hy]]; [|congruence|].
  - apply in_split in Hy. destruct Hy as (l3 & l4 & ->). exists l3, y, l4, x, l2. split; [rewrite <- app_assoc; auto|].
    right. reflexivity.
  - apply in_split in Hy. destruct Hy as (l3 & l4 & ->). exists l1, x, l3, y, l4. split; auto. left. reflexivity.
Qed.
Lemma sep_distinct : forall p c, sep p c -> fst c <> snd c.
Proof. intros p [x y] (_ & _ & u & v & _ & _ & X) E. cbn [fst snd] in E. subst. unfold crosses, inside in X. cbn [fst snd] in X. lia. Qed.
(** the rotation of a polygon that starts with a *)
Lemma turn : forall N pre a mid b post, cyc N (pre ++ a :: mid ++ b :: post) ->
  cyc N (a :: mid ++ b :: (post ++ pre)) /\
  (forall cs, good (pre ++ a :: mid ++ b :: post) cs <-> good (a :: mid ++ b :: (post ++ pre)) cs) /\
  cyc N (a :: mid ++ [b]) /\ cyc N (b :: (post ++ pre) ++ [a]).
Proof.
  intros N pre a mid b post C.
  assert (C1 : cyc N (a :: mid ++ b :: (post ++ pre))).
  { apply cyc_rotate in C. replace (a :: mid ++ b :: post ++ pre) with ((a :: mid ++ b :: post) ++ pre); auto.
    cbn [app]. rewrite <- app_assoc. reflexivity. }
  split; auto. split; [|split].
  - intro cs. split; apply good_incl; intros x; rewrite ?in_app_iff; cbn [In]; rewrite ?in_app_iff; cbn [In]; rewrite ?in_app_iff; tauto.
  - replace (a :: mid ++ b :: post ++ pre) with ((a :: mid ++ [b]) ++ (post ++ pre)) in C1.
    + apply cyc_sub in C1. tauto.
    + cbn [app]. rewrite <- app_assoc. reflexivity.
  - apply (cyc_rotate N (a :: mid) (b :: post ++ pre)) in C1.
    replace ((b :: post ++ pre) ++ a :: mid) with ((b :: (post ++ pre) ++ [a]) ++ mid) in C1.
    + apply cyc_sub in C1. tauto.
    + cbn [app]. rewrite <- app_assoc. reflexivity.
Qed.
(** at most n-3 chords *)
Lemma good_bound : forall m N p cs, length p <= m -> 3 <= length p -> cyc N p -> good p cs -> length cs <= length p - 3.
Proof.
  induction m as [|m IH]; intros N p cs Lm L3 C G; [lia|]. destruct cs as [|c cs]; [simpl; lia|].
  pose proof G as [S _]. inversion S as [|? ? Sc _]; subst. pose proof (sep_distinct _ _ Sc) as D.
  destruct Sc as (X & Y & _). destruct (cut_at p _ _ X Y D) as (pre & a & mid & b & post & -> & E).
  destruct c as [x y]. cbn [fst snd] in E.
  destruct (turn N pre a mid b post C) as (C1 & T & CA & CB). apply T in G.
  destruct (unsplit_good N a b mid (post ++ pre) (x, y) cs C1 E G) as (Nm & Nr & csA & csB & P & GA & GB).
  apply Permutation_length in P. rewrite app_length in P.
  assert (length mid <> 0) by (destruct mid; simpl; congruence).
  assert (length (post ++ pre) <> 0) by (destruct (post ++ pre); simpl; congruence).
  rewrite !app_length in *. cbn [length] in *. rewrite !app_length in *. cbn [length] in *.
  pose proof (fun l1 l2 => IH N _ csA l1 l2 CA GA) as HA. pose proof (fun l1 l2 => IH N _ csB l1 l2 CB GB) as HB.
  cbn [length] in HA, HB. repeat rewrite app_length in HA. repeat rewrite app_length in HB. cbn [length] in HA, HB.
  specialize (HA ltac:(lia) ltac:(lia)). specialize (HB ltac:(lia) ltac:(lia)). unfold chord in *. lia.
Qed.

(** ** the recursive splitting *)
Lemma gets_app : forall l i j x y, gets l i = Ok x -> gets l j = Ok y -> gets l (i ++ j) = Ok (x ++ y).
Proof.
  intros l i. induction i as [|a i IH]; intros j x y Hi Hj; cbn [gets app] in *; [inversion Hi; auto|].
  destruct (get l a) as [z| | |]; cbn [bind] in *; try discriminate.
  destruct (gets l i) as [zs| | |]; cbn [bind] in *; try discriminate. inversion Hi; subst.
  rewrite (IH j zs y eq_refl Hj). reflexivity.
Qed.
Lemma get_app : forall (pre : list nat) x post, get (pre ++ x :: post) (length pre) = Ok x.
Proof. intros. unfold get. rewrite nth_error_app2, Nat.sub_diag by lia. reflexivity. Qed.
Lemma gets_block : forall pre mid post s, length pre = s ->
  gets (pre ++ mid ++ post) (seq s (length mid)) = Ok mid.
Proof.
  intros pre mid. revert pre. induction mid as [|x mid IH]; intros pre post s H; [reflexivity|].
  cbn [length seq gets app]. rewrite <- H, get_app. cbn [bind].
  pose proof (IH (pre ++ [x]) post (S (length pre))) as I. rewrite <- app_assoc in I. cbn [app] in I.
  rewrite I by (rewrite app_length; simpl; lia). reflexivity.
Qed.
Lemma seq_map : forall s n, map (fun i => s + i) (seq 0 n) = seq s n.
Proof.
  intros s n. revert s. induction n as [|n IH]; intro s; [reflexivity|]. cbn [seq map]. rewrite Nat.add_0_r. f_equal.
  rewrite <- seq_shift, map_map. rewrite <- (IH (S s)). apply map_ext. intros. lia.
Qed.
Section WorkerStep.
Context (pre : list nat) (a : nat) (mid : list nat) (b : nat) (post : list nat).
Let p := pre ++ a :: mid ++ b :: post.
Lemma p_length : length p = length pre + length mid + length post + 2.
Proof. unfold p. rewrite app_length. cbn [length]. rewrite app_length. cbn [length]. lia. Qed.
Lemma daughterA : gets p (map (fun i => length pre + i) (seq 0 (length mid + 2))) = Ok (a :: mid ++ [b]).
Proof.
  rewrite seq_map. replace p with (pre ++ (a :: mid ++ [b]) ++ post).
  - replace (length mid + 2) with (length (a :: mid ++ [b])) by (cbn [length]; rewrite app_length; simpl; lia).
    apply gets_block. reflexivity.
  - unfold p. cbn [app]. rewrite <- app_assoc. reflexivity.
Qed.
Lemma daughterB : gets p (map (fun i => (length pre + length mid + 1 + i) mod length p) (seq 0 (length post + length pre + 2))) =
  Ok (b :: (post ++ pre) ++ [a]).
Proof.
  replace (length post + length pre + 2) with (length (b :: post) + length (pre ++ [a]))
    by (rewrite app_length; cbn [length]; lia).
  rewrite seq_app, map_app. replace (b :: (post ++ pre) ++ [a]) with ((b :: post) ++ (pre ++ [a]))
    by (cbn [app]; rewrite <- !app_assoc; reflexivity).
  pose proof p_length as PL. apply gets_app.
  - assert (E : map (fun i => (length pre + length mid + 1 + i) mod length p) (seq 0 (length (b :: post))) =
      seq (length (pre ++ a :: mid)) (length (b :: post))).
    { rewrite <- (seq_map (length (pre ++ a :: mid))). apply map_ext_in. intros i Hi. apply in_seq in Hi. cbn [length] in Hi.
      rewrite app_length. cbn [length]. rewrite Nat.mod_small; lia. }
    rewrite E. replace p with ((pre ++ a :: mid) ++ (b :: post) ++ []).
    + apply gets_block. reflexivity.
    + unfold p. rewrite app_nil_r, <- app_assoc. reflexivity.
  - assert (E : map (fun i => (length pre + length mid + 1 + i) mod length p) (seq (0 + length (b :: post)) (length (pre ++ [a]))) =
      seq 0 (length (pre ++ [a]))).
    { rewrite <- (seq_map (0 + length (b :: post))), map_map. rewrite <- (map_id (seq 0 (length (pre ++ [a])))) at 2.
      apply map_ext_in. intros i Hi. apply in_seq in Hi. rewrite app_length in Hi. cbn [length] in *.
      replace (length pre + length mid + 1 + (0 + S (length post) + i)) with (i + 1 * length p) by lia.
      rewrite Nat.mod_add by lia. apply Nat.mod_small. lia. }
    rewrite E. replace p with ([] ++ (pre ++ [a]) ++ (mid ++ b :: post)).
    + apply gets_block. reflexivity.
    + unfold p. cbn [app]. rewrite <- app_assoc. reflexivity.
Qed.
Lemma worker_step : forall fuel cap sys draws, mid <> [] -> post ++ pre <> [] ->
  random_worker (S fuel) cap sys p (length pre :: length mid - 1 :: draws) =
  (do sys <- store_chord cap sys (a, b);
   do r <- random_worker fuel cap sys (a :: mid ++ [b]) draws;
   random_worker fuel cap (fst r) (b :: (post ++ pre) ++ [a]) (snd r)).
Proof.
  intros fuel cap sys draws Nm Nr. pose proof p_length as PL.
  assert (length mid <> 0) by (destruct mid; simpl; congruence).
  assert (length post + length pre <> 0) by (rewrite <- app_length; destruct (post ++ pre); simpl; congruence).
  cbn [random_worker]. destruct (Nat.eqb_spec (length p) 3) as [E|_]; [lia|].
  unfold uniform_int at 1. destruct (length p - 2) as [|m] eqn:Em; [lia|].
  destruct (Nat.ltb_spec (length pre) (S m)) as [_|E]; [|lia]. cbn [bind fst snd].
  unfold uniform_int. destruct (length p - length pre - (if length pre =? 0 then 3 else 2)) as [|m2] eqn:Em2;
    [destruct (Nat.eqb_spec (length pre) 0); lia|].
  destruct (Nat.ltb_spec (length mid - 1) (S m2)) as [_|E]; [|destruct (Nat.eqb_spec (length pre) 0); lia].
  cbn [bind fst snd].
  replace (length pre + 2 + (length mid - 1)) with (length pre + length mid + 1) by lia.
  unfold p at 1. rewrite get_app. cbn [bind].
  assert (Gb : get p (length pre + length mid + 1) = Ok b).
  { unfold p. replace (pre ++ a :: mid ++ b :: post) with ((pre ++ a :: mid) ++ b :: post) by (rewrite <- app_assoc; reflexivity).
    replace (length pre + length mid + 1) with (length (pre ++ a :: mid)) by (rewrite app_length; cbn [length]; lia).
    apply get_app. }
  rewrite Gb. cbn [bind]. destruct (store_chord cap sys (a, b)) as [sys'| | |]; cbn [bind]; auto.
  replace (length p + 2 - (length p - (length pre + length mid + 1 - length pre - 1))) with (length mid + 2) by lia.
  replace (length p - (length pre + length mid + 1 - length pre - 1)) with (length post + length pre + 2) by lia.
  rewrite daughterA, daughterB. reflexivity.
Qed.
End WorkerStep.
Lemma worker_draws : forall fuel cap sys p draws r, 3 < length p -> random_worker (S fuel) cap sys p draws = r -> r <> Fuel ->
  exists pre a mid b post draws', p = pre ++ a :: mid ++ b :: post /\ mid <> [] /\ post ++ pre <> [] /\
    draws = length pre :: length mid - 1 :: draws'.
Proof.
  intros fuel cap sys p draws r L E NF. cbn [random_worker] in E.
  destruct (Nat.eqb_spec (length p) 3) as [K|_]; [lia|].
  unfold uniform_int at 1 in E. destruct (length p - 2) as [|m] eqn:Em; [lia|]. destruct draws as [|i draws]; [cbn in E; congruence|].
  destruct (Nat.ltb_spec i (S m)) as [Hi|K]; [|cbn in E; congruence]. cbn [bind fst snd] in E.
  unfold uniform_int in E. destruct (length p - i - (if i =? 0 then 3 else 2)) as [|m2] eqn:Em2;
    [destruct (Nat.eqb_spec i 0); lia|]. destruct draws as [|j draws]; [cbn in E; congruence|].
  destruct (Nat.ltb_spec j (S m2)) as [Hj|K]; [|cbn in E; congruence]. clear E NF r.
  assert (Lj : i + j + 2 < length p) by (destruct (Nat.eqb_spec i 0); lia).
  exists (firstn i p), (nth i p 0), (firstn (j + 1) (skipn (i + 1) p)), (nth (i + j + 2) p 0), (skipn (i + j + 3) p), draws.
  assert (Ep : p = firstn i p ++ nth i p 0 :: firstn (j + 1) (skipn (i + 1) p) ++ nth (i + j + 2) p 0 :: skipn (i + j + 3) p).
  { rewrite <- (firstn_skipn i p) at 1. f_equal.
    assert (S1 : forall k, k < length p -> skipn k p = nth k p 0 :: skipn (k + 1) p).
    { clear. intros k. revert p. induction k as [|k IH]; intros [|x p] H; simpl in *; try lia; auto. apply IH. lia. }
    rewrite S1 by lia. f_equal. rewrite <- (firstn_skipn (j + 1) (skipn (i + 1) p)) at 1. f_equal.
    assert (S2 : forall k l, skipn k (skipn l p) = skipn (l + k) p).
    { clear. intros k l. revert p. induction l as [|l IH]; intros p; [reflexivity|]. destruct p; simpl; auto. destruct k; auto. }
    rewrite S2. replace (i + 1 + (j + 1)) with (i + j + 2) by lia. rewrite S1 by lia. f_equal. f_equal. lia. }
  split; auto.
  assert (L1 : length (firstn i p) = i) by (rewrite firstn_length; lia).
  assert (L2 : length (firstn (j + 1) (skipn (i + 1) p)) = j + 1) by (rewrite firstn_length, skipn_length; lia).
  assert (L3 : length (skipn (i + j + 3) p) = length p - (i + j + 3)) by apply skipn_length.
  split; [intro Z; rewrite Z in L2; simpl in L2; lia|]. split.
  - intro Z. apply (f_equal (@length nat)) in Z. rewrite app_length, L1, L3 in Z. cbn [length] in Z.
    destruct (Nat.eqb_spec i 0); lia.
  - rewrite L1, L2. do 2 f_equal. lia.
Qed.

Lemma worker_good : forall fuel N cap sys p draws, cyc N p -> 3 <= length p <= fuel -> length sys + (length p - 3) <= cap ->
  match random_worker fuel cap sys p draws with
  | Ok (sys', draws') => exists cs, sys' = sys ++ cs /\ length cs = length p - 3 /\ good p cs
  | Fuel => True
  | Fail | UB => False
  end.
Proof.
  induction fuel as [|fuel IH]; intros N cap sys p draws C L Cap; [lia|].
  destruct (Nat.eq_dec (length p) 3) as [E3|N3].
  - cbn [random_worker]. rewrite E3. cbn [Nat.eqb]. exists []. rewrite app_nil_r. split; auto. split; [simpl; lia|].
    split; constructor.
  - assert (L4 : 3 < length p) by lia. destruct (random_worker (S fuel) cap sys p draws) as [[sys' draws']| | |] eqn:E; auto.
    all: destruct (worker_draws _ _ _ _ _ _ L4 E ltac:(discriminate)) as (pre & a & mid & b & post & dr & -> & Nm & Nr & ->).
    all: rewrite worker_step in E by auto.
    all: pose proof (p_length pre a mid b post) as PL; cbv zeta in PL.
    all: assert (length mid <> 0) by (destruct mid; simpl; congruence).
    all: assert (length post + length pre <> 0) by (rewrite <- app_length; destruct (post ++ pre); simpl; congruence).
    all: unfold store_chord in E; destruct (Nat.ltb_spec (length sys) cap) as [_|K]; [|lia]; cbn [bind] in E.
    all: destruct (turn N pre a mid b post C) as (C1 & T & CA & CB).
    all: unfold chord in *; pose proof (IH N cap (sys ++ [(a, b)]) (a :: mid ++ [b]) dr CA) as HA;
         cbn [length] in HA; repeat rewrite app_length in HA; cbn [length] in HA;
         specialize (HA ltac:(lia) ltac:(lia));
         destruct (random_worker fuel cap (sys ++ [(a, b)]) (a :: mid ++ [b]) dr) as [[sA dA]| | |] eqn:EA; try contradiction; cbn [bind fst snd] in E; try discriminate.
    all: destruct HA as (csA & -> & LA & GA).
    all: pose proof (IH N cap ((sys ++ [(a, b)]) ++ csA) (b :: (post ++ pre) ++ [a]) dA CB) as HB;
         cbn [length] in HB; repeat rewrite app_length in HB; cbn [length] in HB;
         specialize (HB ltac:(lia) ltac:(lia)); rewrite E in HB; try contradiction.
    destruct HB as (csB & -> & LB & GB). exists ((a, b) :: csA ++ csB).
    split; [rewrite <- !app_assoc; reflexivity|]. split; [cbn [length]; rewrite app_length; lia|].
    apply T. eapply split_good; eauto.
Qed.

Lemma f2_length : forall {A B} (R : A -> B -> Prop) l l', Forall2 R l l' -> length l = length l'.
Proof. induction 1; simpl; auto. Qed.
(** equal up to order and direction of the chords *)
Definition like (cs cs' : list chord) : Prop := exists cs'', Permutation cs cs'' /\ Forall2 same cs'' cs'.
Lemma worker_onto : forall m N p cs, length p <= m -> 3 <= length p -> cyc N p -> good p cs -> length cs = length p - 3 ->
  exists draws cs', like cs cs' /\
    forall fuel cap sys more, length p <= fuel -> length sys + (length p - 3) <= cap ->
      random_worker fuel cap sys p (draws ++ more) = Ok (sys ++ cs', more).
Proof.
  induction m as [|m IH]; intros N p cs Lm L3 C G Lc; [lia|].
  destruct cs as [|c cs].
  - exists [], []. split; [exists []; split; auto|]. intros fuel cap sys more Hf _. rewrite app_nil_r. cbn [app length] in *.
    destruct fuel; [lia|]. cbn [random_worker]. replace (length p) with 3 by lia. reflexivity.
  - pose proof G as [S _]. inversion S as [|? ? Sc _]; subst. pose proof (sep_distinct _ _ Sc) as D.
    destruct Sc as (X & Y & _). destruct (cut_at p _ _ X Y D) as (pre & a & mid & b & post & -> & E).
    destruct c as [x y]. cbn [fst snd] in E.
    destruct (turn N pre a mid b post C) as (C1 & T & CA & CB). apply T in G.
    destruct (unsplit_good N a b mid (post ++ pre) (x, y) cs C1 E G) as (Nm & Nr & csA & csB & P & GA & GB).
    pose proof (Permutation_length P) as PL. rewrite app_length in PL.
    assert (length mid <> 0) by (destruct mid; simpl; congruence).
    assert (length post + length pre <> 0) by (rewrite <- app_length; destruct (post ++ pre); simpl; congruence).
    pose proof (p_length pre a mid b post) as LP. cbv zeta in LP. rewrite LP in *.
    assert (LA : length (a :: mid ++ [b]) = length mid + 2) by (cbn [length]; rewrite app_length; simpl; lia).
    assert (LB : length (b :: (post ++ pre) ++ [a]) = length post + length pre + 2) by (cbn [length]; rewrite !app_length; simpl; lia).
    pose proof (good_bound _ N (a :: mid ++ [b]) csA (le_n _) ltac:(lia) CA GA) as BA.
    pose proof (good_bound _ N (b :: (post ++ pre) ++ [a]) csB (le_n _) ltac:(lia) CB GB) as BB.
    unfold chord in *. cbn [length] in Lc. rewrite LA in BA. rewrite LB in BB.
    destruct (IH N (a :: mid ++ [b]) csA ltac:(rewrite LA; lia) ltac:(lia) CA GA ltac:(rewrite LA; lia)) as (dA & csA' & (cA'' & PA & FA) & HA).
    destruct (IH N (b :: (post ++ pre) ++ [a]) csB ltac:(rewrite LB; lia) ltac:(lia) CB GB ltac:(rewrite LB; lia)) as (dB & csB' & (cB'' & PB & FB) & HB).
    exists (length pre :: length mid - 1 :: dA ++ dB), ((a, b) :: csA' ++ csB'). split.
    + exists ((x, y) :: cA'' ++ cB''). split.
      * apply perm_skip. etransitivity; [exact P|]. apply Permutation_app; auto.
      * constructor; auto. apply Forall2_app; auto.
    + intros fuel cap sys more Hf Hc. destruct fuel as [|fuel]; [lia|]. cbn [app]. rewrite worker_step by auto.
      unfold store_chord, chord in *. destruct (Nat.ltb_spec (length sys) cap) as [_|K]; [|lia]. cbn [bind].
      rewrite <- app_assoc. rewrite (HA fuel cap (sys ++ [(a, b)]) (dB ++ more)); cbn [bind fst snd].
      * rewrite (HB fuel cap ((sys ++ [(a, b)]) ++ csA') more).
        -- rewrite <- !app_assoc. reflexivity.
        -- rewrite LB. lia.
        -- rewrite LB, !app_length. cbn [length]. pose proof (f2_length _ _ _ FA). apply Permutation_length in PA.
           unfold chord in *. lia.
      * rewrite LA. lia.
      * rewrite LA, app_length. cbn [length]. unfold chord in *. lia.
Qed.

(** ** the whole polygon *)
Lemma cyc_seq : forall n, 1 <= n -> cyc n (seq 0 n).
Proof.
  intros n H. split; [apply Forall_forall; intros x Hx; apply in_seq in Hx; lia|]. exists 0. split; [lia|].
  assert (E : map (rot n 0) (seq 0 n) = seq 0 n).
  { rewrite <- (map_id (seq 0 n)) at 2. apply map_ext. intro x. unfold rot. cbn. lia. }
  rewrite E. generalize 0 as s. clear. induction n as [|n IH]; intro s; [constructor|]. cbn [seq]. constructor; auto.
  apply Forall_forall. intros x Hx. apply in_seq in Hx. lia.
Qed.
Lemma sep_diagonal : forall n c, sep (seq 0 n) c <-> diagonal n c.
Proof.
  intros n [x y]. unfold sep, diagonal. cbn [fst snd]. rewrite !in_seq.
  assert (M : forall z w, z < n -> w < n -> ((z + 1) mod n = w <-> z + 1 = w \/ (z + 1 = n /\ w = 0))).
  { intros z w Hz Hw. destruct (Nat.eq_dec (z + 1) n) as [E|E].
    - rewrite E, Nat.mod_same by lia. lia.
    - rewrite Nat.mod_small by lia. lia. }
  split.
  - intros (X & Y & u & v & Hu & Hv & K). rewrite in_seq in Hu, Hv. unfold crosses, meet, inside in K. cbn [fst snd] in K.
    split; [lia|]. split; [lia|]. rewrite !M by lia. lia.
  - intros (X & Y & NE & A & B). rewrite M in A by lia. rewrite M in B by lia.
    split; [lia|]. split; [lia|].
    assert (Q : exists u v, u < n /\ v < n /\ Nat.min x y < u < Nat.max x y /\ (v < Nat.min x y \/ Nat.max x y < v)).
    { exists (Nat.min x y + 1). destruct (Nat.eq_dec (Nat.min x y) 0) as [E|E].
      - exists (n - 1). lia.
      - exists 0. lia. }
    destruct Q as (u & v & Hu & Hv & I & O). exists u, v. rewrite !in_seq. split; [lia|]. split; [lia|].
    unfold crosses, meet, inside. cbn [fst snd]. lia.
Qed.
Lemma good_triangulation : forall n cs, 3 <= n -> (length cs = n - 3 /\ good (seq 0 n) cs <-> triangulation n cs).
Proof.
  intros n cs H. unfold triangulation, good. assert (E : Forall (sep (seq 0 n)) cs <-> Forall (diagonal n) cs).
  { rewrite !Forall_forall. split; intros F c Hc; apply sep_diagonal, F, Hc. }
  rewrite E. reflexivity.
Qed.

(** ** the spiral *)
Lemma cyc_head : forall N b l, cyc N (b :: l) -> StronglySorted lt (map (rot N b) (b :: l)).
Proof.
  intros N b l [F [t [Ht S]]]. rewrite Forall_forall in F.
  assert (Hb : b < N) by (apply F; simpl; auto).
  assert (M : forall x y, x < N -> y < N -> rot N t b <= rot N t x -> rot N t x < rot N t y -> rot N b x < rot N b y).
  { intros x y Hx Hy. unfold rot. destruct (Nat.leb_spec t b), (Nat.leb_spec t x), (Nat.leb_spec t y), (Nat.leb_spec b x), (Nat.leb_spec b y); lia. }
  assert (H0 : forall x, In x (b :: l) -> rot N t b <= rot N t x).
  { intros x [<-|Hx]; auto. cbn [map] in S. inversion S as [|? ? _ Fb]; subst. rewrite Forall_forall in Fb.
    apply (in_map (rot N t)) in Hx. apply Fb in Hx. lia. }
  revert F S H0 M. generalize (b :: l) as q. induction q as [|x q IH]; intros F S H0 M; [constructor|].
  cbn [map] in *. inversion S as [|? ? S' Fx]; subst. constructor.
  - apply IH; auto; [intros y Hy; apply F; simpl; auto|intros y Hy; apply H0; simpl; auto].
  - rewrite Forall_forall in *. intros z Hz. apply in_map_iff in Hz. destruct Hz as [y [<- Hy]].
    apply M; auto; [apply F; simpl; auto|apply F; simpl; auto|apply H0; simpl; auto|].
    apply Fx, in_map, Hy.
Qed.
Lemma scan_finds : forall n active i x, i < n -> x < n -> length active = n ->
  nth x active false = true ->
  forall fuel k, 1 <= k -> k <= rot n i x -> rot n i x < k + fuel ->
  (forall y, y < n -> nth y active false = true -> k <= rot n i y -> rot n i x <= rot n i y) ->
  scan fuel n active ((i + k) mod n) = Ok x.
Proof.
  intros n active i x Hi Hx La Ax. induction fuel as [|fuel IH]; intros k H1 Hk Hf Min; [lia|].
  assert (Hr : rot n i x < n) by (unfold rot; destruct (Nat.leb_spec i x); lia).
  set (y := (i + k) mod n).
  assert (Hy : y < n) by (apply Nat.mod_upper_bound; lia).
  assert (Ry : rot n i y = k).
  { unfold y. destruct (Nat.lt_ge_cases (i + k) n) as [L|L].
    - rewrite Nat.mod_small by auto. unfold rot. destruct (Nat.leb_spec i (i + k)); lia.
    - replace (i + k) with (i + k - n + 1 * n) by lia. rewrite Nat.mod_add by lia. rewrite Nat.mod_small by lia.
      unfold rot. destruct (Nat.leb_spec i (i + k - n)); lia. }
  cbn [scan]. fold y. unfold get. rewrite (nth_error_nth' active false) by lia. cbn [bind].
  destruct (nth y active false) eqn:Ey.
  - f_equal. apply (rot_inj n i); auto. pose proof (Min y Hy Ey). lia.
  - assert (k <> rot n i x) by (intro E; rewrite <- Ry in E; apply rot_inj in E; auto; congruence).
    replace ((y + 1) mod n) with ((i + (k + 1)) mod n).
    + apply IH; try lia. intros z Hz Az Hk'. apply Min; auto. lia.
    + unfold y. rewrite Nat.add_mod_idemp_l by lia. f_equal. lia.
Qed.
Lemma upd_nth : forall {A} (l : list A) i v j d, i < length l -> nth j (upd i v l) d = if j =? i then v else nth j l d.
Proof.
  induction l as [|x l IH]; intros [|i] v [|j] d H; simpl in *; try lia; auto. apply IH. lia.
Qed.
Lemma upd_len : forall {A} (l : list A) i v, length (upd i v l) = length l.
Proof. induction l; intros [|i] v; simpl; auto. Qed.
Lemma spiral_worker : forall m n rest i active cap sys fuel, length (i :: rest) = m + 3 -> cyc n (i :: rest) ->
  length active = n -> (forall y, y < n -> (nth y active false = true <-> In y (i :: rest))) ->
  length (i :: rest) <= fuel -> length sys + m <= cap ->
  exists cs, spiral_loop m n active i = Ok cs /\
    random_worker fuel cap sys (i :: rest) (repeat 0 (2 * m)) = Ok (sys ++ cs, []).
Proof.
  induction m as [|m IH]; intros n rest i active cap sys fuel L C La Act Hf Hc.
  - exists []. split; [reflexivity|]. destruct fuel; [lia|]. cbn [random_worker]. rewrite L. cbn. rewrite app_nil_r. reflexivity.
  - destruct rest as [|x [|y r]]; cbn [length] in L; try lia.
    pose proof C as [F _]. rewrite Forall_forall in F.
    assert (Hi : i < n) by (apply F; simpl; auto). assert (Hx : x < n) by (apply F; simpl; auto).
    assert (Hy : y < n) by (apply F; simpl; auto).
    pose proof (cyc_head _ _ _ C) as S0. cbn [map] in S0. inversion S0 as [|? ? S1 F1]; subst.
    inversion S1 as [|? ? S2 F2]; subst. inversion S2 as [|? ? S3 F3]; subst.
    set (n := length active) in *.
    assert (R0 : rot n i i = 0) by (unfold rot; rewrite Nat.leb_refl; lia). rewrite R0 in F1.
    rewrite Forall_forall in F1, F2, F3.
    assert (Rb : forall z, z < n -> rot n i z < n) by (intros z Hz; unfold rot; destruct (Nat.leb_spec i z); lia).
    assert (Rx : 1 <= rot n i x) by (pose proof (F1 _ (or_introl eq_refl)); lia).
    assert (Rxy : rot n i x < rot n i y) by (apply F2; simpl; auto).
    cbn [spiral_loop].
    rewrite (scan_finds n active i x); auto; try (pose proof (Rb x Hx); lia).
    2: { apply Act; simpl; auto. }
    2: { intros z Hz Az Kz. apply Act in Az; auto. destruct Az as [<-|[<-|[<-|Az]]]; try lia.
         assert (rot n i x < rot n i z) by (apply F2; simpl; auto using in_map). lia. }
    cbn [bind].
    assert (NE : x <> i /\ x <> y /\ ~ In x r).
    { split; [intros ->; lia|]. split; [intros ->; lia|]. intro K.
      assert (rot n i x < rot n i x) by (apply F2; simpl; auto using in_map). lia. }
    assert (Act' : forall z, z < n -> (nth z (upd x false active) false = true <-> In z (y :: r ++ [i]))).
    { intros z Hz. rewrite upd_nth by (fold n; auto). cbn [In]. rewrite in_app_iff. cbn [In].
      destruct (Nat.eqb_spec z x) as [->|Nz].
      - split; [discriminate|]. intros [E|[E|[E|[]]]]; exfalso; intuition congruence.
      - rewrite Act by auto. cbn [In]. intuition congruence. }
    rewrite (scan_finds n (upd x false active) x y); auto.
    2: { rewrite upd_len. reflexivity. }
    2: { apply Act'; simpl; auto. }
    2: { assert (x <> y) by tauto. unfold rot in *. destruct (Nat.leb_spec x y); lia. }
    2: { unfold rot. destruct (Nat.leb_spec x y); lia. }
    2: { intros z Hz Az Kz. apply Act' in Az; auto.
         assert (Q : z = y \/ z = i \/ rot n i y < rot n i z).
         { cbn [In] in Az. rewrite in_app_iff in Az. cbn [In] in Az. destruct Az as [Az|[Az|[Az|[]]]]; auto.
           right. right. apply F3, in_map, Az. }
         unfold rot in *. destruct Q as [->|[->|Q]]; [lia| |];
           repeat match goal with _ : context [?u <=? ?v] |- _ => destruct (Nat.leb_spec u v) | |- context [?u <=? ?v] => destruct (Nat.leb_spec u v) end; lia. }
    cbn [bind].
    assert (CB : cyc n (y :: r ++ [i])).
    { destruct (turn n [] i [x] y r C) as (_ & _ & _ & CB). rewrite app_nil_r in CB. exact CB. }
    destruct fuel as [|fuel]; [cbn [length] in Hf; lia|].
    destruct (IH n (r ++ [i]) y (upd x false active) cap (sys ++ [(i, y)]) fuel) as (cs & E1 & E2); auto.
    { cbn [length]. rewrite app_length. cbn [length]. lia. }
    { rewrite upd_len. reflexivity. }
    { cbn [length] in *. rewrite app_length. cbn [length]. lia. }
    { rewrite app_length. cbn [length]. unfold chord in *. lia. }
    exists ((i, y) :: cs). rewrite E1. cbn [bind]. split; auto.
    replace (2 * S m) with (S (S (2 * m))) by lia. cbn [repeat].
    pose proof (worker_step [] i [x] y r fuel cap sys (repeat 0 (2 * m))) as W. cbn [length app Nat.sub] in W.
    rewrite W; [|discriminate|rewrite app_nil_r; destruct r; [cbn [length] in L; lia|discriminate]].
    unfold store_chord. destruct (Nat.ltb_spec (length sys) cap) as [_|K]; [|unfold chord in *; lia]. cbn [bind].
    destruct fuel as [|fuel]; [cbn [length] in Hf; lia|]. cbn [random_worker length Nat.eqb bind fst snd].
    rewrite app_nil_r. change (random_worker (S fuel) cap (sys ++ [(i, y)]) (y :: r ++ [i]) (repeat 0 (2 * m)) = Ok (sys ++ (i, y) :: cs, [])).
    rewrite E2. rewrite <- app_assoc. reflexivity.
Qed.
