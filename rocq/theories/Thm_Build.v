(** C64: the functions that build families of diagrams build the diagrams they are named after. *)
From Coq Require Import List ZArith Bool Arith Lia.
From Verif Require Import Base Iterators Pd PdSpec PdEdges PdComps PdFaces PdHash PdRegen PdOps Relabel RelabelProofs Planar RegenSpec RegenProofs Thm_Comps OverUnder OverUnderSpec Thm_OverUnder Moves
  Build BuildSpec Layout Table BuildTorus BuildTwist BuildPlait BuildChain BuildAlt.
Import ListNotations.
Open Scope nat_scope.

(** each place of the [n] crossings is at the end of one of the listed edges, and no other places are *)
Definition covers (n : nat) (w : list ((nat * nat) * (nat * nat))) : Prop :=
  (forall c p, c < n -> p < 4 -> exists t, In ((c, p), t) w \/ In (t, (c, p)) w) /\
  (forall s t, In (s, t) w -> (fst s < n /\ snd s < 4) /\ (fst t < n /\ snd t < 4)).

(** *** every place is listed *)
Lemma torus_covers : forall q, 2 <= q -> covers q (torus_wires q).
Proof.
  intros q Hq. split.
  - intros c p Hc Hp. assert (A : forall x, In x (torus_wires q) <-> exists i, i < q /\ (x = ((i, 0), ((i + 1) mod q, 1)) \/ x = ((i, 3), ((i + 1) mod q, 2)))).
    { intros x. unfold torus_wires. rewrite in_flat_map. split; intros (i & I & H); exists i; rewrite in_seq in *; cbn in *; [intuition auto; lia|]. split; [lia|]. intuition auto. }
    assert (Z : exists i, i < q /\ (i + 1) mod q = c).
    { destruct c as [|c]; [exists (q - 1); split; [lia|]; replace (q - 1 + 1) with q by lia; apply Nat.mod_same; lia|]. exists c. split; [lia|]. rewrite Nat.mod_small; lia. }
    destruct Z as (i & Hi & Z). destruct (small4 p Hp) as [->|[->|[->| ->]]].
    + eexists. left. apply A. exists c. split; auto.
    + exists (i, 0). right. apply A. exists i. rewrite Z. auto.
    + exists (i, 3). right. apply A. exists i. rewrite Z. auto.
    + eexists. left. apply A. exists c. split; auto.
  - intros s t I. unfold torus_wires in I. apply in_flat_map in I as (i & I & [H|[H|[]]]); apply in_seq in I; apply pair_equal_spec in H as (<- & <-); cbn [fst snd]; pose proof (Nat.mod_upper_bound (i + 1) q); lia.
Qed.
Lemma in_ladder : forall a k x, In x (ladder a k) <-> exists i, a <= i < a + k /\ (x = ((i, 3), (i + 1, 0)) \/ x = ((i, 2), (i + 1, 1))).
Proof.
  intros a k x. unfold ladder. rewrite in_flat_map. split; intros (i & I & H); exists i; rewrite in_seq in *; cbn in *; [intuition auto; lia|]. split; [lia|]. intuition auto.
Qed.
(** the wires of a ladder run over the places between its ends *)
Lemma ladder_covers : forall a k c p, a <= c <= a + k -> p < 4 -> (c = a -> 2 <= p) -> (c = a + k -> p < 2) -> exists t, In ((c, p), t) (ladder a k) \/ In (t, (c, p)) (ladder a k).
Proof.
  intros a k c p Hc Hp L1 L2. destruct (small4 p Hp) as [->|[->|[->| ->]]].
  - exists (c - 1, 3). right. apply in_ladder. exists (c - 1). split; [lia|]. left. repeat f_equal. lia.
  - exists (c - 1, 2). right. apply in_ladder. exists (c - 1). split; [lia|]. right. repeat f_equal. lia.
  - exists (c + 1, 1). left. apply in_ladder. exists c. split; [lia|]. auto.
  - exists (c + 1, 0). left. apply in_ladder. exists c. split; [lia|]. auto.
Qed.
Lemma plait_covers : forall n, covers (n + 1) (plait_wires n).
Proof.
  intros n. unfold plait_wires. split.
  - intros c p Hc Hp. assert (A : (c = 0 /\ p < 2) \/ (c = n /\ 2 <= p) \/ ((c = 0 -> 2 <= p) /\ (c = n -> p < 2))) by lia.
    destruct A as [(-> & L)|[(-> & L)|(L1 & L2)]].
    + destruct p as [|[|p]]; [exists (0, 1); left|exists (0, 0); right|lia]; apply in_or_app; right; left; reflexivity.
    + assert (p = 2 \/ p = 3) as [-> | ->] by lia; [exists (n, 3); left|exists (n, 2); right]; apply in_or_app; right; right; left; reflexivity.
    + destruct (ladder_covers 0 n c p ltac:(lia) Hp L1 L2) as (t & I). exists t. destruct I; [left|right]; apply in_or_app; auto.
  - intros s t I. apply in_app_or in I as [I|[I|[I|[]]]]; [apply in_ladder in I as (i & Hi & [I|I])| |]; apply pair_equal_spec in I as (Q1 & Q2); subst; cbn [fst snd]; lia.
Qed.
Lemma twist_covers : forall n, 1 <= n -> covers (n + 2) (twist_wires n).
Proof.
  intros n Hn. unfold twist_wires. split.
  - intros c p Hc Hp.
    assert (A : c = 0 \/ c = 1 \/ (c = 2 /\ p < 2) \/ (c = n + 1 /\ 2 <= p) \/ (2 <= c /\ (c = 2 -> 2 <= p) /\ (c = 2 + (n - 1) -> p < 2))) by lia.
    assert (K : forall s t, In (s, t) [((0, 0), (1, 0)); ((0, 1), (1, 3)); ((0, 2), (2, 0)); ((1, 2), (2, 1)); ((0, 3), (n + 1, 3)); ((1, 1), (n + 1, 2))] ->
      In (s, t) (ladder 2 (n - 1) ++ [((0, 0), (1, 0)); ((0, 1), (1, 3)); ((0, 2), (2, 0)); ((1, 2), (2, 1)); ((0, 3), (n + 1, 3)); ((1, 1), (n + 1, 2))])) by (intros; apply in_or_app; auto).
    destruct A as [-> |[-> |[(-> & L)|[(-> & L)|(L0 & L1 & L2)]]]].
    + destruct (small4 p Hp) as [->|[->|[->| ->]]]; eexists; left; apply K; cbn; eauto 10.
    + destruct (small4 p Hp) as [->|[->|[->| ->]]]; eexists; [right|left|left|right]; apply K; cbn; eauto 10.
    + assert (p = 0 \/ p = 1) as [-> | ->] by lia; eexists; right; apply K; cbn; eauto 10.
    + assert (p = 2 \/ p = 3) as [-> | ->] by lia; eexists; right; apply K; cbn; eauto 10.
    + destruct (ladder_covers 2 (n - 1) c p ltac:(lia) Hp L1 L2) as (t & I). exists t. destruct I; [left|right]; apply in_or_app; auto.
  - intros s t I. apply in_app_or in I as [I|I]; [apply in_ladder in I as (i & Hi & [I|I])|cbn in I; repeat destruct I as [I|I]; [..|destruct I]]; apply pair_equal_spec in I as (Q1 & Q2); subst; cbn [fst snd]; lia.
Qed.
Lemma chain_covers : forall n, 2 <= n -> covers (2 * (n - 1)) (chain_wires n).
Proof.
  intros n Hn. unfold chain_wires. split.
  - intros c p Hc Hp. assert (A : exists i, i < n - 1 /\ (c = 2 * i \/ c = 2 * i + 1)) by (exists (c / 2); pose proof (Nat.div_mod c 2); pose proof (Nat.mod_upper_bound c 2); lia).
    destruct A as (i & Hi & A).
    assert (K1 : forall s t, (s, t) = ((2 * i, 1), (2 * i + 1, 3)) \/ (s, t) = ((2 * i, 2), (2 * i + 1, 2)) -> In (s, t) (chain_wires n)).
    { intros s t H. apply in_or_app. left. apply in_flat_map. exists i. split; [apply in_seq; lia|]. destruct H as [H|H]; rewrite <- H; [left|right; left]; auto. }
    assert (K2 : forall j s t, j < n - 2 -> (s, t) = ((2 * j, 3), (2 * j + 2, 0)) \/ (s, t) = ((2 * j + 1, 1), (2 * j + 3, 0)) -> In (s, t) (chain_wires n)).
    { intros j s t Hj H. apply in_or_app. right. apply in_or_app. left. apply in_flat_map. exists j. split; [apply in_seq; lia|]. destruct H as [H|H]; rewrite <- H; [left|right; left]; auto. }
    assert (K3 : forall s t, (s, t) = ((0, 0), (1, 0)) \/ (s, t) = ((2 * (n - 2), 3), (2 * (n - 2) + 1, 1)) -> In (s, t) (chain_wires n)).
    { intros s t H. apply in_or_app. right. apply in_or_app. right. destruct H as [H|H]; rewrite <- H; [left|right; left]; auto. }
    destruct (small4 p Hp) as [->|[->|[->| ->]]].
    + destruct i as [|i]; [|destruct A as [-> | ->]].
      * destruct A as [-> | ->]; [exists (1, 0); left|exists (0, 0); right]; apply K3; auto.
      * exists (2 * i, 3). right. apply (K2 i); [lia|]. left. replace (2 * S i) with (2 * i + 2) by lia. reflexivity.
      * exists (2 * i + 1, 1). right. apply (K2 i); [lia|]. right. replace (2 * S i + 1) with (2 * i + 3) by lia. reflexivity.
    + destruct A as [-> | ->]; [exists (2 * i + 1, 3); left; apply K1; auto|].
      destruct (Nat.eq_dec i (n - 2)) as [-> |N]; [exists (2 * (n - 2), 3); right; apply K3; auto|exists (2 * i + 3, 0); left; apply (K2 i); [lia|auto]].
    + destruct A as [-> | ->]; [exists (2 * i + 1, 2); left|exists (2 * i, 2); right]; apply K1; auto.
    + destruct A as [-> | ->]; [|exists (2 * i, 1); right; apply K1; auto].
      destruct (Nat.eq_dec i (n - 2)) as [-> |N]; [exists (2 * (n - 2) + 1, 1); left; apply K3; auto|exists (2 * i + 2, 0); left; apply (K2 i); [lia|auto]].
  - intros s t I. apply in_app_or in I as [I|I]; [|apply in_app_or in I as [I|I]].
    + apply in_flat_map in I as (i & Ii & [I|[I|[]]]); apply in_seq in Ii; apply pair_equal_spec in I as (Q1 & Q2); subst; cbn [fst snd]; lia.
    + apply in_flat_map in I as (i & Ii & [I|[I|[]]]); apply in_seq in Ii; apply pair_equal_spec in I as (Q1 & Q2); subst; cbn [fst snd]; lia.
    + destruct I as [I|[I|[]]]; apply pair_equal_spec in I as (Q1 & Q2); subst; cbn [fst snd]; lia.
Qed.

(** *** over and under *)
Lemma built_alternates : forall x m k w, built_as x m k w -> covers m w ->
  exists d D, x = Ok d /\
    (forall s t, In (s, t) w -> D (fst s) (snd s) = negb (D (fst t) (snd t))) /\
    (forall c p, c < m -> p < 4 -> D c ((p + 2) mod 4) = negb (D c p)) /\
    (alternates d <-> forall s t, In (s, t) w -> ov D s = negb (ov D t)) /\
    exists b, pd_is_alternating d = Ok b /\ (b = true <-> alternates d).
Proof.
  intros x m k w (d & E & Rg & _ & _ & _ & PS & SH) (CV & WP).
  pose proof (rg_recorded _ Rg) as R. pose proof (rg_through _ Rg) as G. pose proof (rg_ends _ Rg) as T. pose proof (comps_partition d (rg_comps _ Rg)) as P.
  destruct (alternates_shape d R G T P PS m w SH CV WP) as (D & D1 & D2 & D3). exists d, D. split; auto. split; auto. split; auto. split; auto.
  apply (is_alternating_correct d R G T P). intros c s S Q. apply PS in S. congruence.
Qed.
Ltac bits D :=
  repeat match goal with H : context [D ?a ?b] |- _ => revert H end;
  repeat match goal with |- context [D ?a ?b] => generalize (D a b) end;
  clear; intros; subst; repeat match goal with b : bool |- _ => destruct b end; cbn in *; try discriminate; auto.
Lemma torus_alternates : forall q, 2 <= q -> exists d, pd_build_torus_knot 2 q = Ok d /\ alternates d /\ pd_is_alternating d = Ok true.
Proof.
  intros q Hq. destruct (built_alternates _ _ _ _ (torus_ok q Hq) (torus_covers q Hq)) as (d & D & E & W & A & AL & b & Eb & Hb).
  assert (AA : alternates d).
  { apply AL. intros s t I. assert (J := I). unfold torus_wires in J. apply in_flat_map in J as (i & Ii & J). apply in_seq in Ii.
    assert (W1 := W (i, 0) ((i + 1) mod q, 1) ltac:(apply in_flat_map; exists i; split; [apply in_seq; lia|left; auto])).
    assert (W2 := W (i, 3) ((i + 1) mod q, 2) ltac:(apply in_flat_map; exists i; split; [apply in_seq; lia|right; left; auto])).
    assert (Hi : i < q) by lia. assert (Hi' : (i + 1) mod q < q) by (apply Nat.mod_upper_bound; lia).
    pose proof (A i 0 Hi ltac:(lia)) as A0. pose proof (A i 1 Hi ltac:(lia)) as A1. pose proof (A _ 0 Hi' ltac:(lia)) as B0. pose proof (A _ 1 Hi' ltac:(lia)) as B1.
    unfold ov. cbn [fst snd] in *. revert J W1 W2 B0 B1. generalize ((i + 1) mod q). intros j J W1 W2 B0 B1. cbn in A0, A1, B0, B1.
    destruct J as [J|[J|[]]]; apply pair_equal_spec in J as (<- & <-); cbn; bits D. }
  exists d. split; auto. split; auto. rewrite Eb. f_equal. apply Hb. auto.
Qed.
Lemma ladder_flow : forall (D : nat -> nat -> bool) a k m, a + k < m ->
  (forall s t, In (s, t) (ladder a k) -> D (fst s) (snd s) = negb (D (fst t) (snd t))) ->
  (forall c p, c < m -> p < 4 -> D c ((p + 2) mod 4) = negb (D c p)) ->
  forall s t, In (s, t) (ladder a k) -> ov D s = negb (ov D t).
Proof.
  intros D a k m M W A s t I. apply in_ladder in I as (i & Hi & J).
  assert (W1 := W (i, 3) (i + 1, 0) ltac:(apply in_ladder; eauto)). assert (W2 := W (i, 2) (i + 1, 1) ltac:(apply in_ladder; eauto)).
  pose proof (A i 0 ltac:(lia) ltac:(lia)) as A0. pose proof (A i 1 ltac:(lia) ltac:(lia)) as A1. pose proof (A (i + 1) 0 ltac:(lia) ltac:(lia)) as B0. pose proof (A (i + 1) 1 ltac:(lia) ltac:(lia)) as B1.
  unfold ov. cbn [fst snd] in *. cbn [Nat.modulo Nat.divmod Nat.add fst snd Nat.sub] in A0, A1, B0, B1. revert J W1 W2 B0 B1. generalize (i + 1). intros j J W1 W2 B0 B1. cbn in A0, A1, B0, B1.
  destruct J as [J|J]; apply pair_equal_spec in J as (-> & ->); cbn; bits D.
Qed.
Lemma unknot_alternates : forall n, 2 <= n -> exists d, pd_build_unknot n = Ok d /\ alternates d /\ pd_is_alternating d = Ok true.
Proof.
  intros n Hn. pose proof (plait_covers (n - 1)) as CV. replace (n - 1 + 1) with n in CV by lia.
  destruct (built_alternates _ _ _ _ (plait_ok n Hn) CV) as (d & D & E & W & A & AL & b & Eb & Hb).
  assert (AA : alternates d).
  { apply AL. intros s t I. unfold plait_wires in I. apply in_app_or in I as [I|I].
    - apply (ladder_flow D 0 (n - 1) n); auto; [lia|]. intros x y J. apply W. apply in_or_app. auto.
    - assert (W1 := W (0, 0) (0, 1) ltac:(apply in_or_app; right; left; auto)). assert (W2 := W (n - 1, 2) (n - 1, 3) ltac:(apply in_or_app; right; right; left; auto)).
      pose proof (A 0 0 ltac:(lia) ltac:(lia)) as A0. pose proof (A 0 1 ltac:(lia) ltac:(lia)) as A1. pose proof (A (n - 1) 0 ltac:(lia) ltac:(lia)) as B0. pose proof (A (n - 1) 1 ltac:(lia) ltac:(lia)) as B1.
      revert I W1 W2 B0 B1. generalize (n - 1). intros j J W1 W2 B0 B1. cbn in A0, A1, B0, B1, W1, W2. unfold ov.
      destruct J as [J|[J|[]]]; apply pair_equal_spec in J as (<- & <-); cbn; bits D. }
  exists d. split; auto. split; auto. rewrite Eb. f_equal. apply Hb. auto.
Qed.
Lemma twist_alternates : forall n, 1 <= n -> exists d, pd_build_twist_knot n = Ok d /\ (alternates d <-> Nat.odd n = true) /\ pd_is_alternating d = Ok (Nat.odd n).
Proof.
  intros n Hn. destruct (built_alternates _ _ _ _ (twist_ok n Hn) (twist_covers n Hn)) as (d & D & E & W & A & AL & b & Eb & Hb).
  assert (AA : alternates d <-> Nat.odd n = true).
  { rewrite AL. clear AL Hb Eb E.
    set (T := [((0, 0), (1, 0)); ((0, 1), (1, 3)); ((0, 2), (2, 0)); ((1, 2), (2, 1)); ((0, 3), (n + 1, 3)); ((1, 1), (n + 1, 2))]) in *.
    assert (WT : forall s t, In (s, t) T -> D (fst s) (snd s) = negb (D (fst t) (snd t))) by (intros s t J; apply W; apply in_or_app; auto).
    assert (W1 := WT (0, 0) (1, 0) ltac:(cbn; auto 10)). assert (W2 := WT (0, 1) (1, 3) ltac:(cbn; auto 10)). assert (W3 := WT (0, 2) (2, 0) ltac:(cbn; auto 10)).
    assert (W4 := WT (1, 2) (2, 1) ltac:(cbn; auto 10)). assert (W5 := WT (0, 3) (n + 1, 3) ltac:(cbn; auto 10)). assert (W6 := WT (1, 1) (n + 1, 2) ltac:(cbn; auto 10)).
    cbn [fst snd] in *.
    assert (A0 : forall c, c < n + 2 -> D c 2 = negb (D c 0)) by (intros c Hc; exact (A c 0 Hc ltac:(lia))).
    assert (A1 : forall c, c < n + 2 -> D c 3 = negb (D c 1)) by (intros c Hc; exact (A c 1 Hc ltac:(lia))).
    (* along the twisted part *)
    assert (L : forall k, k <= n - 1 -> D (2 + k) 0 = xorb (Nat.odd k) (D 0 0) /\ D (2 + k) 1 = negb (D (2 + k) 0)).
    { pose proof (A0 0 ltac:(lia)). pose proof (A0 1 ltac:(lia)). pose proof (A0 2 ltac:(lia)).
      induction k as [|k IH]; intros Hk.
      - cbn. clear A0 A1 W5 W6. bits D.
      - destruct (IH ltac:(lia)) as (I1 & I2).
        assert (U1 := W (2 + k, 3) (2 + k + 1, 0) ltac:(apply in_or_app; left; apply in_ladder; exists (2 + k); split; [lia|auto])).
        assert (U2 := W (2 + k, 2) (2 + k + 1, 1) ltac:(apply in_or_app; left; apply in_ladder; exists (2 + k); split; [lia|auto])).
        cbn [fst snd] in *. replace (2 + S k) with (2 + k + 1) by lia. rewrite Nat.odd_succ, <- Nat.negb_odd. pose proof (A0 (2 + k) ltac:(lia)) as V0. pose proof (A1 (2 + k) ltac:(lia)) as V1.
        rewrite V1, I2 in U1. rewrite V0 in U2. revert U1 U2 I1. generalize (D (2 + k) 0) (D (2 + k + 1) 0) (D (2 + k + 1) 1) (Nat.odd k) (D 0 0). intros [|] [|] [|] [|] [|]; cbn; intros; try congruence; auto. }
    destruct (L (n - 1) ltac:(lia)) as (L1 & L2). replace (2 + (n - 1)) with (n + 1) in L1, L2 by lia.
    assert (O : Nat.odd (n - 1) = negb (Nat.odd n)) by (destruct n as [|n']; [lia|]; cbn [Nat.sub]; rewrite Nat.sub_0_r, Nat.odd_succ, <- Nat.negb_odd, negb_involutive; auto).
    rewrite O in L1. pose proof (A0 0 ltac:(lia)) as X0. pose proof (A0 1 ltac:(lia)) as X1. pose proof (A0 2 ltac:(lia)) as X2. pose proof (A0 (n + 1) ltac:(lia)) as X3.
    pose proof (A1 0 ltac:(lia)) as Y0. pose proof (A1 1 ltac:(lia)) as Y1. pose proof (A1 2 ltac:(lia)) as Y2. pose proof (A1 (n + 1) ltac:(lia)) as Y3. destruct (L 0 ltac:(lia)) as (L3 & L4). cbn [Nat.add] in L3, L4. cbn [Nat.odd Nat.even negb xorb] in L3. clear A0 A1 L O.
    split.
    - intros H. assert (Q := H (0, 2) (2, 0) ltac:(apply in_or_app; right; cbn; auto 10)). unfold ov in Q. cbn in Q. clear H W A WT T.
      revert W5 L1 L2 X3 Y3 W6. generalize (n + 1) (Nat.odd n). intros j o W5 L1 L2 X3 Y3 W6. destruct o; auto. exfalso. bits D.
    - intros Q s t I. apply in_app_or in I as [I|I].
      + apply (ladder_flow D 2 (n - 1) (n + 2)); auto; [lia|]. intros x y J. apply W. apply in_or_app. auto.
      + rewrite Q in L1. clear W A WT. subst T. revert I W5 L1 L2 X3 Y3 W6. generalize (n + 1). intros j I W5 L1 L2 X3 Y3 W6. unfold ov.
        destruct I as [J|[J|[J|[J|[J|[J|[]]]]]]]; apply pair_equal_spec in J as (<- & <-); cbn; bits D. }
  exists d. split; auto. split; auto. rewrite Eb. f_equal. destruct b, (Nat.odd n); try reflexivity; exfalso; [assert (X : alternates d) by (apply Hb; auto); apply AA in X; discriminate|assert (X : alternates d) by (apply AA; auto); apply Hb in X; discriminate].
Qed.

(** ** The statements *)

(** the listed edges are as many as a diagram has, and they use every place, so each place is listed once *)
Theorem wires_complete :
  (forall q, 2 <= q -> covers q (torus_wires q) /\ length (torus_wires q) = 2 * q) /\
  (forall n, 1 <= n -> covers (n + 2) (twist_wires n) /\ length (twist_wires n) = 2 * (n + 2)) /\
  (forall n, covers (n + 1) (plait_wires n) /\ length (plait_wires n) = 2 * (n + 1)) /\
  (forall n, 2 <= n -> covers (2 * (n - 1)) (chain_wires n) /\ length (chain_wires n) = 2 * (2 * (n - 1))).
Proof.
  assert (F : forall (A : Type) (a b : nat -> A) l, length (flat_map (fun i => [a i; b i]) l) = 2 * length l) by (intros A a b l; induction l as [|x l IH]; cbn in *; lia).
  assert (L : forall a k, length (ladder a k) = 2 * k) by (intros a k; unfold ladder; rewrite F, seq_length; auto).
  split; [|split; [|split]].
  - intros q Hq. split; [apply torus_covers; auto|]. unfold torus_wires. rewrite F, seq_length. auto.
  - intros n Hn. split; [apply twist_covers; auto|]. unfold twist_wires. rewrite app_length, L. cbn [length]. lia.
  - intros n. split; [apply plait_covers; auto|]. unfold plait_wires. rewrite app_length, L. cbn [length]. lia.
  - intros n Hn. split; [apply chain_covers; auto|]. unfold chain_wires. rewrite !app_length, !F, !seq_length. cbn [length]. lia.
Qed.

(** pd_build_torus_knot *)
Theorem torus_built : forall q, 2 <= q -> built_as (pd_build_torus_knot 2 q) q (if Nat.even q then 2 else 1) (torus_wires q) /\
  exists d, pd_build_torus_knot 2 q = Ok d /\ alternates d /\ pd_is_alternating d = Ok true.
Proof. intros q Hq. split; [exact (torus_ok q Hq)|apply torus_alternates; auto]. Qed.
Theorem torus_refused : forall p q, p <> 2 \/ q < 2 -> pd_build_torus_knot p q = Fail.
Proof.
  intros p q H. unfold pd_build_torus_knot. destruct (Nat.eqb_spec p 2) as [->|N]; [|reflexivity]. destruct H as [H|H]; [lia|]. destruct (Nat.ltb_spec q 2); [reflexivity|lia].
Qed.

(** pd_build_twist_knot *)
Theorem twist_built : forall n, 1 <= n -> built_as (pd_build_twist_knot n) (n + 2) 1 (twist_wires n) /\
  exists d, pd_build_twist_knot n = Ok d /\ (alternates d <-> Nat.odd n = true) /\ pd_is_alternating d = Ok (Nat.odd n).
Proof. intros n Hn. split; [exact (twist_ok n Hn)|apply twist_alternates; auto]. Qed.
Theorem twist_refused : pd_build_twist_knot 0 = Fail.
Proof. reflexivity. Qed.
(** The twist knots have alternating diagrams; the program gives all crossings the positive sign, with which the diagram
    with an even number of twists does not alternate. *)
Theorem twist_even_refuted : forall n, 1 <= n -> Nat.even n = true -> exists d, pd_build_twist_knot n = Ok d /\ ~ alternates d /\ pd_is_alternating d = Ok false.
Proof.
  intros n Hn E. destruct (twist_alternates n Hn) as (d & Ed & A & B). rewrite <- Nat.negb_even, E in A, B. exists d. split; auto. split; auto. intros X. apply A in X. discriminate.
Qed.

(** pd_build_unknot *)
Theorem unknot_built : forall n, 2 <= n -> built_as (pd_build_unknot n) n 1 (plait_wires (n - 1)) /\
  exists d, pd_build_unknot n = Ok d /\ alternates d /\ pd_is_alternating d = Ok true.
Proof. intros n Hn. split; [exact (plait_ok n Hn)|apply unknot_alternates; auto]. Qed.
Theorem unknot_small : (exists d, pd_build_unknot 0 = Ok d /\ ncross d = 0 /\ ncomps d = 1 /\ pd_ok d = Ok true) /\
  exists d, pd_build_unknot 1 = Ok d /\ ncomps d = 1 /\ pd_ok d = Ok true /\ shaped d 1 (plait_wires 0).
Proof.
  split.
  - assert (Q : exists d, pd_build_unknot 0 = Ok d /\ ncross d = 0 /\ ncomps d = 1 /\ pd_ok d = Ok true); [|exact Q].
    eexists. split; [vm_compute; reflexivity|]. split; [reflexivity|]. split; [reflexivity|]. vm_compute. reflexivity.
  - assert (Q : exists d, pd_build_unknot 1 = Ok d /\ ncomps d = 1 /\ pd_ok d = Ok true /\ p_cross d = p_cross unknot1).
    { eexists. split; [vm_compute; reflexivity|]. split; [reflexivity|]. split; [vm_compute; reflexivity|reflexivity]. }
    destruct Q as (d & E & B & K & C). exists d. split; auto. split; auto. split; auto. split; [unfold ncross; rewrite C; reflexivity|].
    exists (fun c => c), (fun _ => 0). split; [split; auto|]. split; [lia|]. unfold wire, slot. rewrite C.
    intros s t [I|[I|[]]]; apply pair_equal_spec in I as (<- & <-); cbn; (split; [let Q := fresh in intros Q; vm_compute in Q; discriminate Q|]); eexists; split; (split; [lia|]); eexists; split; reflexivity.
Qed.

(** pd_build_simple_chain *)
Theorem chain_built : forall n, 3 <= n -> n <= 64 -> built_as (pd_build_simple_chain n) (2 * (n - 1)) n (chain_wires n).
Proof. exact chain_ok. Qed.
Theorem chain_small : pd_build_simple_chain 0 = Fail /\ pd_build_simple_chain 1 = pd_build_unknot 0 /\
  exists d, pd_build_simple_chain 2 = Ok d /\ ncomps d = 2 /\ pd_ok d = Ok true /\ (forall c s, sign_at d c s -> s = Pos) /\ shaped d 2 (chain_wires 2).
Proof.
  split; [reflexivity|]. split; [reflexivity|].
  assert (Q : exists d, pd_build_simple_chain 2 = Ok d /\ ncomps d = 2 /\ pd_ok d = Ok true /\ p_cross d = p_cross chain_of_two).
  { eexists. split; [vm_compute; reflexivity|]. split; [reflexivity|]. split; [vm_compute; reflexivity|reflexivity]. }
  destruct Q as (d & E & B & K & C). exists d. split; auto. split; auto. split; auto. unfold sign_at. rewrite C.
  split; [intros [|[|[|c]]] s (x & Q & <-); cbn in Q; try discriminate Q; injection Q as <-; reflexivity|]. split; [unfold ncross; rewrite C; reflexivity|].
  exists (fun c => c), (fun _ => 0). split; [split; auto|]. split; [lia|]. unfold wire, slot. rewrite C.
  intros s t I. cbn in I. repeat destruct I as [I|I]; [..|destruct I]; apply pair_equal_spec in I as (<- & <-); cbn; (split; [let Q := fresh in intros Q; vm_compute in Q; discriminate Q|]); eexists; split; (split; [lia|]); eexists; split; reflexivity.
Qed.
(** A component has a tag of one byte, and pd_ok wants them to increase, so chains have at most 64 rings: for more the
    program stops although it announces no such bound. *)
Theorem chain_long_refuted : forall n, 65 <= n -> forall d, pd_build_simple_chain n <> Ok d.
Proof. intros n Hn. apply chain_refused; lia. Qed.

(** concrete cases *)
Example torus_case : built_as (pd_build_torus_knot 2 5) 5 1 (torus_wires 5).
Proof. apply (torus_built 5). lia. Qed.
Example torus_shape : torus_wires 3 = [((0, 0), (1, 1)); ((0, 3), (1, 2)); ((1, 0), (2, 1)); ((1, 3), (2, 2)); ((2, 0), (0, 1)); ((2, 3), (0, 2))].
Proof. reflexivity. Qed.
Example figure_eight_case : exists d, pd_build_twist_knot 2 = Ok d /\ ncross d = 4 /\ pd_is_alternating d = Ok false.
Proof. destruct (twist_built 2 ltac:(lia)) as ((d & E & _ & _ & _ & _ & _ & SH) & d' & E' & _ & A). rewrite E in E'. injection E' as <-. exists d. split; auto. split; [apply SH|exact A]. Qed.
Example chain_case : exists d, pd_build_simple_chain 64 = Ok d /\ ncomps d = 64 /\ ncross d = 126.
Proof. destruct (chain_built 64 ltac:(lia) ltac:(lia)) as (d & E & _ & _ & _ & C & _ & SH). exists d. split; auto. split; auto. apply SH. Qed.

Print Assumptions wires_complete.
Print Assumptions torus_built.
Print Assumptions torus_refused.
Print Assumptions twist_built.
Print Assumptions twist_refused.
Print Assumptions twist_even_refuted.
Print Assumptions unknot_built.
Print Assumptions unknot_small.
Print Assumptions chain_built.
Print Assumptions chain_small.
Print Assumptions chain_long_refuted.
