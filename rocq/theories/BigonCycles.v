(** Cycles of places around the faces of a diagram, and the removal of a bigon. *)
From Coq Require Import List Lia Bool Arith Permutation.
From Verif Require Import Base Iterators Pd PdSpec Cycles CycleSurgery HashSpec CycleMatch Exchange DeloopProofs.
From Verif Require IsoEdges.
Import ListNotations.
Open Scope nat_scope.

(** [s] is the place where a walk arrives; it turns at the crossing to the place [turn s] and leaves from there along the edge
    whose other end is the next place.  [across s] is the place opposite to [s]. *)
Section Bigon.
Context {P : Type} (dec : forall x y : P, {x = y} + {x <> y}) (turn across : P -> P) (ends : P -> P -> Prop).
Context (sym : forall s t, ends s t -> ends t s) (func : forall s t u, ends s t -> ends s u -> t = u) (irr : forall s, ~ ends s s).
Definition step (s t : P) : Prop := ends (turn s) t.

(** one crossing has the places A0, B1, A1, B0 in the order of turning, the other A2, B2, A3, B3; the edges A1-A3 and B1-B3
    bound a bigon *)
Context (A0 A1 B0 B1 A2 A3 B2 B3 : P).
Context (tA0 : turn A0 = B1) (tB1 : turn B1 = A1) (tA1 : turn A1 = B0) (tB0 : turn B0 = A0).
Context (tA2 : turn A2 = B2) (tB2 : turn B2 = A3) (tA3 : turn A3 = B3) (tB3 : turn B3 = A2).
Context (xA0 : across A0 = A1) (xB0 : across B0 = B1) (xA3 : across A3 = A2) (xB3 : across B3 = B2).
Context (xA2 : across A2 = A3) (xB2 : across B2 = B3) (xA1 : across A1 = A0) (xB1 : across B1 = B0).
Context (eA : ends A1 A3) (eB : ends B1 B3) (diff : NoDup [A0; A1; B0; B1; A2; A3; B2; B3]).

Definition gone (s : P) : Prop := In s [A0; A1; B0; B1; A2; A3; B2; B3].
Definition keep (s : P) : bool := if in_dec dec s [A0; A1; B0; B1; A2; A3; B2; B3] then false else true.
Lemma keep_true : forall s, keep s = true <-> ~ gone s.
Proof. intro s. unfold keep, gone. destruct (in_dec dec s _); split; intro; try tauto; congruence. Qed.
Lemma keep_false : forall s, keep s = false <-> gone s.
Proof. intro s. unfold keep, gone. destruct (in_dec dec s _); split; intro; try tauto; congruence. Qed.

(** from the place [s] along the edge there and straight through crossings that go *)
Inductive runs (s : P) : P -> Prop :=
| runs_one : forall t, ends s t -> runs s t
| runs_more : forall u t, runs s u -> gone u -> ends (across u) t -> runs s t.

(** the turns at B0 and A2 exchanged *)
Definition swapped (x y : P) : Prop := if dec x B0 then step A2 y else if dec x A2 then step B0 y else step x y.

Lemma distinct : A0 <> A1 /\ A0 <> B0 /\ A0 <> B1 /\ A0 <> A2 /\ A0 <> A3 /\ A0 <> B2 /\ A0 <> B3 /\ A1 <> B0 /\ A1 <> B1 /\ A1 <> A2 /\ A1 <> A3 /\
  A1 <> B2 /\ A1 <> B3 /\ B0 <> B1 /\ B0 <> A2 /\ B0 <> A3 /\ B0 <> B2 /\ B0 <> B3 /\ B1 <> A2 /\ B1 <> A3 /\ B1 <> B2 /\ B1 <> B3 /\ A2 <> A3 /\ A2 <> B2 /\
  A2 <> B3 /\ A3 <> B2 /\ A3 <> B3 /\ B2 <> B3.
Proof. pose proof diff as N. clear - N. rewrite !NoDup_cons_iff in N. cbn [In] in N. repeat split; intro; subst; tauto. Qed.

(** where a walk over places that go stands *)
Definition standing (a b : P) : Prop :=
  b <> B1 /\ b <> A3 /\ (b = B3 -> runs (turn a) A0) /\ (b = A1 -> runs (turn a) B2) /\ (b <> B3 -> b <> A1 -> runs (turn a) b).
Lemma not_inner : forall x y, ends x y -> x <> A1 -> x <> A3 -> x <> B1 -> x <> B3 -> y <> A1 /\ y <> A3 /\ y <> B1 /\ y <> B3.
Proof.
  intros x y E N1 N2 N3 N4. apply sym in E. split; [|split; [|split]]; intros ->.
  - apply N2. apply (func A1); auto.
  - apply N1. apply (func A3); auto.
  - apply N4. apply (func B1); auto.
  - apply N3. apply (func B3); auto.
Qed.
Lemma outer_standing : forall a x y, runs (turn a) y -> ends x y -> x <> A1 -> x <> A3 -> x <> B1 -> x <> B3 -> standing a y.
Proof.
  intros a x y Q E N1 N2 N3 N4. destruct (not_inner x y E N1 N2 N3 N4) as (M1 & M2 & M3 & M4). split; [|split; [|split; [|split]]]; auto; intro; congruence.
Qed.
Lemma turn_inner : forall a, ~ gone a -> (forall b, gone (turn b) -> gone b) -> turn a <> A1 /\ turn a <> A3 /\ turn a <> B1 /\ turn a <> B3.
Proof. intros a N TG. repeat split; intro Q; apply N, TG; rewrite Q; unfold gone; cbn; tauto. Qed.

Context (TG : forall b, gone (turn b) -> gone b).
Ltac isgone := unfold gone; cbn [In]; tauto.
Lemma skip_standing : forall a b, keep a = true -> skip swapped keep a b -> standing a b.
Proof.
  intros a b K. apply keep_true in K. pose proof distinct as DD. decompose [and] DD. clear DD.
  induction 1 as [a b R|a b c S IH Kb R].
  - unfold swapped in R. destruct (dec a B0) as [->|_]; [exfalso; apply K; isgone|]. destruct (dec a A2) as [->|_]; [exfalso; apply K; isgone|].
    destruct (turn_inner a K TG) as (M1 & M2 & M3 & M4). apply (outer_standing a (turn a)); auto. apply runs_one. exact R.
  - specialize (IH K). destruct IH as (I1 & I2 & I3 & I4 & I5). apply keep_false in Kb. unfold gone in Kb. cbn in Kb. unfold swapped, step in R.
    destruct Kb as [<-|[<-|[<-|[<-|[<-|[<-|[<-|[<-|[]]]]]]]]]; repeat match type of R with context [dec ?x ?y] => destruct (dec x y); try congruence end.
    + rewrite tA0 in R. rewrite (func _ _ _ R eB). split; [|split; [|split; [|split]]]; auto; try congruence.
    + rewrite tA1 in R. apply (outer_standing a B0); auto. apply runs_more with B1; [|isgone|rewrite xB1; exact R].
      apply runs_more with B2; auto; [isgone|]. rewrite xB2. auto.
    + rewrite tA2 in R. apply (outer_standing a B2); auto. apply runs_more with B3; [|isgone|rewrite xB3; exact R].
      apply runs_more with B0; auto; [isgone|]. rewrite xB0. auto.
    + rewrite tB0 in R. apply (outer_standing a A0); auto. apply runs_more with A1; [|isgone|rewrite xA1; exact R].
      apply runs_more with A2; auto; [isgone|]. rewrite xA2. auto.
    + rewrite tB2 in R. rewrite (func _ _ _ R (sym _ _ eA)). split; [|split; [|split; [|split]]]; auto; try congruence.
    + rewrite tB3 in R. apply (outer_standing a A2); auto. apply runs_more with A3; [|isgone|rewrite xA3; exact R].
      apply runs_more with A0; auto; [isgone|]. rewrite xA0. auto.
Qed.
Lemma skip_runs : forall a b, keep a = true -> keep b = true -> skip swapped keep a b -> runs (turn a) b.
Proof.
  intros a b Ka Kb S. destruct (skip_standing a b Ka S) as (_ & _ & _ & _ & H). apply keep_true in Kb. apply H; intros ->; apply Kb; isgone.
Qed.

(** the places on the outside *)
Context (D : P -> Prop) (GD : forall s, gone s -> D s) (tot : forall s, D s -> exists t, ends s t /\ D t).
Definition outer (s : P) : Prop := s = A0 \/ s = B0 \/ s = A2 \/ s = B2.
Lemma outer_gone : forall s, outer s -> gone s.
Proof. unfold outer. intros s H. unfold gone; cbn [In]; intuition. Qed.
Lemma gone_outer : forall x t, outer x -> ends x t -> gone t -> outer t /\ t <> x.
Proof.
  intros x t O E G. pose proof distinct as DD. decompose [and] DD. clear DD. destruct (not_inner x t E) as (N1 & N2 & N3 & N4);
    try (unfold outer in O; intuition congruence). split; [|intros ->; apply (irr x); exact E]. unfold gone in G. cbn [In] in G. unfold outer. intuition congruence.
Qed.

(** every walk of the exchanged turning meets a place that stays *)
Context (open : exists x t, outer x /\ ends x t /\ ~ gone t).
Context (L : list (list P)) (c1 c2 : list P) (HL : cpart step D L) (I1 : In c1 L) (I2 : In c2 L) (J1 : In B0 c1) (J2 : In A2 c2) (J3 : ~ In A2 c1).
Lemma step_fun : forall a b b', step a b -> step a b' -> b = b'.
Proof. intros a b b'. apply func. Qed.
Lemma swapped_fun : forall a b b', swapped a b -> swapped a b' -> b = b'.
Proof. unfold swapped. intros a b b'. destruct (dec a B0); [apply step_fun|]. destruct (dec a A2); apply step_fun. Qed.
Lemma next_in : forall (R : P -> P -> Prop) (c : list P) a b, (forall a b b', R a b -> R a b' -> b = b') -> cyclically R c -> In a c -> R a b -> In b c.
Proof.
  intros R c a b F C I Rab. apply In_nth_error in I as (i & Hi). assert (Li : i < length c) by (apply nth_error_Some; congruence).
  destruct (nth_error c ((i + 1) mod length c)) as [b'|] eqn:E.
  - rewrite (F a b b'); auto; [eapply nth_error_In; eauto|]. eapply C; eauto.
  - exfalso. apply nth_error_None in E. pose proof (Nat.mod_upper_bound (i + 1) (length c)). lia.
Qed.
Lemma A0_A2 : ~ ends A0 A2.
Proof.
  intro E. apply J3. destruct HL as (H & _). apply (next_in step c1 B0); auto; [apply step_fun|apply H; auto|]. unfold step. rewrite tB0. exact E.
Qed.
Lemma same_block : forall (M : list (list P)) a b x, NoDup (concat M) -> In a M -> In b M -> In x a -> In x b -> a = b.
Proof.
  intros M a b x N Ia Ib Xa Xb. apply In_nth_error in Ia as (i & Hi). apply In_nth_error in Ib as (j & Hj).
  assert (i = j) by (eapply (IsoEdges.blocks_disjoint P M); eauto). congruence.
Qed.
Lemma B0_B2 : ~ ends B0 B2.
Proof.
  intro E. destruct HL as (H & N & _). assert (I : In B0 c2).
  { apply (next_in step c2 A2); auto; [apply step_fun|apply H; auto|]. unfold step. rewrite tA2. auto. }
  apply J3. rewrite (same_block L c1 c2 B0); auto.
Qed.
Definition swaps (c : list P) : Prop := forall a b, In a c -> swapped a b -> In b c.
Lemma swap_kept : forall c, swaps c -> (exists x, In x c /\ gone x /\ x <> B1 /\ x <> A3) -> exists x, In x c /\ ~ gone x.
Proof.
  intros c HS (x & Ix & Gx & N1 & N2). pose proof distinct as DD. decompose [and] DD. clear DD.
  destruct (tot A0) as (oA0 & E1 & _); [apply GD; isgone|]. destruct (tot B0) as (oB0 & E2 & _); [apply GD; isgone|].
  destruct (tot A2) as (oA2 & E3 & _); [apply GD; isgone|]. destruct (tot B2) as (oB2 & E4 & _); [apply GD; isgone|].
  assert (S1 : In A0 c -> In oA2 c).
  { intro I. apply (HS B3); [apply (HS A0 B3 I)|]; unfold swapped, step; repeat match goal with |- context [dec ?x ?y] => destruct (dec x y); try congruence end; rewrite ?tA0, ?tB3; auto. }
  assert (S2 : In B2 c -> In oB0 c).
  { intro I. apply (HS A1); [apply (HS B2 A1 I)|]; unfold swapped, step; repeat match goal with |- context [dec ?x ?y] => destruct (dec x y); try congruence end; rewrite ?tB2, ?tA1; auto. }
  assert (S3 : In B0 c -> In oB2 c).
  { intro I. apply (HS B0 oB2 I); unfold swapped, step; repeat match goal with |- context [dec ?x ?y] => destruct (dec x y); try congruence end; rewrite ?tA2; auto. }
  assert (S4 : In A2 c -> In oA0 c).
  { intro I. apply (HS A2 oA0 I); unfold swapped, step; repeat match goal with |- context [dec ?x ?y] => destruct (dec x y); try congruence end; rewrite ?tB0; auto. }
  assert (S5 : In A1 c -> In oB0 c).
  { intro I. apply (HS A1 oB0 I); unfold swapped, step; repeat match goal with |- context [dec ?x ?y] => destruct (dec x y); try congruence end; rewrite ?tA1; auto. }
  assert (S6 : In B3 c -> In oA2 c).
  { intro I. apply (HS B3 oA2 I); unfold swapped, step; repeat match goal with |- context [dec ?x ?y] => destruct (dec x y); try congruence end; rewrite ?tB3; auto. }
  assert (W : In oA0 c \/ In oB0 c \/ In oA2 c \/ In oB2 c).
  { unfold gone in Gx. cbn [In] in Gx. destruct Gx as [<-|[<-|[<-|[<-|[<-|[<-|[<-|[<-|[]]]]]]]]]; try congruence; tauto. }
  destruct (existsb keep c) eqn:EK.
  { apply existsb_exists in EK as (y & Iy & Ky). exists y. split; auto. apply keep_true. exact Ky. }
  exfalso. assert (K : forall y, In y c -> gone y).
  { intros y Iy. apply keep_false. destruct (keep y) eqn:Ky; auto. rewrite <- EK. symmetry. apply existsb_exists. eauto. }
  assert (NA : ~ (gone oA0 /\ gone oB0 /\ gone oA2 /\ gone oB2)).
  { intros (G1 & G2 & G3 & G4). destruct open as (y & t & [->|[->|[->| ->]]] & E & N); apply N.
    - rewrite (func A0 t oA0); auto.
    - rewrite (func B0 t oB0); auto.
    - rewrite (func A2 t oA2); auto.
    - rewrite (func B2 t oB2); auto. }
  pose proof A0_A2 as X1. pose proof B0_B2 as X2.
  assert (P1 : oA0 = B0 <-> oB0 = A0) by (split; intros ->; [apply (func B0)|apply (func A0)]; auto).
  assert (P2 : oA0 = B2 <-> oB2 = A0) by (split; intros ->; [apply (func B2)|apply (func A0)]; auto).
  assert (P3 : oA2 = B0 <-> oB0 = A2) by (split; intros ->; [apply (func B0)|apply (func A2)]; auto).
  assert (P4 : oA2 = B2 <-> oB2 = A2) by (split; intros ->; [apply (func B2)|apply (func A2)]; auto).
  assert (Q1 : In oA0 c -> oA0 = B0 \/ oA0 = B2).
  { intro I. destruct (gone_outer A0 oA0 ltac:(unfold outer; tauto) E1 (K _ I)) as ([?|[?|[->|?]]] & M); tauto. }
  assert (Q2 : In oB0 c -> oB0 = A0 \/ oB0 = A2).
  { intro I. destruct (gone_outer B0 oB0 ltac:(unfold outer; tauto) E2 (K _ I)) as ([?|[?|[?| ->]]] & M); tauto. }
  assert (Q3 : In oA2 c -> oA2 = B0 \/ oA2 = B2).
  { intro I. destruct (gone_outer A2 oA2 ltac:(unfold outer; tauto) E3 (K _ I)) as ([->|[?|[?|?]]] & M); auto; try tauto. exfalso. auto. }
  assert (Q4 : In oB2 c -> oB2 = A0 \/ oB2 = A2).
  { intro I. destruct (gone_outer B2 oB2 ltac:(unfold outer; tauto) E4 (K _ I)) as ([?|[->|[?|?]]] & M); auto; try tauto. exfalso. auto. }
  assert (Z1 : ~ (oA0 = B0 /\ oA2 = B2)).
  { intros (Y1 & Y2). apply NA. rewrite Y1, Y2. apply P1 in Y1. apply P4 in Y2. rewrite Y1, Y2. repeat split; isgone. }
  assert (Z2 : ~ (oA0 = B2 /\ oA2 = B0)).
  { intros (Y1 & Y2). apply NA. rewrite Y1, Y2. apply P2 in Y1. apply P3 in Y2. rewrite Y1, Y2. repeat split; isgone. }
  assert (C1 : oA0 = B0 -> oB2 <> A0) by (intros Y1 Y2; apply P2 in Y2; congruence).
  assert (C2 : oA0 = B2 -> oB0 <> A0) by (intros Y1 Y2; apply P1 in Y2; congruence).
  assert (C3 : oA2 = B0 -> oB2 <> A2) by (intros Y1 Y2; apply P4 in Y2; congruence).
  assert (C4 : oA2 = B2 -> oB0 <> A2) by (intros Y1 Y2; apply P3 in Y2; congruence).
  destruct W as [W|[W|[W|W]]].
  - destruct (Q1 W) as [Y|Y]; rewrite Y in W; [destruct (Q4 (S3 W))|destruct (Q2 (S2 W))]; tauto.
  - destruct (Q2 W) as [Y|Y]; rewrite Y in W; [destruct (Q3 (S1 W))|destruct (Q1 (S4 W))]; intuition congruence.
  - destruct (Q3 W) as [Y|Y]; rewrite Y in W; [destruct (Q4 (S3 W))|destruct (Q2 (S2 W))]; tauto.
  - destruct (Q4 W) as [Y|Y]; rewrite Y in W; [destruct (Q3 (S1 W))|destruct (Q1 (S4 W))]; intuition congruence.
Qed.
Lemma skip_mono : forall (R R' : P -> P -> Prop) k a b, (forall x y, R x y -> R' x y) -> skip R k a b -> skip R' k a b.
Proof. intros R R' k a b H. induction 1; [apply skip_one; auto|eapply skip_more; eauto]. Qed.

(** the bigon is left out and the two faces at its ends are joined *)
Theorem bigon_cycles : exists L' c', cpart (fun s t => runs (turn s) t) (fun s => D s /\ ~ gone s) L' /\ length L' + 2 = length L /\
  (forall t, ends A0 t \/ ends B2 t -> ~ gone t -> In t c' /\ In c' L').
Proof.
  pose proof distinct as DD. decompose [and] DD. clear DD.
  destruct (cpart_merge step swapped D B0 A2) with (L := L) (c1 := c1) (c2 := c2) as (u & v & M & PM & R1 & R2 & HM); auto.
  { intros y Hy. unfold swapped. destruct (dec A2 B0); [congruence|]. destruct (dec A2 A2); [auto|congruence]. }
  { intros y Hy. unfold swapped. destruct (dec B0 B0); [auto|congruence]. }
  { intros x y Na Nb Hy. unfold swapped. destruct (dec x B0); [congruence|]. destruct (dec x A2); [congruence|auto]. }
  set (m := B0 :: v ++ A2 :: u) in *.
  exists (filter nonempty (map (filter keep) (m :: M))), (filter keep m). split; [|split].
  - eapply cpart_ext; [apply (cpart_erase _ swapped (fun s t => runs (turn s) t) keep D (m :: M) HM)| |].
    + intros a b Da Db Ka Kb S. apply skip_runs; auto. eapply skip_mono; [|exact S]. intros x y (_ & _ & Hxy). exact Hxy.
    + auto.
    + intro x. cbv beta. rewrite keep_true. reflexivity.
  - destruct HM as (M1 & M2 & M3). assert (I : In B1 (concat (m :: M))) by (apply M3, GD; isgone).
    apply in_concat in I as (b & Ib & Jb).
    assert (CB : forall c, In c (m :: M) -> swaps c).
    { intros c Hc x y Ix Sxy. apply (next_in swapped c x); auto; [apply swapped_fun|]. apply M1; auto. }
    assert (Only : forall x, In x b -> x = B1 \/ x = A3).
    { assert (W1 : forall y, swapped B1 y -> y = A3).
      { intro y. unfold swapped, step. repeat match goal with |- context [dec ?x ?y] => destruct (dec x y); try congruence end. rewrite tB1. intro E. apply (func A1); auto. }
      assert (W2 : forall y, swapped A3 y -> y = B1).
      { intro y. unfold swapped, step. repeat match goal with |- context [dec ?x ?y] => destruct (dec x y); try congruence end. rewrite tA3. intro E. apply (func B3); auto. }
      destruct (rotation_in_front P B1 b Jb) as (w & Rw). pose proof (Exchange.rotation_perm _ _ _ Rw) as Pw.
      assert (Nw : NoDup (B1 :: w)) by (eapply Permutation_NoDup; [exact Pw|]; clear - M2 Ib; eapply Cycles.block_nodup; eauto).
      destruct (M1 b Ib) as (_ & Cb). pose proof (cyclically_rotation _ _ _ _ Rw Cb) as Cw. apply cyclically_linked in Cw.
      intros x Ix. apply (Permutation_in _ Pw) in Ix. destruct Ix as [Ix|Ix]; [auto|]. destruct w as [|y w]; [destruct Ix|]. cbn [app] in Cw.
      destruct Cw as (Y1 & Y2). apply W1 in Y1. subst y. destruct w as [|z w]; [destruct Ix as [<-|[]]; auto|]. exfalso. destruct Y2 as (Y2 & _). apply W2 in Y2. subst z.
      apply NoDup_cons_iff in Nw. apply Nw. cbn. auto. }
    rewrite (erase_count _ keep (m :: M) b M2 Ib).
    + cbn [length]. rewrite (Permutation_length PM). cbn [length]. lia.
    + intros ->. destruct Jb.
    + intros c Hc Nc. destruct (M1 c Hc) as (Ne & Cc). destruct c as [|x c]; [congruence|].
      destruct (keep x) eqn:Kx; [exists x; split; [left; reflexivity|exact Kx]|]. apply keep_false in Kx.
      destruct (swap_kept (x :: c)) as (y & Iy & Gy); auto.
      * exists x. split; [left; reflexivity|]. split; auto. split; intros ->.
        -- apply Nc. apply (same_block (m :: M) _ _ B1); auto. left. reflexivity.
        -- apply Nc. apply (same_block (m :: M) _ _ A3); auto; [left; reflexivity|]. apply (CB b Ib B1 A3 Jb).
           unfold swapped, step. repeat match goal with |- context [dec ?x ?y] => destruct (dec x y); try congruence end.
      * exists y. split; auto. apply keep_true. exact Gy.
    + intros x Ix. apply keep_false. destruct (Only x Ix) as [-> | ->]; isgone.
  - intros t Ht Nt. assert (I : In t m).
    { destruct HM as (M1 & _). destruct (M1 m (or_introl eq_refl)) as (_ & Cm).
      destruct Ht as [Ht|Ht]; [apply (next_in swapped m A2)|apply (next_in swapped m B0)]; auto; try apply swapped_fun;
        try (unfold m; cbn [In]; rewrite ?in_app_iff; cbn [In]; tauto); unfold swapped, step;
        repeat match goal with |- context [dec ?x ?y] => destruct (dec x y); try congruence end; rewrite ?tB0, ?tA2; exact Ht. }
    assert (I' : In t (filter keep m)) by (apply filter_In; split; [exact I|apply keep_true; exact Nt]). split; auto.
    apply filter_In. split; [cbn [map In]; auto|]. destruct (filter keep m); [destruct I'|reflexivity].
Qed.
End Bigon.
