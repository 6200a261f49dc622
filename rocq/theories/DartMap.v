(** Renamings of edges that respect the cyclic order at the crossings respect the faces, and conversely. *)
From Coq Require Import List ZArith Lia Bool Arith Permutation.
From Verif Require Import Base ListAux Iterators Orbits Cycles CycleMatch Pd PdSpec PdProofs Relabel RelabelProofs Strands
  PdFaces PdFacesProofs PdCross PdCompsProofs SlotCount HashSpec HashProofs HashIso PdIso IsoSpec DiagIso IsoSound Planar PlanarProofs Carry
  LinkProofs DeloopProofs Unsigned Thm_Faces Thm_Planar.
Import ListNotations.
Open Scope nat_scope.

(** * Lists *)
Lemma finite_choice : forall (P : nat -> nat -> Prop) n, (forall i, i < n -> exists j, P i j) ->
  exists f, forall i, i < n -> P i (f i).
Proof.
  intros P. induction n as [|n IH]; intros H; [exists (fun _ => 0); intros; lia|].
  destruct IH as (f & F); [auto|]. destruct (H n) as (j & J); [lia|].
  exists (fun i => if i =? n then j else f i). intros i Hi. destruct (Nat.eqb_spec i n) as [->|]; auto. apply F. lia.
Qed.
Lemma cycles_rotate : forall A (f : A -> A) b c x, cyclic_block f b -> cyclic_block f c -> NoDup b -> NoDup c ->
  In x b -> In x c -> rotation b c.
Proof.
  intros A f b c x Cb Cc Nb Nc Xb Xc. destruct (rotation_in_front A x b Xb) as (b' & Rb).
  destruct (rotation_in_front A x c Xc) as (c' & Rc).
  assert (Q : forall k k', cyclic_block f k -> NoDup k -> rotation k (x :: k') ->
    period f (length (x :: k')) x /\ cyc f (length (x :: k')) x = x :: k').
  { intros k k' (_ & C) N Rk. apply block_is_cyc.
    - split; [discriminate|]. exact (cyclically_rotation A (fun a b => b = f a) k (x :: k') Rk C).
    - eapply Permutation_NoDup; [apply rotation_perm; exact Rk|auto]. }
  destruct (Q b b' Cb Nb Rb) as (P1 & C1). destruct (Q c c' Cc Nc Rc) as (P2 & C2).
  pose proof (period_unique f x _ _ P1 P2) as E. rewrite E in C1. rewrite C1 in C2.
  eapply rotation_trans; [exact Rb|]. rewrite C2. apply rotation_sym; auto.
Qed.
Lemma cyclically_map : forall A B (R : A -> A -> Prop) (S : B -> B -> Prop) (f : A -> B) l,
  (forall a b, In a l -> In b l -> R a b -> S (f a) (f b)) -> cyclically R l -> cyclically S (map f l).
Proof.
  intros A B R S f l H C i a b Ha Hb. rewrite map_length in Hb. rewrite nth_error_map in Ha, Hb.
  destruct (nth_error l i) as [x|] eqn:X; [|discriminate]. destruct (nth_error l ((i + 1) mod length l)) as [y|] eqn:Y; [|discriminate].
  cbn in Ha, Hb. injection Ha as <-. injection Hb as <-. apply H; eauto using nth_error_In.
Qed.

(** blocks that correspond one by one *)
Lemma blocks_match : forall A B (h : A -> B) (L : list (list A)) (M : list (list B)) (kp : nat -> nat),
  (forall x y, In x (concat L) -> In y (concat L) -> h x = h y -> x = y) ->
  (forall y, In y (concat M) -> exists x, In x (concat L) /\ h x = y) ->
  NoDup (concat L) -> NoDup (concat M) -> ~ In [] L -> ~ In [] M ->
  (forall i b, nth_error L i = Some b -> exists c, nth_error M (kp i) = Some c /\ Permutation (map h b) c) ->
  length M = length L /\ bij_on (length L) kp.
Proof.
  intros A B h L M kp I S NL NM EL EM K.
  assert (R : forall i, i < length L -> kp i < length M).
  { intros i Hi. destruct (K i (nth i L [])) as (c & Hc & _); [apply nth_error_nth'; auto|]. apply nth_error_Some. congruence. }
  assert (J : forall i j, i < length L -> j < length L -> kp i = kp j -> i = j).
  { intros i j Hi Hj E.
    destruct (K i (nth i L [])) as (c & Hc & P); [apply nth_error_nth'; auto|].
    destruct (K j (nth j L [])) as (c' & Hc' & P'); [apply nth_error_nth'; auto|].
    rewrite E, Hc' in Hc. injection Hc as ->.
    assert (NE : nth i L [] <> []) by (intros Q; apply EL; rewrite <- Q; apply nth_In; auto).
    assert (Xi : exists x, In x (nth i L [])) by (destruct (nth i L []) as [|x b]; [congruence|exists x; cbn; auto]).
    destruct Xi as (x & Ix).
    assert (Ih : In (h x) (map h (nth j L []))).
    { eapply Permutation_in; [symmetry; exact P'|]. eapply Permutation_in; [exact P|]. apply in_map; auto. }
    apply in_map_iff in Ih as (y & E2 & Iy).
    assert (InL : forall k z, k < length L -> In z (nth k L []) -> In z (concat L)) by (intros k z Hk Hz; apply in_concat; exists (nth k L []); split; auto; apply nth_In; auto).
    assert (y = x) by (apply I; eauto). subst y.
    apply (blocks_disjoint L i j (nth i L []) (nth j L []) x); auto; apply nth_error_nth'; auto. }
  assert (E : length M = length L).
  { apply Nat.le_antisymm.
    - rewrite <- (seq_length (length M) 0), <- (seq_length (length L) 0), <- (map_length kp (seq 0 (length L))).
      apply NoDup_incl_length; [apply seq_NoDup|]. intros j Hj. apply in_seq in Hj.
      assert (NE : nth j M [] <> []) by (intros Q; apply EM; rewrite <- Q; apply nth_In; lia).
      assert (Xj : exists y, In y (nth j M [])) by (destruct (nth j M []) as [|y b]; [congruence|exists y; cbn; auto]).
      destruct Xj as (y & Iy). destruct (S y) as (x & Ix & <-).
      { apply in_concat. exists (nth j M []). split; auto. apply nth_In; lia. }
      apply in_concat in Ix as (b & Hb & Ix). apply In_nth_error in Hb as (i & Hi). destruct (K i b Hi) as (c & Hc & P).
      apply in_map_iff. exists i. split; [|apply in_seq; assert (i < length L) by (apply nth_error_Some; congruence); lia].
      apply (blocks_disjoint M (kp i) j c (nth j M []) (h x)); auto.
      + apply nth_error_nth'. lia.
      + eapply Permutation_in; [exact P|]. apply in_map; auto.
    - rewrite <- (seq_length (length M) 0), <- (seq_length (length L) 0), <- (map_length kp (seq 0 (length L))).
      apply NoDup_incl_length.
      + apply NoDup_map_on; [apply seq_NoDup|]. intros i j Hi Hj. apply in_seq in Hi, Hj. apply J; lia.
      + intros k Hk. apply in_map_iff in Hk as (i & <- & Hi). apply in_seq in Hi. apply in_seq. specialize (R i). lia. }
  split; auto. split; auto. intros i Hi. rewrite <- E. auto.
Qed.

(** * Places under a rotation or a reflection *)
Definition place (o : orient) (r p : nat) : nat := match o with Pos => (p + r) mod 4 | _ => 3 - (p + r) mod 4 end.
Lemma place_lt : forall o r p, place o r p < 4.
Proof. intros o r p. pose proof (mod4_lt (p + r)). unfold place. destruct o; lia. Qed.
Lemma mod4_inj : forall r p q, p < 4 -> q < 4 -> (p + r) mod 4 = (q + r) mod 4 -> p = q.
Proof.
  intros r p q Hp Hq. rewrite <- !(Nat.add_mod_idemp_r _ r) by lia. pose proof (mod4_lt r) as Hr. revert Hr. generalize (r mod 4). intros s Hs.
  destruct (small4 s Hs) as [->|[->|[->| ->]]], (small4 p Hp) as [->|[->|[->| ->]]], (small4 q Hq) as [->|[->|[->| ->]]]; cbn; lia.
Qed.
Lemma place_inj : forall o r p q, p < 4 -> q < 4 -> place o r p = place o r q -> p = q.
Proof. intros o r p q Hp Hq E. apply (mod4_inj r); auto. pose proof (mod4_lt (p + r)). pose proof (mod4_lt (q + r)). unfold place in E. destruct o; lia. Qed.
Lemma place_left : forall o r p, p < 4 -> match o with Pos => place o r ((p + 3) mod 4) = (place o r p + 3) mod 4 | _ => place o r p = (place o r ((p + 3) mod 4) + 3) mod 4 end.
Proof.
  intros o r p Hp. unfold place. rewrite <- !(Nat.add_mod_idemp_r _ r) by lia. pose proof (mod4_lt r) as Hr. revert Hr. generalize (r mod 4). intros s Hs.
  destruct o, (small4 s Hs) as [->|[->|[->| ->]]], (small4 p Hp) as [->|[->|[->| ->]]]; reflexivity.
Qed.
Lemma rotation_places : forall o (m : nat -> nat) x y, sign_like o ->
  (rotation (turned o (around_cross y)) (map m (around_cross x)) <-> exists r, r < 4 /\ forall p, p < 4 -> m (cedge x p) = cedge y (place o r p)).
Proof.
  intros o m x y SO.
  assert (N : forall l : list nat, l = turned o (around_cross y) -> length l = 4 /\ forall p, p < 4 -> nth p l 0 = cedge y (match o with Pos => p | _ => 3 - p end)).
  { intros l ->. destruct SO as [->| ->]; cbn [turned around_cross rev app]; split; auto; intros p Hp; destruct (small4 p Hp) as [->|[->|[->| ->]]]; reflexivity. }
  destruct (N _ eq_refl) as (L & E). set (l := turned o (around_cross y)) in *. clearbody l.
  assert (NM : forall p, p < 4 -> nth p (map m (around_cross x)) 0 = m (cedge x p)) by (intros p Hp; destruct (small4 p Hp) as [->|[->|[->| ->]]]; reflexivity).
  split.
  - intros Ro. destruct (rotation_nth _ _ _ 0 Ro) as (_ & r & Hr & K); [intros Q; rewrite Q in L; discriminate|]. rewrite L in *.
    exists r. split; auto. intros p Hp. rewrite <- NM, K, E by (auto using mod4_lt). unfold place. destruct o; auto.
  - intros (r & Hr & K). apply (rotation_by _ _ _ r 0); rewrite ?L; auto; [intros Q; rewrite Q in L; discriminate|].
    intros p Hp. rewrite NM, E, K by auto using mod4_lt. unfold place. destruct o; auto.
Qed.

Lemma dart_other : forall d a b, is_dart d a -> is_dart d b -> fst a = fst b -> a <> b -> b = flip a.
Proof.
  intros d (e, o) (e', o') (_ & O) (_ & O') E N. cbn in *. subst e'. unfold flip. cbn. destruct O, O'; subst; auto; congruence.
Qed.
Lemma flip_ne : forall d a, is_dart d a -> flip a <> a.
Proof. intros d (e, o) (_ & O). cbn in O. unfold flip. cbn. destruct O; subst; cbn; congruence. Qed.
Lemma flip_fst : forall a, fst (flip a) = fst a.
Proof. intros (e, o). reflexivity. Qed.
Lemma left_turn_dto : forall d a b, left_turn d a b <-> is_dart d a /\ is_dart d b /\ snd (dto d a) < 4 /\ dto d (flip b) = (fst (dto d a), (snd (dto d a) + 3) mod 4).
Proof.
  intros d a b. split.
  - intros (c & p & Hp & H1 & H2). apply dart_to_dto in H1 as (D1 & E1). apply dart_from_to, dart_to_dto in H2 as (D2 & E2).
    apply is_dart_flip in D2. rewrite flip_flip in D2. rewrite E1. cbn [fst snd]. auto.
  - intros (D1 & D2 & Hp & E). exists (fst (dto d a)), (snd (dto d a)). split; auto. split; [apply dart_to_dto; split; auto; destruct (dto d a); auto|].
    apply dart_from_to, dart_to_dto. split; auto. apply is_dart_flip; auto.
Qed.

(** * Lifting a renaming of edges to darts *)
Record lifted (A B : pd) (m : nat -> nat) (h : dart -> dart) (o : orient) : Prop := {
  lf_dart : forall a, is_dart A a -> is_dart B (h a) /\ fst (h a) = m (fst a);
  lf_flip : forall a, is_dart A a -> h (flip a) = flip (h a);
  lf_turn : forall a b, left_turn A a b -> match o with Pos => left_turn B (h a) (h b) | _ => left_turn B (flip (h b)) (flip (h a)) end }.

Record sphere (d : pd) : Prop := {
  sp_some : 0 < ncross d;
  sp_recorded : ends_recorded d;
  sp_through : goes_through d;
  sp_ends : two_ended d;
  sp_faces : face_partition d (p_face d);
  sp_nfaces : nfaces d = ncross d + 2;
  sp_connected : connected d;
  sp_comps : numbered_along d }.

(** * Straight on *)
Definition straight (d : pd) (a b : dart) : Prop :=
  is_dart d a /\ is_dart d b /\ dto d (flip b) = (fst (dto d a), (snd (dto d a) + 2) mod 4).
Lemma dto_lt : forall d a, sphere d -> is_dart d a -> fst (dto d a) < ncross d /\ snd (dto d a) < 4.
Proof. intros d a SD D. pose proof (dto_slot d a (sp_recorded d SD) D) as S. apply slot_lt in S. auto. Qed.
Lemma straight_back : forall d a b, sphere d -> straight d a b -> straight d (flip b) (flip a).
Proof.
  intros d a b SD (Da & Db & E). split; [apply is_dart_flip; auto|]. split; [apply is_dart_flip; auto|].
  rewrite E, flip_flip. cbn [fst snd]. destruct (dto_lt d a SD Da) as (_ & L). destruct (dto d a) as (c, p). cbn [fst snd] in *. f_equal.
  destruct (small4 p L) as [->|[->|[->| ->]]]; reflexivity.
Qed.
Lemma straight_turns : forall d a b, sphere d -> (straight d a b <-> exists x, left_turn d a x /\ left_turn d (flip x) b).
Proof.
  intros d a b SD. split.
  - intros (Da & Db & E). destruct (dto_lt d a SD Da) as (Hc & Hp). set (c := fst (dto d a)) in *. set (p := snd (dto d a)) in *.
    assert (H3 : (p + 3) mod 4 < 4) by apply mod4_lt.
    destruct (arr_spec d (sp_recorded d SD) (sp_ends d SD) c _ Hc H3) as (D & E3). exists (flip (arr d c ((p + 3) mod 4))). split.
    + apply left_turn_dto. split; auto. split; [apply is_dart_flip; auto|]. split; auto. rewrite flip_flip. exact E3.
    + rewrite flip_flip. apply left_turn_dto. split; auto. split; auto. rewrite E3. cbn [fst snd]. split; auto. rewrite E. f_equal.
      destruct (small4 p Hp) as [->|[->|[->| ->]]]; reflexivity.
  - intros (x & L1 & L2). apply left_turn_dto in L1 as (D1 & D2 & H1 & E1). apply left_turn_dto in L2 as (D3 & D4 & H2 & E2).
    split; auto. split; auto. rewrite E2, E1. cbn [fst snd]. f_equal. destruct (small4 _ H1) as [->|[->|[->| ->]]]; reflexivity.
Qed.
Lemma straight_sign : forall d a b, sphere d -> straight d a b -> snd a = snd b.
Proof.
  intros d (e, o) (e', o') SD (Da & Db & E). cbn [snd].
  assert (Q : forall x, is_dart d x -> dto d x = dto d (flip (e', o')) -> x = flip (e', o')).
  { intros x Dx Ex. apply (dto_inj d (sp_recorded d SD) (sp_ends d SD)); auto. apply is_dart_flip; auto. }
  destruct (edge_at_ex d e (proj1 Da)) as (F & HF). destruct (sp_through d SD e F HF) as (T1 & T2).
  destruct (proj2 Da) as [O|O]; cbn in O; subst o.
  - destruct T1 as (f & F' & HF' & _ & T). assert (X : dto d (f, Neg) = dto d (flip (e', o'))).
    { rewrite E. unfold dto. cbn [fst snd]. unfold edge_at in HF, HF'. rewrite HF, HF'. exact T. }
    apply Q in X; [|split; [eapply edge_at_lt; eauto|cbn; auto]]. unfold flip in X. cbn in X. destruct o'; injection X; intros; congruence.
  - destruct T2 as (f & F' & HF' & _ & T). assert (X : dto d (f, Pos) = dto d (flip (e', o'))).
    { rewrite E. unfold dto. cbn [fst snd]. unfold edge_at in HF, HF'. rewrite HF, HF'. exact T. }
    apply Q in X; [|split; [eapply edge_at_lt; eauto|cbn; auto]]. unfold flip in X. cbn in X. destruct (proj2 Db) as [O|O]; cbn in O; subst o'; auto; discriminate.
Qed.
Lemma continues_straight : forall d a b, sphere d -> (continues d a b <-> straight d (a, Pos) (b, Pos)).
Proof.
  intros d a b SD. split.
  - intros (A & B & HA & HB & T1 & T2). split; [split; [eapply edge_at_lt; eauto|cbn; auto]|]. split; [split; [eapply edge_at_lt; eauto|cbn; auto]|].
    unfold dto, flip. cbn [fst snd]. unfold edge_at in HA, HB. rewrite HA, HB. unfold tail_slot, head_slot. cbn [fst snd]. congruence.
  - intros ((Ha & _) & (Hb & _) & E). cbn in Ha, Hb. destruct (edge_at_ex d a Ha) as (A & HA). destruct (edge_at_ex d b Hb) as (B & HB).
    exists A, B. split; auto. split; auto. unfold dto, flip in E. cbn [fst snd] in E. unfold edge_at in HA, HB. rewrite HA, HB in E.
    unfold tail_slot, head_slot in E. cbn [fst snd] in E. injection E as -> ->. auto.
Qed.

Section Lift.
Context (A B : pd) (SA : sphere A) (SB : sphere B).
Context (m : nat -> nat) (NE : nedges B = nedges A) (BM : bij_on (nedges A) m).
Context (o : orient) (SO : sign_like o).

Let RA : ends_recorded A. Proof. apply SA. Qed.
Let RB : ends_recorded B. Proof. apply SB. Qed.
Let TA : two_ended A. Proof. apply SA. Qed.
Let TB : two_ended B. Proof. apply SB. Qed.
Let FA : face_partition A (p_face A). Proof. apply SA. Qed.
Let FB : face_partition B (p_face B). Proof. apply SB. Qed.

Definition cross_fits : Prop := forall c x, nth_error (p_cross A) c = Some x ->
  exists c' y, nth_error (p_cross B) c' = Some y /\ rotation (turned o (around_cross y)) (map m (around_cross x)).
Definition face_fits : Prop := forall f F, nth_error (p_face A) f = Some F ->
  exists f' F', nth_error (p_face B) f' = Some F' /\ rotation (turned o (map fst F')) (map m (map fst F)).

Lemma edges_lt : forall c p e, slot A c p e -> e < nedges A.
Proof. intros c p e S. pose proof (slot_lt _ _ _ _ S) as (Hc & Hp). pose proof (arr_slot A RA TA _ _ _ S) as <-. apply (arr_spec A RA TA c p Hc Hp). Qed.

(** two crossings of A with the same image are the same *)
Lemma same_image : forall c c' x x' y, nth_error (p_cross A) c = Some x -> nth_error (p_cross A) c' = Some x' ->
  rotation (turned o (around_cross y)) (map m (around_cross x)) -> rotation (turned o (around_cross y)) (map m (around_cross x')) -> c = c'.
Proof.
  intros c c' x x' y Hx Hx' Ro Ro'. destruct (Nat.eq_dec c c') as [|N]; auto. exfalso.
  assert (Hc : c < ncross A) by (apply nth_error_Some; congruence). assert (Hc' : c' < ncross A) by (apply nth_error_Some; congruence).
  apply rotation_places in Ro as (r & Hr & K); auto. apply rotation_places in Ro' as (r' & Hr' & K'); auto.
  pose proof (planar_crossings_differ A RA TA FA (sp_nfaces A SA) (sp_connected A SA)) as (CD & _).
  apply (CD c c' ((r + (4 - r')) mod 4) Hc Hc' N). intros p e S. pose proof S as S0. destruct S as (Hp & z & Hz & <-). rewrite Hx in Hz. injection Hz as <-.
  set (q := (p + (r + (4 - r')) mod 4) mod 4). assert (Hq : q < 4) by apply mod4_lt.
  assert (E : place o r' q = place o r p).
  { unfold q, place. clear - Hp Hr Hr'. destruct o, (small4 p Hp) as [->|[->|[->| ->]]], (small4 r Hr) as [->|[->|[->| ->]]], (small4 r' Hr') as [->|[->|[->| ->]]]; reflexivity. }
  split; auto. exists x'. split; auto. apply (proj2 BM).
  - apply (edges_lt c' q). split; auto. exists x'. auto.
  - apply (edges_lt c p). exact S0.
  - rewrite K', K by auto. f_equal. exact E.
Qed.

(** the lift of a map of crossings [kc], turned by [rt] *)
Lemma lift_along : forall kc rt,
  (forall c, c < ncross A -> exists x y, nth_error (p_cross A) c = Some x /\ nth_error (p_cross B) (kc c) = Some y /\ forall p, p < 4 -> m (cedge x p) = cedge y (place o (rt c) p)) ->
  exists h, lifted A B m h o /\ forall a, is_dart A a -> dto B (h a) = (kc (fst (dto A a)), place o (rt (fst (dto A a))) (snd (dto A a))).
Proof.
  intros kc rt KR.
  assert (KC : forall c, c < ncross A -> exists x y, nth_error (p_cross A) c = Some x /\ nth_error (p_cross B) (kc c) = Some y /\ rotation (turned o (around_cross y)) (map m (around_cross x))).
  { intros c Hc. destruct (KR c Hc) as (x & y & Hx & Hy & K). exists x, y. split; auto. split; auto. apply rotation_places; auto. exists (rt c mod 4). split; [apply mod4_lt|].
    intros p Hp. rewrite (K p Hp). f_equal. unfold place. rewrite Nat.add_mod_idemp_r by lia. auto. }
  assert (RT : forall c, c < ncross A -> forall p e, slot A c p e -> slot B (kc c) (place o (rt c) p) (m e)).
  { intros c Hc p e (Hp & z & Hz & <-). destruct (KR c Hc) as (x & y & Hx & Hy & K). rewrite Hx in Hz. injection Hz as <-. split; [apply place_lt|]. exists y. rewrite K; auto. }
  assert (KI : forall c c', c < ncross A -> c' < ncross A -> kc c = kc c' -> c = c').
  { intros c c' Hc Hc' E. destruct (KC c Hc) as (x & y & Hx & Hy & Ro). destruct (KC c' Hc') as (x' & y' & Hx' & Hy' & Ro').
    rewrite E, Hy' in Hy. injection Hy as ->. eapply same_image; eauto. }
  set (S := fun s : nat * nat => (kc (fst s), place o (rt (fst s)) (snd s))).
  set (h := fun a => arr B (fst (S (dto A a))) (snd (S (dto A a)))).
  assert (HD : forall a, is_dart A a -> is_dart B (h a) /\ dto B (h a) = S (dto A a) /\ fst (h a) = m (fst a)).
  { intros a Da. pose proof (dto_slot A a RA Da) as SL. pose proof (slot_lt _ _ _ _ SL) as (Hc & Hp).
    apply (RT _ Hc) in SL. pose proof (slot_lt _ _ _ _ SL) as (Hc' & Hp').
    destruct (arr_spec B RB TB _ _ Hc' Hp') as (D & E). split; [exact D|]. split; [exact E|]. apply (arr_slot B RB TB) in SL. exact SL. }
  assert (HI : forall a b, is_dart A a -> is_dart A b -> h a = h b -> a = b).
  { intros a b Da Db E. apply (dto_inj A RA TA); auto. pose proof (HD a Da) as (_ & E1 & _). pose proof (HD b Db) as (_ & E2 & _).
    rewrite E, E2 in E1. unfold S in E1. injection E1 as E1 E3.
    pose proof (dto_slot A a RA Da) as SL. pose proof (slot_lt _ _ _ _ SL) as (Hc & Hp).
    pose proof (dto_slot A b RA Db) as SL'. pose proof (slot_lt _ _ _ _ SL') as (Hc' & Hp').
    apply KI in E1; auto. rewrite E1 in E3. apply place_inj in E3; auto. destruct (dto A a), (dto A b); cbn in *; congruence. }
  assert (HF : forall a, is_dart A a -> h (flip a) = flip (h a)).
  { intros a Da. assert (Df : is_dart A (flip a)) by (apply is_dart_flip; auto).
    destruct (HD a Da) as (D1 & _ & E1). destruct (HD _ Df) as (D2 & _ & E2). rewrite flip_fst in E2.
    apply (dart_other B); auto; [congruence|]. intros Q. apply HI in Q; auto. symmetry in Q. exact (flip_ne A a Da Q). }
  exists h. split; [|intros a Da; apply (HD a Da)]. constructor.
  - intros a Da. destruct (HD a Da) as (D & _ & E). auto.
  - exact HF.
  - intros a b L. apply left_turn_dto in L as (Da & Db & Hp & E). assert (Df : is_dart A (flip b)) by (apply is_dart_flip; auto).
    destruct (HD a Da) as (D1 & E1 & _). destruct (HD b Db) as (D2 & _ & _). destruct (HD _ Df) as (D3 & E3 & _). rewrite HF in E3 by auto.
    rewrite E in E3. unfold S in E3, E1. cbn [fst snd] in E3.
    pose proof (place_left o (rt (fst (dto A a))) (snd (dto A a)) Hp) as PL.
    assert (D1' : is_dart B (flip (h a))) by (apply is_dart_flip; auto). assert (D2' : is_dart B (flip (h b))) by (apply is_dart_flip; auto).
    destruct SO as [EO|EO]; rewrite EO in *.
    + apply left_turn_dto. split; auto. split; auto. rewrite E1. cbn [fst snd]. split; [apply place_lt|]. rewrite E3. f_equal. exact PL.
    + apply left_turn_dto. split; auto. split; auto. rewrite E3. cbn [fst snd]. split; [apply place_lt|]. rewrite flip_flip, E1. f_equal. exact PL.
Qed.
Lemma from_cross : cross_fits -> exists h, lifted A B m h o.
Proof.
  intros H.
  destruct (finite_choice (fun c c' => exists x y, nth_error (p_cross A) c = Some x /\ nth_error (p_cross B) c' = Some y /\
    rotation (turned o (around_cross y)) (map m (around_cross x))) (ncross A)) as (kc & KC).
  { intros c Hc. destruct (nth_error (p_cross A) c) as [x|] eqn:X; [|apply nth_error_None in X; unfold ncross in Hc; lia].
    destruct (H c x X) as (c' & y & Hy & Ro). exists c', x, y. auto. }
  destruct (finite_choice (fun c r => exists x y, nth_error (p_cross A) c = Some x /\ nth_error (p_cross B) (kc c) = Some y /\ forall p, p < 4 -> m (cedge x p) = cedge y (place o r p)) (ncross A)) as (rt & RT).
  { intros c Hc. destruct (KC c Hc) as (x & y & Hx & Hy & Ro). apply rotation_places in Ro as (r & Hr & K); auto. exists r, x, y. auto. }
  destruct (lift_along kc rt RT) as (h & L & _). eauto.
Qed.

Lemma in_face : forall (d : pd) f F a, face_partition d (p_face d) -> nth_error (p_face d) f = Some F -> In a F -> is_dart d a.
Proof. intros d f F a (_ & _ & C) HF I. apply C, in_concat. exists F. split; auto. eapply nth_error_In; eauto. Qed.
Lemma unique_dart : forall d, sphere d -> forall f F a b, nth_error (p_face d) f = Some F -> In a F -> In b F -> fst a = fst b -> a = b.
Proof.
  intros d SD f F a b HF Ia Ib E.
  pose proof (face_edges_distinct d (sp_recorded d SD) (sp_ends d SD) (sp_faces d SD) (sp_nfaces d SD) (sp_connected d SD) F (nth_error_In _ _ HF)) as ND.
  apply In_nth_error in Ia as (i & Hi). apply In_nth_error in Ib as (j & Hj).
  assert (i = j).
  { apply (proj1 (NoDup_nth_error (map fst F)) ND).
    - rewrite map_length. apply nth_error_Some. congruence.
    - rewrite !nth_error_map, Hi, Hj. cbn. congruence. }
  subst. congruence.
Qed.

Lemma turned_perm : forall (l k : list nat), rotation (turned o l) k -> Permutation l k.
Proof. intros l k Ro. apply rotation_perm in Ro. rewrite <- Ro. destruct o; cbn; auto; apply Permutation_rev. Qed.
Lemma PM : forall F F' : face, rotation (turned o (map fst F')) (map m (map fst F)) -> Permutation (map fst F') (map m (map fst F)).
Proof. intros F F'. apply turned_perm. Qed.
(** two faces of A with the same image are the same *)
Lemma same_face : forall f g (F G F' : face), nth_error (p_face A) f = Some F -> nth_error (p_face A) g = Some G ->
  rotation (turned o (map fst F')) (map m (map fst F)) -> rotation (turned o (map fst F')) (map m (map fst G)) -> f = g.
Proof.
  intros f g F G F' H1 H3 Ro Ro'. apply PM in Ro, Ro'.
  apply (faces_distinct A RA TA FA (sp_nfaces A SA) (sp_connected A SA) (sp_some A SA) f g F G); auto.
  assert (P : Permutation (map m (map fst F)) (map m (map fst G))) by (rewrite <- Ro, <- Ro'; auto).
  assert (Q : forall (F G : face) f g, nth_error (p_face A) f = Some F -> nth_error (p_face A) g = Some G -> Permutation (map m (map fst F)) (map m (map fst G)) -> forall e, In e (map fst F) -> In e (map fst G)).
  { clear - FA BM. intros F G f g H1 H3 P e I. assert (J : In (m e) (map m (map fst G))) by (eapply Permutation_in; [exact P|apply in_map; auto]).
    apply in_map_iff in J as (e' & E & J). replace e with e'; auto.
    apply in_map_iff in I as (a & <- & I). apply in_map_iff in J as (b & <- & J).
    apply BM in E; auto; [eapply (in_face A g G b); eauto|eapply (in_face A f F a); eauto]. }
  intros e. split; [eapply (Q F G f g)|eapply (Q G F g f)]; eauto. symmetry. auto.
Qed.

Lemma from_face : face_fits -> exists h, lifted A B m h o.
Proof.
  intros H.
  destruct (finite_choice (fun f f' => exists F F', nth_error (p_face A) f = Some F /\ nth_error (p_face B) f' = Some F' /\
    rotation (turned o (map fst F')) (map m (map fst F))) (nfaces A)) as (kf & KF).
  { intros f Hf. destruct (nth_error (p_face A) f) as [F|] eqn:X; [|apply nth_error_None in X; unfold nfaces in Hf; lia].
    destruct (H f F X) as (f' & F' & HF' & Ro). exists f', F, F'. auto. }
  assert (KI : forall f g, f < nfaces A -> g < nfaces A -> kf f = kf g -> f = g).
  { intros f g Hf Hg E. destruct (KF f Hf) as (F & F' & H1 & H2 & Ro). destruct (KF g Hg) as (G & G' & H3 & H4 & Ro').
    rewrite E, H4 in H2. injection H2 as ->. eapply same_face; eauto. }
  set (h' := fun a => match find (fun b => fst b =? m (fst a)) (nth (kf (fno A a)) (p_face B) []) with Some b => b | None => a end).
  assert (HD : forall a, is_dart A a -> exists F', nth_error (p_face B) (kf (fno A a)) = Some F' /\ In (h' a) F' /\ fst (h' a) = m (fst a)).
  { intros a Da. destruct (fno_spec A FA a Da) as (F & HF & Ia). pose proof (fno_lt A FA a Da) as Lf.
    destruct (KF _ Lf) as (F0 & F' & H1 & H2 & Ro). rewrite HF in H1. injection H1 as <-. exists F'. split; auto.
    unfold h'. rewrite (nth_error_nth _ _ [] H2). destruct (find _ F') as [b|] eqn:E.
    - apply find_some in E as (I & E). cbv beta in E. apply Nat.eqb_eq in E. auto.
    - exfalso. assert (I : In (m (fst a)) (map fst F')) by (eapply Permutation_in; [symmetry; apply PM; exact Ro|]; apply in_map, in_map; auto).
      apply in_map_iff in I as (b & Eb & Ib). pose proof (find_none _ _ E b Ib) as K. cbv beta in K. rewrite Eb, Nat.eqb_refl in K. discriminate. }
  assert (DB : forall a, is_dart A a -> is_dart B (h' a)).
  { intros a Da. destruct (HD a Da) as (F' & H1 & I & _). eapply in_face; eauto. }
  assert (HI : forall a b, is_dart A a -> is_dart A b -> h' a = h' b -> a = b).
  { intros a b Da Db E. destruct (HD a Da) as (F' & H1 & I1 & E1). destruct (HD b Db) as (G' & H2 & I2 & E2).
    rewrite E in I1. pose proof (along_unique B FB _ _ _ _ _ H1 H2 I1 I2) as K. apply KI in K; try (apply fno_lt; auto).
    destruct (fno_spec A FA a Da) as (F & HF & Ia). destruct (fno_spec A FA b Db) as (G & HG & Ib). rewrite <- K, HF in HG. injection HG as <-.
    apply (unique_dart A SA _ F a b HF); auto. apply BM; [apply Da|apply Db|congruence]. }
  assert (HF : forall a, is_dart A a -> h' (flip a) = flip (h' a)).
  { intros a Da. assert (Df : is_dart A (flip a)) by (apply is_dart_flip; auto).
    destruct (HD a Da) as (_ & _ & _ & E1). destruct (HD _ Df) as (_ & _ & _ & E2). rewrite flip_fst in E2.
    apply (dart_other B); auto; [congruence|]. intros Q. apply HI in Q; auto. symmetry in Q. exact (flip_ne A a Da Q). }
  assert (LT : forall a b, left_turn A a b -> match o with Pos => left_turn B (h' a) (h' b) | _ => left_turn B (h' b) (h' a) end).
  { intros a b L. destruct (left_turn_darts A a b L) as (Da & Db). destruct (HD a Da) as (F' & H1 & I1 & E1). destruct (HD b Db) as (G' & H2 & I2 & E2).
    pose proof (fno_turn A RA TA FA a b L) as EF. rewrite <- EF, H1 in H2. injection H2 as <-.
    destruct (fno_spec A FA a Da) as (F & HF1 & Ia). destruct (KF _ (fno_lt A FA a Da)) as (F0 & F1 & K1 & K2 & Ro).
    rewrite HF1 in K1. injection K1 as <-. rewrite H1 in K2. injection K2 as <-.
    set (Rel := fun x y => exists a' b', In a' F' /\ In b' F' /\ fst a' = x /\ fst b' = y /\ match o with Pos => left_turn B a' b' | _ => left_turn B b' a' end).
    assert (CY : cyclically Rel (map m (map fst F))).
    { apply (cyclically_rotation _ _ _ _ Ro). destruct (proj1 FB F' (nth_error_In _ _ H1)) as (_ & C).
      unfold Rel. destruct SO as [EO|EO]; rewrite EO; cbn [turned].
      - apply (cyclically_map _ _ (left_turn B)); auto. intros x y Ix Iy LL. exists x, y. auto.
      - rewrite <- map_rev. apply (cyclically_map _ _ (fun x y => left_turn B y x)).
        + intros x y Ix Iy LL. exists x, y. rewrite <- in_rev in Ix, Iy. auto.
        + apply (cyclically_rev _ (left_turn B) (fun x y => left_turn B y x)); auto. }
    apply In_nth_error in Ia as (i & Hi). assert (Li : i < length F) by (apply nth_error_Some; congruence).
    assert (Lm : (i + 1) mod length F < length F) by (apply Nat.mod_upper_bound; lia).
    destruct (nth_error F ((i + 1) mod length F)) as [b'|] eqn:Hb; [|apply nth_error_None in Hb; lia].
    destruct (proj1 FA F (nth_error_In _ _ HF1)) as (_ & C). pose proof (C i a b' Hi Hb) as L'.
    assert (b = b') by exact (left_turn_fun A a b b' RA TA L L'). subst b'.
    destruct (CY i (m (fst a)) (m (fst b))) as (a' & b' & J1 & J2 & J3 & J4 & J5).
    - rewrite !nth_error_map, Hi. auto.
    - rewrite !map_length, !nth_error_map, Hb. auto.
    - assert (a' = h' a) by (apply (unique_dart B SB _ F' a' (h' a) H1); auto; congruence).
      assert (b' = h' b) by (apply (unique_dart B SB _ F' b' (h' b) H1); auto; congruence). subst. exact J5. }
  destruct SO as [EO|EO].
  - exists h'. constructor; auto.
    + intros a Da. split; auto. destruct (HD a Da) as (_ & _ & _ & E). auto.
    + intros a b L. specialize (LT a b L). rewrite EO in *. exact LT.
  - exists (fun a => flip (h' a)). constructor.
    + intros a Da. split; [apply is_dart_flip; auto|]. rewrite flip_fst. destruct (HD a Da) as (_ & _ & _ & E). auto.
    + intros a Da. rewrite HF; auto.
    + intros a b L. specialize (LT a b L). rewrite EO in *. rewrite !flip_flip. exact LT.
Qed.

Section Down.
Context (h : dart -> dart) (LF : lifted A B m h o).

Lemma lf_inj : forall a b, is_dart A a -> is_dart A b -> h a = h b -> a = b.
Proof.
  intros a b Da Db E. destruct (lf_dart _ _ _ _ _ LF a Da) as (D1 & E1). destruct (lf_dart _ _ _ _ _ LF b Db) as (D2 & E2).
  assert (EF : fst a = fst b) by (apply BM; [apply Da|apply Db|congruence]).
  destruct (dart_dec a b) as [|N]; auto. exfalso.
  rewrite (dart_other A a b Da Db EF N) in E. rewrite (lf_flip _ _ _ _ _ LF a Da) in E. symmetry in E. exact (flip_ne B _ D1 E).
Qed.

Lemma to_cross : cross_fits.
Proof.
  intros c x Hx. assert (Hc : c < ncross A) by (apply nth_error_Some; congruence).
  set (g := fun p => dto B (h (arr A c p))).
  assert (GD : forall p, p < 4 -> is_dart B (h (arr A c p)) /\ slot B (fst (g p)) (snd (g p)) (m (cedge x p))).
  { intros p Hp. destruct (arr_spec A RA TA c p Hc Hp) as (D & _). destruct (lf_dart _ _ _ _ _ LF _ D) as (D1 & E1). split; auto.
    pose proof (dto_slot B _ RB D1) as S. rewrite E1 in S. rewrite (arr_slot A RA TA c p (cedge x p)) in S; auto. split; auto. exists x. auto. }
  assert (ST : forall p, p < 4 -> match o with Pos => g ((p + 3) mod 4) = (fst (g p), (snd (g p) + 3) mod 4)
     | _ => g p = (fst (g ((p + 3) mod 4)), (snd (g ((p + 3) mod 4)) + 3) mod 4) end).
  { intros p Hp. assert (Hp3 : (p + 3) mod 4 < 4) by apply mod4_lt. destruct (arr_spec A RA TA c p Hc Hp) as (D & E).
    destruct (arr_spec A RA TA c _ Hc Hp3) as (D3 & E3).
    assert (L : left_turn A (arr A c p) (flip (arr A c ((p + 3) mod 4)))).
    { apply left_turn_dto. split; auto. split; [apply is_dart_flip; auto|]. rewrite E, flip_flip, E3. cbn. auto. }
    pose proof (lf_turn _ _ _ _ _ LF _ _ L) as L'. rewrite (lf_flip _ _ _ _ _ LF _ D3) in L'. unfold g.
    destruct SO as [EO|EO]; rewrite EO in *; apply left_turn_dto in L' as (_ & _ & _ & K).
    - rewrite flip_flip in K. exact K.
    - rewrite !flip_flip in K. exact K. }
  assert (G0 : fst (g 0) < ncross B /\ snd (g 0) < 4) by (destruct (GD 0) as (_ & S); [lia|]; apply slot_lt in S; auto).
  destruct G0 as (C0 & P0).
  destruct (nth_error (p_cross B) (fst (g 0))) as [y|] eqn:Hy; [|apply nth_error_None in Hy; unfold ncross in C0; lia].
  exists (fst (g 0)), y. split; auto. apply rotation_places; auto.
  assert (GP : forall p, p < 4 -> exists q, g p = (fst (g 0), q) /\ q < 4 /\ q = place o (match o with Pos => snd (g 0) | _ => 3 - snd (g 0) end) p).
  { assert (L4 : forall p, p < 4 -> snd (g p) < 4) by (intros p Hp; destruct (GD p Hp) as (_ & S); apply slot_lt in S; apply S).
    pose proof (ST 0 ltac:(lia)) as S0. pose proof (ST 3 ltac:(lia)) as S3. pose proof (ST 2 ltac:(lia)) as S2. pose proof (ST 1 ltac:(lia)) as S1.
    cbn [Nat.add] in S0, S1, S2, S3. change (3 mod 4) with 3 in *. change (4 mod 4) with 0 in *. change (5 mod 4) with 1 in *. change (6 mod 4) with 2 in *.
    assert (Z : forall a b c e q0 q1 q2 q3 : nat, q0 < 4 -> q1 < 4 -> q2 < 4 -> q3 < 4 -> match o with
        Pos => (e, q3) = (a, (q0 + 3) mod 4) /\ (c, q2) = (e, (q3 + 3) mod 4) /\ (b, q1) = (c, (q2 + 3) mod 4)
        | _ => (a, q0) = (e, (q3 + 3) mod 4) /\ (e, q3) = (c, (q2 + 3) mod 4) /\ (c, q2) = (b, (q1 + 3) mod 4) end ->
       (e = a /\ c = a /\ b = a) /\ q1 = place o (match o with Pos => q0 | _ => 3 - q0 end) 1 /\ q2 = place o (match o with Pos => q0 | _ => 3 - q0 end) 2 /\ q3 = place o (match o with Pos => q0 | _ => 3 - q0 end) 3 /\ q0 = place o (match o with Pos => q0 | _ => 3 - q0 end) 0).
    { clear - SO. intros a b c e q0 q1 q2 q3 L0 L1 L2 L3 H. unfold place. destruct SO as [->| ->]; destruct H as (H1 & H2 & H3); apply pair_equal_spec in H1 as (X1 & Y1), H2 as (X2 & Y2), H3 as (X3 & Y3); (split; [intuition congruence|]); clear X1 X2 X3;
        destruct (small4 q0 L0) as [->|[->|[->| ->]]], (small4 q1 L1) as [->|[->|[->| ->]]], (small4 q2 L2) as [->|[->|[->| ->]]], (small4 q3 L3) as [->|[->|[->| ->]]];
        cbn in *; try discriminate; auto. }
    destruct (Z (fst (g 0)) (fst (g 1)) (fst (g 2)) (fst (g 3)) (snd (g 0)) (snd (g 1)) (snd (g 2)) (snd (g 3))) as ((Z1 & Z2 & Z3) & Q1 & Q2 & Q3 & Q0); try (apply L4; lia).
    { destruct SO as [EO|EO]; rewrite EO in *; rewrite <- !surjective_pairing; auto. }
    intros p Hp. exists (snd (g p)). split; [|split; [apply L4; auto|]].
    - destruct (small4 p Hp) as [->|[->|[->| ->]]]; rewrite (surjective_pairing (g _)) at 1; congruence.
    - destruct (small4 p Hp) as [->|[->|[->| ->]]]; auto. }
  exists (match o with Pos => snd (g 0) | _ => 3 - snd (g 0) end). split; [destruct o; lia|]. intros p Hp.
  destruct (GP p Hp) as (q & E1 & L1 & E2). destruct (GD p Hp) as (_ & S). rewrite E1 in S. cbn [fst snd] in S.
  destruct S as (_ & z & Hz & Ez). rewrite Hy in Hz. injection Hz as <-. rewrite <- Ez, E2. auto.
Qed.

Lemma to_face : face_fits.
Proof.
  intros f F HF. destruct FA as (A1 & A2 & A3). destruct (A1 F (nth_error_In _ _ HF)) as (NF & CY).
  assert (DF : forall a, In a F -> is_dart A a) by (intros a I; apply A3, in_concat; exists F; split; auto; eapply nth_error_In; eauto).
  assert (ND : NoDup F) by (apply (Cycles.block_nodup (p_face A)); auto; eapply nth_error_In; eauto).
  assert (Q : forall l, l <> [] -> (forall a, In a l -> is_dart B a) -> NoDup l -> cyclically (left_turn B) l ->
    exists f' F', nth_error (p_face B) f' = Some F' /\ rotation F' l).
  { intros l Nl Dl NDl Cl. destruct l as [|a l]; [congruence|]. destruct (fno_spec B FB a) as (F' & HF' & Ia); [apply Dl; cbn; auto|].
    exists (fno B a), F'. split; auto. destruct FB as (B1 & B2 & B3). destruct (B1 F' (nth_error_In _ _ HF')) as (NF' & CY').
    apply (cycles_rotate _ (turn B) _ _ a); try (cbn; auto; fail).
    - split; auto. intros i x y Hx Hy. apply (turn_left B RB TB x y); [|eapply CY'; eauto]. apply B3, in_concat. exists F'. split; eapply nth_error_In; eauto.
    - split; auto. intros i x y Hx Hy. apply (turn_left B RB TB x y); [|eapply Cl; eauto]. apply Dl. eapply nth_error_In; eauto.
    - apply (Cycles.block_nodup (p_face B)); auto. eapply nth_error_In; eauto. }
  destruct SO as [EO|EO].
  - destruct (Q (map h F)) as (f' & F' & H1 & H2).
    + destruct F; cbn; congruence.
    + intros b I. apply in_map_iff in I as (a & <- & I). apply (lf_dart _ _ _ _ _ LF); auto.
    + apply NoDup_map_on; auto. intros a b Ia Ib. apply lf_inj; auto.
    + apply (cyclically_map _ _ (left_turn A)); auto. intros a b Ia Ib L. pose proof (lf_turn _ _ _ _ _ LF a b L) as K. rewrite EO in K. exact K.
    + exists f', F'. split; auto. rewrite EO. cbn [turned]. apply (rotation_map _ _ fst) in H2.
      replace (map m (map fst F)) with (map fst (map h F)); auto. rewrite !map_map. apply map_ext_in. intros a I. apply (lf_dart _ _ _ _ _ LF); auto.
  - destruct (Q (map (fun a => flip (h a)) (rev F))) as (f' & F' & H1 & H2).
    + intros E. apply map_eq_nil in E. apply NF. rewrite <- (rev_involutive F), E. auto.
    + intros b I. apply in_map_iff in I as (a & <- & I). apply is_dart_flip. apply in_rev in I. apply (lf_dart _ _ _ _ _ LF); auto.
    + apply NoDup_map_on; [apply NoDup_rev; auto|]. intros a b Ia Ib E. apply in_rev in Ia, Ib. apply lf_inj; auto. rewrite <- (flip_flip (h a)), E. apply flip_flip.
    + apply (cyclically_map _ _ (fun x y => left_turn A y x)).
      * intros a b Ia Ib L. pose proof (lf_turn _ _ _ _ _ LF _ _ L) as K. rewrite EO in K. exact K.
      * apply (cyclically_rev _ (left_turn A) (fun x y => left_turn A y x)); auto.
    + exists f', F'. split; auto. rewrite EO. cbn [turned]. apply (rotation_map _ _ fst) in H2. apply rotation_rev in H2.
      replace (map m (map fst F)) with (rev (map fst (map (fun a => flip (h a)) (rev F)))); auto.
      rewrite map_rev, map_rev, rev_involutive, !map_map. apply map_ext_in. intros a I. rewrite flip_fst. apply (lf_dart _ _ _ _ _ LF); auto.
Qed.

Lemma lf_straight : forall a b, straight A a b -> straight B (h a) (h b).
Proof.
  intros a b S. pose proof S as (Da & Db & _). apply straight_turns in S as (x & L1 & L2); auto.
  pose proof (left_turn_darts A a x L1) as (_ & Dx). pose proof (lf_turn _ _ _ _ _ LF _ _ L1) as K1. pose proof (lf_turn _ _ _ _ _ LF _ _ L2) as K2.
  rewrite (lf_flip _ _ _ _ _ LF x Dx) in K2. destruct SO as [EO|EO]; rewrite EO in *.
  - apply straight_turns; auto. exists (h x). auto.
  - rewrite flip_flip in K2. rewrite <- (flip_flip (h a)), <- (flip_flip (h b)). apply straight_back; auto. apply straight_turns; auto. exists (h x). auto.
Qed.

Definition comp_fits (i j : nat) (s : orient) : Prop := forall C, nth_error (p_comp A) i = Some C ->
  exists C', nth_error (p_comp B) j = Some C' /\ rotation (turned s (cp_edge C')) (map m (cp_edge C)).

Lemma comp_edges_lt : forall d i C e, sphere d -> nth_error (p_comp d) i = Some C -> In e (cp_edge C) -> e < nedges d.
Proof.
  intros d i C e SD HC I. destruct (sp_comps d SD) as (E & _). assert (J : In e (concat (map cp_edge (p_comp d)))).
  { apply in_concat. exists (cp_edge C). split; auto. apply in_map. eapply nth_error_In; eauto. }
  rewrite E in J. apply in_seq in J. lia.
Qed.
Lemma comp_of_edge : forall d e, sphere d -> e < nedges d -> exists i C, nth_error (p_comp d) i = Some C /\ In e (cp_edge C).
Proof.
  intros d e SD L. destruct (sp_comps d SD) as (E & _). assert (J : In e (concat (map cp_edge (p_comp d)))) by (rewrite E; apply in_seq; lia).
  apply in_concat in J as (l & J & I). apply in_map_iff in J as (C & <- & J). apply In_nth_error in J as (i & Hi). exists i, C. auto.
Qed.
Lemma comp_nodup : forall d i C, sphere d -> nth_error (p_comp d) i = Some C -> NoDup (cp_edge C).
Proof.
  intros d i C SD HC. destruct (sp_comps d SD) as (E & _). apply (Cycles.block_nodup (map cp_edge (p_comp d))); [rewrite E; apply seq_NoDup|].
  apply in_map. eapply nth_error_In; eauto.
Qed.

Lemma to_comp : forall i, i < ncomps A -> exists j s, j < ncomps B /\ sign_like s /\ comp_fits i j s.
Proof.
  intros i Hi. destruct (nth_error (p_comp A) i) as [C|] eqn:HC; [|apply nth_error_None in HC; unfold ncomps in Hi; lia].
  destruct (sp_comps A SA) as (_ & CA & _). destruct (CA C (nth_error_In _ _ HC)) as (NC & CY).
  assert (LT : forall e, In e (cp_edge C) -> is_dart A (e, Pos)) by (intros e I; split; [eapply comp_edges_lt; eauto|cbn; auto]).
  pose proof (comp_nodup A i C SA HC) as ND.
  set (s := snd (h (List.hd 0 (cp_edge C), Pos))).
  assert (ST : forall k, k < length (cp_edge C) -> h (nth k (cp_edge C) 0, Pos) = (m (nth k (cp_edge C) 0), s)).
  { assert (FM : forall e, In e (cp_edge C) -> h (e, Pos) = (m e, snd (h (e, Pos)))).
    { intros e I. destruct (lf_dart _ _ _ _ _ LF _ (LT e I)) as (_ & E). cbn in E. rewrite (surjective_pairing (h (e, Pos))) at 1. congruence. }
    induction k as [|k IH]; intros Hk.
    - rewrite FM by (apply nth_In; auto). unfold s. destruct (cp_edge C); auto.
    - rewrite FM by (apply nth_In; auto). f_equal. specialize (IH ltac:(lia)).
      assert (CC : continues A (nth k (cp_edge C) 0) (nth (S k) (cp_edge C) 0)).
      { apply (CY k); [apply nth_error_nth'; lia|]. rewrite Nat.mod_small by lia. rewrite Nat.add_1_r. apply nth_error_nth'; lia. }
      apply continues_straight in CC; auto. apply lf_straight in CC. apply straight_sign in CC; auto. rewrite IH in CC. cbn [snd] in CC. auto. }
  assert (SS : sign_like s).
  { assert (I : In (List.hd 0 (cp_edge C)) (cp_edge C)) by (destruct (cp_edge C); [congruence|cbn; auto]).
    destruct (lf_dart _ _ _ _ _ LF _ (LT _ I)) as ((_ & D) & _). exact D. }
  assert (FM : forall e, In e (cp_edge C) -> h (e, Pos) = (m e, s)).
  { intros e I. apply In_nth_error in I as (k & Hk). assert (k < length (cp_edge C)) by (apply nth_error_Some; congruence).
    rewrite <- (nth_error_nth _ _ 0 Hk). auto. }
  assert (MC : cyclically (fun a b => straight B (a, s) (b, s)) (map m (cp_edge C))).
  { apply (cyclically_map _ _ (continues A)); auto. intros a b Ia Ib CC. apply continues_straight in CC; auto. apply lf_straight in CC.
    rewrite !FM in CC by auto. exact CC. }
  assert (NM : NoDup (map m (cp_edge C))).
  { apply NoDup_map_on; auto. intros a b Ia Ib E. apply BM in E; auto; eapply comp_edges_lt; eauto. }
  assert (LM : forall e, In e (map m (cp_edge C)) -> e < nedges B).
  { intros e I. apply in_map_iff in I as (a & <- & I). rewrite NE. apply BM. eapply comp_edges_lt; eauto. }
  assert (Q : forall l, l <> [] -> (forall e, In e l -> e < nedges B) -> NoDup l -> cyclically (continues B) l ->
    exists j C', nth_error (p_comp B) j = Some C' /\ rotation (cp_edge C') l).
  { intros l Nl Ll NDl Cl. destruct l as [|a l]; [congruence|]. destruct (comp_of_edge B a SB) as (j & C' & HC' & Ia); [apply Ll; cbn; auto|].
    exists j, C'. split; auto. destruct (sp_comps B SB) as (_ & CB & _). destruct (CB C' (nth_error_In _ _ HC')) as (NC' & CY').
    apply (cycles_rotate _ (succ B) _ _ a); auto; try (cbn; auto; fail).
    - split; auto. intros k x y Hx Hy. apply (continues_succ B RB (sp_through B SB)). eapply CY'; eauto.
    - split; auto. intros k x y Hx Hy. apply (continues_succ B RB (sp_through B SB)). eapply Cl; eauto.
    - eapply comp_nodup; eauto. }
  assert (NN : map m (cp_edge C) <> []) by (intros E; apply map_eq_nil in E; auto).
  destruct SS as [ES|ES]; rewrite ES in *.
  - destruct (Q (map m (cp_edge C))) as (j & C' & HC' & Ro); auto.
    { intros k x y Hx Hy. apply continues_straight; auto. eapply MC; eauto. }
    exists j, Pos. split; [apply nth_error_Some; congruence|]. split; [left; auto|]. intros C0 H0. rewrite HC in H0. injection H0 as <-. exists C'. auto.
  - destruct (Q (rev (map m (cp_edge C)))) as (j & C' & HC' & Ro); auto.
    { intros E. apply NN. rewrite <- (rev_involutive (map m _)), E. auto. }
    { intros e I. apply in_rev in I. auto. }
    { apply NoDup_rev; auto. }
    { apply (cyclically_rev _ (fun a b => straight B (a, Neg) (b, Neg))); auto. intros a b Ia Ib S. apply continues_straight; auto.
      apply (straight_back B (a, Neg) (b, Neg)) in S; auto. }
    exists j, Neg. split; [apply nth_error_Some; congruence|]. split; [right; auto|]. intros C0 H0. rewrite HC in H0. injection H0 as <-. exists C'.
    split; auto. apply rotation_rev in Ro. rewrite rev_involutive in Ro. exact Ro.
Qed.
End Down.

Theorem cross_face : cross_fits <-> face_fits.
Proof. split; intros H; [apply from_cross in H as (h & L); eapply to_face; eauto|apply from_face in H as (h & L); eapply to_cross; eauto]. Qed.
End Lift.
