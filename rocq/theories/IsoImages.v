(** Lemmas for the completeness of the isomorphism search: crossing maps and face maps. *)
From Coq Require Import List ZArith Lia Bool Arith Permutation Sorted.
From Verif Require Import Base ListAux Iterators PermData Perm PermProofs Sorting Cycles Pd PdSpec PdProofs PdFaces PdFacesProofs PdCross Relabel RelabelProofs
  PdCrossProofs HashSpec HashProofs RegenSpec PdIso IsoSpec IsoOpsProofs DiagIso IsoSound Planar Carry LinkProofs Thm_Planar DartMap AlikeProofs.
From Verif Require PdStore PdStoreProofs IteratorsProofs.
Import ListNotations.
Open Scope nat_scope.

(** * Binary search *)
Lemma bsearch_loop_spec : forall cmp n, (forall i j, i < j -> j < n -> cmp i = Lt -> cmp j = Lt) ->
  (forall i j, i < j -> j < n -> cmp j = Gt -> cmp i = Gt) ->
  forall fuel l u, u - l < fuel -> u <= n -> (forall i, i < n -> cmp i = Eq -> l <= i < u) ->
  match bsearch_loop fuel cmp l u with Some i => i < n /\ cmp i = Eq | None => forall i, i < n -> cmp i <> Eq end.
Proof.
  intros cmp n H1 H2. induction fuel as [|fuel IH]; intros l u F U H; [lia|]. cbn [bsearch_loop].
  destruct (Nat.ltb_spec l u) as [L|L]; [|intros i Hi E; specialize (H i Hi E); lia].
  pose proof (Nat.div_mod (l + u) 2 ltac:(lia)) as D. pose proof (Nat.mod_upper_bound (l + u) 2 ltac:(lia)) as M.
  set (i := (l + u) / 2) in *. clearbody i. destruct (cmp i) eqn:E.
  - split; auto. lia.
  - apply IH; try lia. intros j Hj Ej. specialize (H j Hj Ej). destruct (lt_eq_lt_dec j i) as [[K|K]|K]; [lia|congruence|].
    rewrite (H1 i j) in Ej; auto; discriminate.
  - apply IH; try lia. intros j Hj Ej. specialize (H j Hj Ej). destruct (lt_eq_lt_dec j i) as [[K|K]|K]; [|congruence|lia].
    rewrite (H2 j i) in Ej; auto; try discriminate. lia.
Qed.
Lemma bsearch_spec : forall cmp n, (forall i j, i < j -> j < n -> cmp i = Lt -> cmp j = Lt) ->
  (forall i j, i < j -> j < n -> cmp j = Gt -> cmp i = Gt) ->
  match bsearch cmp n with Some i => i < n /\ cmp i = Eq | None => forall i, i < n -> cmp i <> Eq end.
Proof. intros cmp n H1 H2. apply bsearch_loop_spec; auto; lia. Qed.

Lemma sorted_lt : forall A (R : A -> A -> Prop) l d, StronglySorted R l -> forall i j, i < j -> j < length l -> R (nth i l d) (nth j l d).
Proof.
  intros A R l d S. induction S as [|x l S IH F]; intros i j Hij Hj; [cbn in Hj; lia|]. cbn in Hj. destruct j as [|j]; [lia|]. destruct i as [|i]; cbn [nth].
  - rewrite Forall_forall in F. apply F, nth_In. lia.
  - apply IH; lia.
Qed.
(** in a sorted list *)
Lemma sorted_search : forall A (c : list nat -> list nat -> comparison) (le : list nat -> list nat -> Prop) (key : A -> list nat) (k : list nat) (l : list A) d,
  (forall a b, not_gt (c a b) = true <-> le a b) -> (forall x y z, le x y -> le y z -> le x z) ->
  (forall a b, c b a = CompOpp (c a b)) -> (forall a b, c a b = Eq <-> a = b) ->
  StronglySorted le (map key l) ->
  match bsearch (fun i => c k (key (nth i l d))) (length l) with
  | Some i => exists y, nth_error l i = Some y /\ key y = k
  | None => forall y, In y l -> key y <> k
  end.
Proof.
  intros A c le key k l d SP TR OP EQ SS.
  assert (LE : forall i j, i < j -> j < length l -> le (key (nth i l d)) (key (nth j l d))).
  { intros i j Hij Hj. pose proof (sorted_lt _ _ _ (key d) SS i j Hij) as Q. rewrite map_length, !map_nth in Q. auto. }
  assert (GT : forall a b, c a b = Gt -> le b a) by (intros a b E; apply SP; rewrite OP, E; reflexivity).
  assert (M1 : forall i j, i < j -> j < length l -> c k (key (nth i l d)) = Lt -> c k (key (nth j l d)) = Lt).
  { intros i j Hij Hj E. destruct (c k (key (nth j l d))) eqn:E2; auto; exfalso.
    - apply EQ in E2. pose proof (LE i j Hij Hj) as K. rewrite <- E2 in K. apply SP in K. rewrite OP, E in K. discriminate.
    - pose proof (TR _ _ _ (LE i j Hij Hj) (GT _ _ E2)) as K. apply SP in K. rewrite OP, E in K. discriminate. }
  assert (M2 : forall i j, i < j -> j < length l -> c k (key (nth j l d)) = Gt -> c k (key (nth i l d)) = Gt).
  { intros i j Hij Hj E. pose proof (TR _ _ _ (LE i j Hij Hj) (GT _ _ E)) as K. apply SP in K. destruct (c k (key (nth i l d))) eqn:E2; auto; exfalso.
    - apply EQ in E2. pose proof (LE i j Hij Hj) as K2. rewrite <- E2 in K2. apply SP in K2. rewrite E in K2. discriminate.
    - rewrite OP, E2 in K. discriminate. }
  pose proof (bsearch_spec (fun i => c k (key (nth i l d))) (length l) M1 M2) as Q. cbv beta in Q.
  destruct (bsearch _ _) as [i|].
  - destruct Q as (Hi & E). exists (nth i l d). split; [apply nth_error_nth'; auto|]. apply EQ in E. auto.
  - intros y I E. apply In_nth_error in I as (i & Hi). assert (L : i < length l) by (apply nth_error_Some; congruence).
    apply (Q i L). apply EQ. rewrite (nth_error_nth _ _ d Hi). auto.
Qed.

(** * The image of a crossing *)
Lemma turned_turned : forall A o (l : list A), turned o (turned o l) = l.
Proof. intros A [] l; cbn; auto using rev_involutive. Qed.
Lemma turned_rotation : forall A o (a b : list A), rotation a b -> rotation (turned o a) (turned o b).
Proof. intros A [] a b H; cbn; auto using rotation_rev. Qed.
Lemma rotate_left_rotation : forall z k, k < 4 -> rotation (around_cross z) (around_cross (rotate_left z k)).
Proof.
  intros z k Hk. destruct (small4 k Hk) as [->|[->|[->| ->]]].
  - exists [], (around_cross z). auto.
  - exists [ce0 z], [ce1 z; ce2 z; ce3 z]. auto.
  - exists [ce0 z; ce1 z], [ce2 z; ce3 z]. auto.
  - exists [ce0 z; ce1 z; ce2 z], [ce3 z]. auto.
Qed.
Lemma canonorder_rotates_cross : forall x o, sign_like o -> exists z, around_cross z = turned o (around_cross x) /\ canonorder_cross x o = rotate_left z (cross_rdist z).
Proof.
  intros x o [->| ->]; unfold canonorder_cross; cbn [turned].
  - exists x. auto.
  - exists (mkCross (ce3 x) (ce2 x) (ce1 x) (ce0 x) (csign x)). auto.
Qed.
Lemma around_cedge : forall a b, around_cross a = around_cross b -> forall p, p < 4 -> cedge a p = cedge b p.
Proof. intros a b E p Hp. unfold around_cross in E. injection E as E0 E1 E2 E3. destruct (small4 p Hp) as [->|[->|[->| ->]]]; auto. Qed.
Lemma rotation_cedge : forall a b, rotation (around_cross a) (around_cross b) -> exists k, k < 4 /\ forall p, p < 4 -> cedge b p = cedge a ((p + k) mod 4).
Proof.
  intros a b Ro. destruct (rotation_nth _ _ _ 0 Ro) as (_ & k & Hk & K); [discriminate|]. cbn [length around_cross] in *.
  exists k. split; auto. assert (N : forall x p, p < 4 -> nth p (around_cross x) 0 = cedge x p) by (intros x p Hp; destruct (small4 p Hp) as [->|[->|[->| ->]]]; reflexivity).
  intros p Hp. rewrite <- !N by auto using mod4_lt. apply K; auto.
Qed.
(** a crossing that starts at its lowest edge, with no edge across, is the only such in its cyclic class *)
Lemma lowest_unique : forall a b, starts_at_lowest a -> starts_at_lowest b -> cedge a 2 <> cedge a 0 ->
  rotation (around_cross a) (around_cross b) -> around_cross a = around_cross b.
Proof.
  intros a b (A1 & A2) (B1 & B2) A3 Ro. apply rotation_cedge in Ro as (k & Hk & K).
  pose proof (K 0 ltac:(lia)) as K0. pose proof (K 1 ltac:(lia)) as K1. pose proof (K 2 ltac:(lia)) as K2. pose proof (K 3 ltac:(lia)) as K3.
  pose proof (A1 1 ltac:(lia)) as L1. pose proof (A1 2 ltac:(lia)) as L2. pose proof (A1 3 ltac:(lia)) as L3.
  pose proof (B1 1 ltac:(lia)) as M1. pose proof (B1 2 ltac:(lia)) as M2. pose proof (B1 3 ltac:(lia)) as M3.
  destruct (small4 k Hk) as [->|[->|[->| ->]]]; cbn [Nat.add] in *;
    change (1 mod 4) with 1 in *; change (0 mod 4) with 0 in *; change (2 mod 4) with 2 in *; change (3 mod 4) with 3 in *;
    change (4 mod 4) with 0 in *; change (5 mod 4) with 1 in *; change (6 mod 4) with 2 in *; cbn [cedge] in *.
  - unfold around_cross. congruence.
  - exfalso. lia.
  - exfalso. lia.
  - exfalso. lia.
Qed.

Lemma bsearch_ext : forall f g n, (forall i, f i = g i) -> bsearch f n = bsearch g n.
Proof.
  intros f g n H. unfold bsearch. generalize (S n) as fuel, 0 as a. intros fuel. generalize n as b. clear n.
  induction fuel as [|fuel IH]; intros b a; cbn [bsearch_loop]; auto. rewrite H. rewrite !IH. reflexivity.
Qed.

Section Maps.
Context (A B : pd) (SA : sphere A) (SB : sphere B) (NE : nedges B = nedges A) (NX : ncross B = ncross A).
Context (CB : crossings_canonical B) (LB : Forall starts_low (p_face B)) (OB : faces_sorted B).
Context (mm : list nat) (LM : length mm = nedges A).
Let m (e : nat) : nat := nth e mm 0.
Context (BM : bij_on (nedges A) m) (o : orient) (SO : sign_like o).

Definition cross_to (x : crossing) (i : nat) : Prop :=
  exists y, nth_error (p_cross B) i = Some y /\ rotation (turned o (around_cross y)) (map m (around_cross x)).
Definition face_to (f : face) (i : nat) : Prop :=
  exists g, nth_error (p_face B) i = Some g /\ rotation (turned o (map fst g)) (map m (map fst f)).

Lemma get_m : forall e, e < nedges A -> get mm e = Ok (m e).
Proof. intros e H. unfold get. rewrite (nth_error_nth' mm 0) by lia. reflexivity. Qed.

Lemma cross_image_spec : forall x, In x (p_cross A) ->
  exists r, cross_image false B mm o x = Ok r /\ match r with Some i => cross_to x i | None => forall i, ~ cross_to x i end.
Proof.
  intros x Hx. apply In_nth_error in Hx as (c & Hc).
  assert (SL : forall p, p < 4 -> cedge x p < nedges A).
  { intros p Hp. apply (edges_lt A SA c p). split; auto. exists x. auto. }
  unfold cross_image. rewrite (get_m (ce0 x)) by (apply (SL 0); lia). rewrite (get_m (ce1 x)) by (apply (SL 1); lia).
  rewrite (get_m (ce2 x)) by (apply (SL 2); lia). rewrite (get_m (ce3 x)) by (apply (SL 3); lia). cbn [bind]. cbv zeta.
  set (x' := mkCross (m (ce0 x)) (m (ce1 x)) (m (ce2 x)) (m (ce3 x)) Unset).
  assert (EX : around_cross x' = map m (around_cross x)) by reflexivity.
  assert (KEY : forall z, In z (p_cross B) -> (cross_edges z = cross_edges (canonorder_cross x' o) <-> rotation (turned o (around_cross z)) (map m (around_cross x)))).
  { intros z Hz. destruct (canonorder_rotates_cross x' o SO) as (y & E1 & E2). rewrite E2. change cross_edges with around_cross.
    pose proof (rotate_left_rotation y (cross_rdist y) (rdist_lt y)) as Ro. split.
    - intros E. rewrite E, <- EX, <- (turned_turned _ o (around_cross x')), <- E1. apply turned_rotation, rotation_sym; auto.
    - intros Rz. rewrite <- EX in Rz. assert (R1 : rotation (around_cross z) (around_cross y)).
      { rewrite E1, <- (turned_turned _ o (around_cross z)). apply turned_rotation; auto. }
      pose proof (rotation_trans _ _ _ _ R1 Ro) as R2.
      apply lowest_unique; auto.
      + apply CB; auto.
      + apply rotated_low. pose proof (consistent_no_triple B (sp_recorded B SB) (sp_ends B SB) z Hz) as NT.
        apply rotation_cedge in R1 as (k & Hk & K). intros p q r Hp Hq Hr N1 N2 N3 F1 F2. rewrite !K in F1, F2 by auto.
        apply (NT ((p + k) mod 4) ((q + k) mod 4) ((r + k) mod 4)); auto using mod4_lt; intros X; apply mod4_inj in X; auto.
      + apply In_nth_error in Hz as (i & Hi). intros X.
        apply (planar_no_edge_across B (sp_recorded B SB) (sp_ends B SB) (sp_faces B SB) (sp_nfaces B SB) (sp_connected B SB) i 0 (cedge z 0)).
        * split; [lia|]. exists z. auto.
        * split; [apply mod4_lt|]. exists z. auto. }
  assert (SR : match bsearch (fun i => pd_cross_cmp (canonorder_cross x' o) (nth i (p_cross B) no_cross)) (ncross B) with
     | Some i => exists y, nth_error (p_cross B) i = Some y /\ cross_edges y = cross_edges (canonorder_cross x' o)
     | None => forall y, In y (p_cross B) -> cross_edges y <> cross_edges (canonorder_cross x' o) end).
  { unfold pd_cross_cmp. apply (sorted_search _ PdStore.kcmp lex_le cross_edges); auto using kcmp_lex, PdStoreProofs.kcmp_opp, PdStoreProofs.kcmp_eq.
    - apply lex_le_trans.
    - apply CB. }
  destruct (bsearch _ _) as [i|].
  - cbn [andb]. eexists. split; [reflexivity|]. destruct SR as (y & Hy & E). exists y. split; auto. apply KEY; auto. eapply nth_error_In; eauto.
  - eexists. split; [reflexivity|]. intros i (y & Hy & Ro). apply nth_error_In in Hy. apply (SR y Hy). apply KEY; auto.
Qed.

(** * The image of a face *)
Lemma rotate_rotation : forall T k (l : list T), rotation l (rotate k l).
Proof. intros T k l. exists (firstn k l), (skipn k l). rewrite firstn_skipn. auto. Qed.
Lemma low_unique : forall a b : list nat, NoDup a -> rotation a b -> (forall x, In x a -> nth 0 a 0 <= x) -> (forall x, In x b -> nth 0 b 0 <= x) -> a = b.
Proof.
  intros a b N Ro LA' LB'. pose proof (rotation_perm _ _ _ Ro) as P. destruct a as [|x a].
  { apply Permutation_nil in P. auto. }
  destruct Ro as (u & v & E1 & E2). destruct v as [|y v]; [rewrite app_nil_r in E1; cbn in E2; congruence|]. destruct u as [|x' u]; [cbn in E1; rewrite app_nil_r in E2; congruence|].
  cbn in E1, E2. injection E1 as <- E1. exfalso.
  assert (In y (x :: a)) by (right; rewrite E1; apply in_or_app; cbn; auto). assert (In x b) by (rewrite E2; right; apply in_or_app; cbn; auto).
  specialize (LA' y H). specialize (LB' x H0). rewrite E2 in LB'. cbn in LA', LB'. assert (x = y) by lia. subst y.
  inversion N as [|? ? NI _]. apply NI. rewrite E1. apply in_or_app. cbn. auto.
Qed.
Lemma starts_low_nth : forall f, starts_low f -> forall x, In x (map fst f) -> nth 0 (map fst f) 0 <= x.
Proof. intros [|a f] H x I; [destruct I|]. apply in_map_iff in I as (b & <- & I). cbn. apply (H a b); auto. Qed.
Lemma big_cmp_opp : forall a b, big_cmp b a = CompOpp (big_cmp a b).
Proof.
  intros a b. unfold big_cmp. rewrite (Nat.compare_antisym (length b) (length a)). destruct (Nat.compare (length b) (length a)); cbn; auto. apply PdStoreProofs.kcmp_opp.
Qed.
Lemma big_cmp_eq : forall a b, big_cmp a b = Eq <-> a = b.
Proof.
  intros a b. unfold big_cmp. destruct (Nat.compare (length b) (length a)) eqn:E.
  - apply PdStoreProofs.kcmp_eq.
  - apply Nat.compare_lt_iff in E. split; [discriminate|]. intros ->. lia.
  - apply Nat.compare_gt_iff in E. split; [discriminate|]. intros ->. lia.
Qed.

Lemma face_image_spec : forall f, In f (p_face A) ->
  exists r, face_image B mm o f = Ok r /\ match r with Some i => face_to f i | None => forall i, ~ face_to f i end.
Proof.
  intros f Hf. pose proof Hf as Hf0. apply In_nth_error in Hf as (c & Hc).
  destruct (proj1 (sp_faces A SA) f Hf0) as (NF & _).
  unfold face_image. rewrite (gather_ok mm (map fst f)).
  2:{ apply Forall_forall. intros e I. apply in_map_iff in I as (a & <- & I). rewrite LM. apply (in_face A c f a (sp_faces A SA) Hc I). }
  cbn [bind]. rewrite !map_length. destruct (Nat.eqb_spec (length f) 0) as [Z|Z]; [destruct f; [congruence|discriminate]|].
  set (es := map (fun e => nth e mm 0) (map fst f)). change es with (map m (map fst f)). clear es.
  set (l := match o with Neg => rev (map (fun e => (e, Neg)) (map m (map fst f))) | _ => map (fun e => (e, Neg)) (map m (map fst f)) end).
  assert (EL : map fst l = turned o (map m (map fst f))).
  { unfold l. destruct SO as [->| ->]; cbn [turned]; rewrite ?map_rev; [|f_equal]; rewrite (map_map (fun e => (e, Neg)) fst), map_id; auto. }
  assert (NL : l <> []).
  { intros E. rewrite E in EL. cbn in EL. symmetry in EL. apply (f_equal (turned o)) in EL. rewrite turned_turned in EL. destruct o; cbn in EL; destruct f; discriminate || congruence. }
  change (canonorder_face_or (map (fun e => (e, Neg)) (map m (map fst f))) o) with (canonorder_face l).
  destruct (canonorder_rotates l NL) as (n & Hn & E1 & E2).
  assert (Ro : rotation (turned o (map m (map fst f))) (map fst (canonorder_face l))).
  { rewrite <- EL, E1. apply rotation_map, rotate_rotation. }
  assert (KEY : forall g, In g (p_face B) -> (map fst g = map fst (canonorder_face l) <-> rotation (turned o (map fst g)) (map m (map fst f)))).
  { intros g Hg. split.
    - intros E. rewrite E, <- (turned_turned _ o (map m (map fst f))). apply turned_rotation, rotation_sym; auto.
    - intros Rg. assert (R1 : rotation (map fst g) (map fst (canonorder_face l))).
      { eapply rotation_trans; [|exact Ro]. rewrite <- (turned_turned _ o (map fst g)). apply turned_rotation; auto. }
      apply low_unique; auto.
      + apply (face_edges_distinct B (sp_recorded B SB) (sp_ends B SB) (sp_faces B SB) (sp_nfaces B SB) (sp_connected B SB) g Hg).
      + apply starts_low_nth. rewrite Forall_forall in LB. auto.
      + apply starts_low_nth; auto. }
  assert (SR : match bsearch (fun i => pd_face_cmp (canonorder_face l) (nth i (p_face B) [])) (nfaces B) with
     | Some i => exists y, nth_error (p_face B) i = Some y /\ map fst y = map fst (canonorder_face l)
     | None => forall y, In y (p_face B) -> map fst y <> map fst (canonorder_face l) end).
  { assert (Q : forall i, pd_face_cmp (canonorder_face l) (nth i (p_face B) []) = big_cmp (map fst (canonorder_face l)) (map fst (nth i (p_face B) []))).
    { intros i. unfold pd_face_cmp, big_cmp. rewrite !map_length. reflexivity. }
    assert (X : forall n, bsearch (fun i => pd_face_cmp (canonorder_face l) (nth i (p_face B) [])) n =
       bsearch (fun i => big_cmp (map fst (canonorder_face l)) (map fst (nth i (p_face B) []))) n).
    { intros k. apply bsearch_ext; auto. }
    rewrite X. apply (sorted_search _ big_cmp big_first (map fst)); auto using big_cmp_spec, big_cmp_opp, big_cmp_eq. apply big_first_trans. }
  destruct (bsearch _ _) as [i|].
  - eexists. split; [reflexivity|]. destruct SR as (y & Hy & E). exists y. split; auto. apply KEY; auto. eapply nth_error_In; eauto.
  - eexists. split; [reflexivity|]. intros i (y & Hy & Rg). apply nth_error_In in Hy. apply (SR y Hy). apply KEY; auto.
Qed.

(** * The whole map *)
Lemma images_spec : forall T (img : T -> res (option nat)) (P : T -> nat -> Prop) l,
  (forall x, In x l -> exists r, img x = Ok r /\ match r with Some i => P x i | None => forall i, ~ P x i end) ->
  (exists is, images img l = Ok (Some is) /\ Forall2 P l is) \/ (images img l = Ok None /\ exists x, In x l /\ forall i, ~ P x i).
Proof.
  intros T img P. induction l as [|x l IH]; intros H; cbn [images]; [left; exists []; auto|].
  destruct (H x) as (r & E & K); [cbn; auto|]. rewrite E. cbn [bind]. destruct r as [i|].
  - destruct IH as [(is & E2 & F)|(E2 & y & Iy & K2)]; [intros; apply H; cbn; auto| |]; rewrite E2; cbn [bind option_map].
    + left. exists (i :: is). auto.
    + right. split; auto. exists y. cbn. auto.
  - right. split; auto. exists x. cbn. auto.
Qed.

(** a crossing map or face map the program makes *)
Record good_map (T : Type) (P : T -> nat -> Prop) (l : list T) (p : perm) : Prop := {
  gm_perm : is_perm p; gm_canon : canonical p; gm_n : pn p = length l; gm_idx : 6 < pn p -> pc_idx p = 0;
  gm_to : forall c x, nth_error l c = Some x -> P x (nth c (pmap p) 0) }.

Lemma oriented_spec : forall T (img : T -> res (option nat)) (P : T -> nat -> Prop) l, l <> [] ->
  (forall x, In x l -> exists r, img x = Ok r /\ match r with Some i => P x i | None => forall i, ~ P x i end) ->
  (forall c c' x x' i, nth_error l c = Some x -> nth_error l c' = Some x' -> P x i -> P x' i -> c = c') ->
  (forall x i, P x i -> i < length l) ->
  (exists p, oriented_map img o l = Ok [mkOM p o] /\ good_map T P l p) \/ (oriented_map img o l = Ok [] /\ exists x, In x l /\ forall i, ~ P x i).
Proof.
  intros T img P l NL HI INJ RG. unfold oriented_map. destruct (images_spec T img P l HI) as [(is & E & F)|(E & H)]; rewrite E; cbn [bind]; [left|right; auto].
  pose proof (eq_sym (IteratorsProofs.Forall2_length F)) as L.
  assert (TO : forall c x, nth_error l c = Some x -> P x (nth c is 0)).
  { clear - F. induction F as [|x i l is K F IH]; intros c y Hy; [destruct c; discriminate|]. destruct c as [|c]; cbn in *; [injection Hy as <-; auto|auto]. }
  assert (PP : is_perm (mkPerm is 0)).
  { apply is_perm_intro.
    - apply (NoDup_nth is 0). intros i j Hi Hj E2. rewrite <- L in *.
      destruct (nth_error l i) as [x|] eqn:X; [|apply nth_error_None in X; lia]. destruct (nth_error l j) as [y|] eqn:Y; [|apply nth_error_None in Y; lia].
      apply (INJ i j x y (nth j is 0)); auto. rewrite <- E2. auto.
    - apply Forall_forall. intros i I. rewrite <- L. apply In_nth with (d := 0) in I as (k & Hk & <-). rewrite <- L in Hk.
      destruct (nth_error l k) as [x|] eqn:X; [|apply nth_error_None in X; lia]. eapply RG; eauto. }
  destruct (regen_ok is 0 PP) as (i & E2 & C & Z); [rewrite <- L; destruct l; [congruence|cbn; lia]|].
  rewrite E2. cbn [bind]. exists (mkPerm is i). split; auto. constructor; auto.
Qed.

Lemma oriented_cross : (cross_fits A B m o /\ exists p, oriented_map (cross_image false B mm o) o (p_cross A) = Ok [mkOM p o] /\ good_map _ cross_to (p_cross A) p) \/
  (~ cross_fits A B m o /\ oriented_map (cross_image false B mm o) o (p_cross A) = Ok []).
Proof.
  destruct (oriented_spec _ (cross_image false B mm o) cross_to (p_cross A)) as [(p & E & G)|(E & x & Ix & H)].
  - pose proof (sp_some A SA) as L. unfold ncross in L. destruct (p_cross A); [cbn in L; lia|discriminate].
  - apply cross_image_spec.
  - intros c c' x x' i Hc Hc' (y & Hy & Ro) (y' & Hy' & Ro'). rewrite Hy in Hy'. injection Hy' as <-. eapply (same_image A SA m BM o SO); eauto.
  - intros x i (y & Hy & _). change (length (p_cross A)) with (ncross A). rewrite <- NX. apply nth_error_Some. congruence.
  - left. split; [|exists p; auto]. intros c x Hx. destruct (gm_to _ _ _ _ G c x Hx) as (y & Hy & Ro). eauto.
  - right. split; auto. intros F. apply In_nth_error in Ix as (c & Hc). destruct (F c x Hc) as (c' & y & Hy & Ro). apply (H c'). exists y. auto.
Qed.
Lemma oriented_face : nfaces B = nfaces A -> (face_fits A B m o /\ exists p, oriented_map (face_image B mm o) o (p_face A) = Ok [mkOM p o] /\ good_map _ face_to (p_face A) p) \/
  (~ face_fits A B m o /\ oriented_map (face_image B mm o) o (p_face A) = Ok []).
Proof.
  intros NF. destruct (oriented_spec _ (face_image B mm o) face_to (p_face A)) as [(p & E & G)|(E & x & Ix & H)].
  - pose proof (sp_nfaces A SA) as L. unfold nfaces in L. destruct (p_face A); [cbn in L; lia|discriminate].
  - apply face_image_spec.
  - intros c c' x x' i Hc Hc' (y & Hy & Ro) (y' & Hy' & Ro'). rewrite Hy in Hy'. injection Hy' as <-. eapply (same_face A SA m BM o SO); eauto.
  - intros x i (y & Hy & _). change (length (p_face A)) with (nfaces A). rewrite <- NF. apply nth_error_Some. congruence.
  - left. split; [|exists p; auto]. intros c x Hx. destruct (gm_to _ _ _ _ G c x Hx) as (y & Hy & Ro). eauto.
  - right. split; auto. intros F. apply In_nth_error in Ix as (c & Hc). destruct (F c x Hc) as (c' & y & Hy & Ro). apply (H c'). exists y. auto.
Qed.
End Maps.
