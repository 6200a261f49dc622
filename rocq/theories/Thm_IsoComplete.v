(** C26: the search for isomorphisms finds every isomorphism, and each of them once. *)
From Coq Require Import List ZArith Lia Bool Arith Permutation.
From Verif Require Import Base Iterators Perm PermProofs Pd PdSpec PdOps PdRegen PdExamples Relabel HashSpec RegenSpec Carry Planar PdIso IsoSpec DiagIso HashProofs
  DartMap AlikeProofs IsoImages IsoEnum IsoEdges IsoComplete RelabelSym Thm_Iso Thm_Planar Thm_Text.
Import ListNotations.
Open Scope nat_scope.

(** * Specification *)

(** a diagram of a connected projection whose records are in the order pd_regenerate leaves them in, and that pd_ok accepts *)
Definition valid (d : pd) : Prop := tidy d /\ connected d /\ pd_ok d = Ok true.

(** the two counts the search computes fit in 32 bits: the permutations of the components, and the ways to turn
    (by its length) and flip each component *)
Definition turns (d : pd) : nat := fold_right (fun C n => 2 * length (cp_edge C) * n) 1 (p_comp d).
Definition countable (d : pd) : Prop := ncomps d <= 12 /\ (Z.of_nat (turns d) < 2 ^ 32)%Z.

(** the record [i] holds these maps and orientations *)
Definition holds (A : pd) (i : iso) (kc ke kp kf : nat -> nat) (s : orient) (dir : nat -> orient) : Prop :=
  (exists x, i_cross i = Some x /\ om_or x = s /\ forall c, c < ncross A -> nth c (pmap (om_perm x)) 0 = kc c) /\
  (om_or (i_face i) = s /\ forall f, f < nfaces A -> nth f (pmap (om_perm (i_face i))) 0 = kf f) /\
  (forall c, c < ncomps A -> nth c (pmap (i_comp i)) 0 = kp c) /\
  (forall e, e < nedges A -> nth e (pmap (em_perm (i_edge i))) 0 = ke e) /\
  (forall c C e, nth_error (p_comp A) c = Some C -> In e (cp_edge C) -> nth_error (em_or (i_edge i)) e = Some (dir c)).

(** [l] lists the isomorphisms with spin in [S]: each record is one, and each is in the list exactly once *)
Definition lists_isos (A B : pd) (S : orient -> Prop) (l : list iso) : Prop :=
  (forall i, In i l -> exists kc ke kp kf s dir, S s /\ (forall c, c < ncomps A -> sign_like (dir c)) /\
     isomorphism A B kc ke kp kf s s dir /\ holds A i kc ke kp kf s dir) /\
  (forall kc ke kp kf s dir, S s -> (forall c, c < ncomps A -> sign_like (dir c)) -> isomorphism A B kc ke kp kf s s dir ->
     exists n, forall n', (exists i, nth_error l n' = Some i /\ holds A i kc ke kp kf s dir) <-> n' = n).

(** * Proofs *)
Lemma turns_product : forall d, turns d = Thm_Iterators.product (map (fun n => 2 * n) (HashProofs.comp_sizes d)).
Proof.
  intros d. unfold turns, HashProofs.comp_sizes. induction (p_comp d) as [|C l IH]; auto. cbn [fold_right map]. rewrite IH. reflexivity.
Qed.
Lemma alike_sign : forall A B kc ke s, alike A B kc ke s -> exists s', sign_like s' /\ alike A B kc ke s' /\ (s = Pos -> s' = Pos).
Proof.
  intros A B kc ke s [H1 H2 H3 H4 H5]. destruct s.
  - exists Pos. split; [left; auto|]. split; [constructor; auto|auto].
  - exists Neg. split; [right; auto|]. split; [constructor; auto|discriminate].
  - exists Neg. split; [right; auto|]. split; [constructor; auto|discriminate].
Qed.

Lemma turn_back : forall s (l m : list nat), rotation (turned s l) m -> rotation (turned s m) l.
Proof.
  intros s l m R. apply rotation_sym. apply (turned_rotation _ s) in R. rewrite turned_turned in R. auto.
Qed.
Lemma same_cross_back : forall B s c c' x y L, sphere B -> nth_error (p_cross B) c = Some x -> nth_error (p_cross B) c' = Some y ->
  rotation (turned s (around_cross x)) L -> rotation (turned s (around_cross y)) L -> c = c'.
Proof.
  intros B s c c' x y L SB Hx Hy R1 R2. pose proof (Permutation_length (HashProofs.rotation_perm _ _ _ R1)) as LL. rewrite turned_length in LL.
  apply turn_back in R1, R2. rewrite <- (turned_length _ s L) in LL. cbn [around_cross length] in LL.
  destruct (turned s L) as [|a [|b [|u [|v [|]]]]]; try discriminate.
  apply (same_image B SB (fun e => e)) with (o := Pos) (x := x) (x' := y) (y := mkCross a b u v Pos); auto; try (split; auto; fail); try (left; reflexivity); rewrite map_id; cbn; auto.
Qed.
Lemma same_face_back : forall B s f f' (F F' : face) L, sphere B -> nth_error (p_face B) f = Some F -> nth_error (p_face B) f' = Some F' ->
  rotation (turned s (map fst F)) L -> rotation (turned s (map fst F')) L -> f = f'.
Proof.
  intros B s f f' F F' L SB HF HF' R1 R2. apply turn_back in R1, R2.
  assert (E : map fst (map (fun e => (e, Pos)) (turned s L)) = turned s L) by (rewrite map_map; cbn; apply map_id).
  apply (same_face B SB (fun e => e)) with (o := Pos) (F := F) (G := F') (F' := map (fun e => (e, Pos)) (turned s L)); auto; try (split; auto; fail); try (left; reflexivity); rewrite map_id, E; cbn; auto.
Qed.

Section Held.
Context (A B : pd) (SA : sphere A) (SB : sphere B).
Lemma map_good : forall T P (l : list T) p, good_map T P l p -> good_perm (length l) p.
Proof. intros T P l p [G1 G2 G3 G4 _]. constructor; auto. Qed.

Section Match.
Context (MM : may_match A B = true) (keeps : orient -> bool).
Lemma good_holds : forall i, good A B keeps i -> exists kc ke kp kf s dir, sign_like s /\ keeps s = true /\ (forall c, c < ncomps A -> sign_like (dir c)) /\
  isomorphism A B kc ke kp kf s s dir /\ holds A i kc ke kp kf s dir.
Proof.
  intros i (cp & em & (o & px & pf) & -> & GC & GE & (SO & GX & GF) & K). destruct GE as [G1 G2 (dir & GM)]. cbn [fst snd] in *.
  destruct (mm_counts A B MM) as (NX & NE & NC & NF & _).
  exists (fun c => nth c (pmap px) 0), (fun e => nth e (pmap (em_perm em)) 0), (fun c => nth c (pmap cp) 0), (fun f => nth f (pmap pf) 0), o, dir.
  split; auto. split; auto. split; [|split].
  - intros c Hc. destruct (nth_error (p_comp A) c) as [C|] eqn:HC; [|apply nth_error_None in HC; unfold ncomps in Hc; lia]. apply (GM c C HC).
  - constructor; auto.
    + constructor; auto.
      * apply (good_perm_bij _ _ (map_good _ _ _ _ GX)).
      * apply (good_perm_bij _ _ G1).
      * intros c x Hx. exact (gm_to _ _ _ _ GX c x Hx).
    + apply (good_perm_bij _ _ GC).
    + intros c C HC. apply (GM c C HC).
    + apply (good_perm_bij _ _ (map_good _ _ _ _ GF)).
    + intros f F HF. exact (gm_to _ _ _ _ GF f F HF).
  - split; [|split; [|split; [|split]]]; cbn; auto.
    + eexists. split; [reflexivity|]. auto.
    + intros c C e HC I. apply (GM c C HC). auto.
Qed.

Lemma found_holds : forall i kc ke kp kf s dir, good A B keeps i -> sign_like s -> isomorphism A B kc ke kp kf s s dir ->
  agrees A i ke dir s -> (forall c, c < ncomps A -> nth c (pmap (i_comp i)) 0 = kp c) -> holds A i kc ke kp kf s dir.
Proof.
  intros i kc ke kp kf s dir G SO IM (A1 & A2 & A3) A4. destruct G as (cp & em & (o & px & pf) & -> & GC & GE & (_ & GX & GF) & K). cbn [fst snd mk i_comp i_edge i_cross i_face om_or om_perm] in *. subst o.
  split; [|split; [|split; [|split]]]; cbn [fst snd mk i_comp i_edge i_cross i_face om_or om_perm]; auto.
  - eexists. split; [reflexivity|]. split; auto. intros c Hc. cbn [om_perm]. destruct (nth_error (p_cross A) c) as [x|] eqn:Hx; [|apply nth_error_None in Hx; unfold ncross in Hc; lia].
    destruct (gm_to _ _ _ _ GX c x Hx) as (y & Hy & R). destruct (al_cross _ _ _ _ _ (im_alike _ _ _ _ _ _ _ _ _ IM) c x Hx) as (y' & Hy' & R').
    assert (E : map (fun e => nth e (pmap (em_perm em)) 0) (around_cross x) = map ke (around_cross x)).
    { apply map_ext_in. intros e I. apply A1. assert (exists p, p < 4 /\ cedge x p = e) as (p & P & <-).
      { cbn in I. destruct I as [<-|[<-|[<-|[<-|[]]]]]; [exists 0|exists 1|exists 2|exists 3]; cbn; split; auto; lia. }
      apply (edges_lt A SA c p). split; auto. exists x. auto. }
    rewrite E in R. exact (same_cross_back B s _ _ y y' _ SB Hy Hy' R R').
  - split; auto. intros f Hf. destruct (nth_error (p_face A) f) as [F|] eqn:HF; [|apply nth_error_None in HF; unfold nfaces in Hf; lia].
    destruct (gm_to _ _ _ _ GF f F HF) as (F1 & HF1 & R). destruct (im_face _ _ _ _ _ _ _ _ _ IM f F HF) as (F2 & HF2 & R').
    assert (E : map (fun e => nth e (pmap (em_perm em)) 0) (map fst F) = map ke (map fst F)).
    { apply map_ext_in. intros e I. apply A1. apply in_map_iff in I as ((e', b) & <- & I). apply (in_face A f F (e', b) (sp_faces A SA) HF I). }
    rewrite E in R. exact (same_face_back B s _ _ F1 F2 _ SB HF1 HF2 R R').
Qed.

Lemma holds_tag : forall i j kc ke kp kf s dir, good A B keeps i -> good A B keeps j -> holds A i kc ke kp kf s dir -> holds A j kc ke kp kf s dir -> tag i = tag j.
Proof.
  intros i j kc ke kp kf s dir Gi Gj (_ & (Si & _) & Pi & Ei & Oi) (_ & (Sj & _) & Pj & Ej & Oj).
  assert (GG : forall i, good A B keeps i -> length (pmap (i_comp i)) = ncomps A /\ length (pmap (em_perm (i_edge i))) = nedges A /\ length (em_or (i_edge i)) = nedges A).
  { intros k (cp & em & t & -> & GC & GE & _). cbn. split; [apply (gp_n _ _ GC)|]. split; [apply (gp_n _ _ (ge_perm _ _ _ _ GE))|apply (ge_or _ _ _ _ GE)]. }
  destruct (GG i Gi) as (L1 & L2 & L3). destruct (GG j Gj) as (M1 & M2 & M3).
  assert (X1 : pmap (i_comp i) = pmap (i_comp j)) by (apply (nth_ext _ _ 0 0); [congruence|]; intros n Hn; rewrite Pi, Pj; congruence).
  assert (X2 : pmap (em_perm (i_edge i)) = pmap (em_perm (i_edge j))) by (apply (nth_ext _ _ 0 0); [congruence|]; intros n Hn; rewrite Ei, Ej; congruence).
  assert (X3 : em_or (i_edge i) = em_or (i_edge j)).
  { apply (nth_ext _ _ Pos Pos); [congruence|]. intros e He. rewrite L3 in He. destruct (edge_comp A e SA He) as (c & C & HC & I).
    rewrite (nth_error_nth _ _ _ (Oi c C e HC I)), (nth_error_nth _ _ _ (Oj c C e HC I)). auto. }
  unfold tag, em_key. rewrite X1, X2, X3, Si, Sj. auto.
Qed.
End Match.
End Held.

Section Pair.
Context (A B : pd) (VA : valid A) (VB : valid B) (CN : countable A).
Let SA : sphere A := tidy_sphere A (proj1 VA) (proj1 (proj2 VA)).
Let SB : sphere B := tidy_sphere B (proj1 VB) (proj1 (proj2 VB)).
Lemma turn_product_fits : (Z.of_nat (Thm_Iterators.product (map (fun n : nat => (2 * n)%nat) (HashProofs.comp_sizes A))) < 2 ^ 32)%Z.
Proof. rewrite <- turns_product. apply CN. Qed.

Lemma along_iso : forall kc ke kp kf s dir, (forall c, c < ncomps A -> sign_like (dir c)) -> isomorphism A B kc ke kp kf s s dir -> along A B kp ke dir.
Proof.
  intros kc ke kp kf s dir SD IM c C HC. split; [apply SD; apply nth_error_Some; congruence|]. apply (im_comp _ _ _ _ _ _ _ _ _ IM c C HC).
Qed.
Lemma fits_iso : forall kc ke kp kf s dir, isomorphism A B kc ke kp kf s s dir -> cross_fits A B ke s.
Proof.
  intros kc ke kp kf s dir IM c x Hx. destruct (al_cross _ _ _ _ _ (im_alike _ _ _ _ _ _ _ _ _ IM) c x Hx) as (y & Hy & R). exists (kc c), y. auto.
Qed.

Lemma lists_all : forall keep keeps, (forall p o, sign_like o -> keep (Some (mkOM p o)) = Ok (keeps o)) ->
  exists l, build_isos keep false A B = Ok l /\ lists_isos A B (fun s => sign_like s /\ keeps s = true) l.
Proof.
  intros keep keeps KK. pose proof VA as (TA & CA & OA). pose proof VB as (TB & CB & OB). pose proof CN as (WC & _). pose proof turn_product_fits as WE.
  destruct (may_match A B) eqn:MM.
  - destruct (build_all A B TA TB CA CB OA OB WC WE MM keep keeps KK) as (l & E & N & G & ALL). exists l. split; auto. split.
    + intros i I. destruct (good_holds A B MM keeps i (G i I)) as (kc & ke & kp & kf & s & dir & H1 & H2 & H3 & H4 & H5). exists kc, ke, kp, kf, s, dir. auto.
    + intros kc ke kp kf s dir (SO & K) SD IM.
      destruct (ALL kp ke dir s (im_kp _ _ _ _ _ _ _ _ _ IM) (along_iso _ _ _ _ _ _ SD IM)) as (i & Ii & AG & AC).
      { split; auto. split; auto. eapply fits_iso; eauto. }
      pose proof (found_holds A B SA SB keeps i kc ke kp kf s dir (G i Ii) SO IM AG AC) as HI. apply In_nth_error in Ii as (n & Hn). exists n. intros n'. split.
      * intros (j & Hj & HJ). assert (T : tag j = tag i) by (eapply (holds_tag A B SA keeps); eauto; apply G; eapply nth_error_In; eauto).
        assert (T1 : nth_error (map tag l) n' = Some (tag i)) by (rewrite <- T; apply map_nth_error; auto).
        assert (T2 : nth_error (map tag l) n = Some (tag i)) by (apply map_nth_error; auto).
        apply (NoDup_nth_error (map tag l)) ; auto; [apply nth_error_Some; congruence|congruence].
      * intros ->. eauto.
  - exists []. split; [unfold build_isos; rewrite MM; auto|]. split; [intros i []|]. intros kc ke kp kf s dir _ _ IM.
    rewrite (may_match_ok A B kc ke kp kf s s dir) in MM; auto. discriminate.
Qed.

Lemma finds_one : exists b, pd_isomorphic A B = Ok b /\ (b = true <-> exists kc ke spin, alike A B kc ke spin).
Proof.
  pose proof VA as (TA & CA & OA). pose proof VB as (TB & CB & OB). pose proof CN as (WC & _). pose proof turn_product_fits as WE. unfold pd_isomorphic.
  assert (EXT : forall kc ke spin, alike A B kc ke spin -> exists kp kf s dir, sign_like s /\ isomorphism A B kc ke kp kf s s dir /\ forall i, sign_like (dir i)).
  { intros kc ke spin AL. apply alike_sign in AL as (s & SO & AL & _). destruct (alike_extends A B kc ke s SA SB SO AL) as (kp & kf & dir & IM & SD). exists kp, kf, s, dir. auto. }
  destruct (may_match A B) eqn:MM.
  - destruct (build_first A B TA TB CA CB OA OB WC WE MM keep_all (fun _ => true)) as (l & E & G & N); [reflexivity|]. rewrite E. cbn [bind]. destruct l as [|i l].
    + exists false. split; auto. split; [discriminate|]. intros (kc & ke & spin & AL). destruct (EXT kc ke spin AL) as (kp & kf & s & dir & SO & IM & SD). exfalso.
      apply (N eq_refl kp ke dir s (im_kp _ _ _ _ _ _ _ _ _ IM)); [eapply along_iso; eauto|]. split; auto. split; auto. eapply fits_iso; eauto.
    + exists true. split; auto. split; auto. intros _. destruct (good_holds A B MM _ i (G i (or_introl eq_refl))) as (kc & ke & kp & kf & s & dir & _ & _ & _ & IM & _).
      exists kc, ke, s. apply (im_alike _ _ _ _ _ _ _ _ _ IM).
  - exists false. split; [unfold build_isos; rewrite MM; auto|]. split; [discriminate|]. intros (kc & ke & spin & AL). destruct (EXT kc ke spin AL) as (kp & kf & s & dir & SO & IM & SD).
    rewrite (may_match_ok A B kc ke kp kf s s dir) in MM; auto.
Qed.

Lemma finds_map : exists b, pd_map_isomorphic A B = Ok b /\ (b = true <-> exists kc ke, alike A B kc ke Pos).
Proof.
  destruct (lists_all keep_pos is_pos) as (l & E & L1 & L2); [reflexivity|]. unfold pd_map_isomorphic, pd_build_map_isomorphisms. rewrite E. cbn [bind].
  assert (SP : sign_like Pos) by (left; auto). destruct l as [|i l].
  - exists false. split; auto. split; [discriminate|]. intros (kc & ke & AL). destruct (alike_extends A B kc ke Pos SA SB SP AL) as (kp & kf & dir & IM & SD).
    destruct (L2 kc ke kp kf Pos dir) as (n & Hn); auto. destruct (proj2 (Hn n) eq_refl) as (i & Hi & _). destruct n; discriminate.
  - exists true. split; auto. split; auto. intros _. destruct (L1 i (or_introl eq_refl)) as (kc & ke & kp & kf & s & dir & (SO & K) & _ & IM & _).
    assert (s = Pos) as -> by (destruct s; auto; discriminate). exists kc, ke. apply (im_alike _ _ _ _ _ _ _ _ _ IM).
Qed.
End Pair.

(** * Theorems *)

(** the answer is whether crossings and edges can be renamed to carry one diagram to the other, all crossings keeping
    or all reversing their cyclic order *)
Theorem isomorphic_decides : forall A B, valid A -> valid B -> countable A ->
  exists b, pd_isomorphic A B = Ok b /\ (b = true <-> exists kc ke spin, alike A B kc ke spin).
Proof. exact finds_one. Qed.
Theorem map_isomorphic_decides : forall A B, valid A -> valid B -> countable A ->
  exists b, pd_map_isomorphic A B = Ok b /\ (b = true <-> exists kc ke, alike A B kc ke Pos).
Proof. exact finds_map. Qed.

(** the lists hold every isomorphism exactly once *)
Theorem build_isos_exact : forall A B, valid A -> valid B -> countable A ->
  exists l, pd_build_isos A B = Ok l /\ lists_isos A B sign_like l.
Proof.
  intros A B VA VB CN. destruct (lists_all A B VA VB CN keep_all (fun _ => true)) as (l & E & L1 & L2); [reflexivity|]. exists l. split; [exact E|]. split.
  - intros i I. destruct (L1 i I) as (kc & ke & kp & kf & s & dir & (H1 & _) & H2 & H3 & H4). exists kc, ke, kp, kf, s, dir. auto.
  - intros. apply L2; auto.
Qed.
Theorem build_map_isos_exact : forall A B, valid A -> valid B -> countable A ->
  exists l, pd_build_map_isomorphisms A B = Ok l /\ lists_isos A B (fun s => s = Pos) l.
Proof.
  intros A B VA VB CN. destruct (lists_all A B VA VB CN keep_pos is_pos) as (l & E & L1 & L2); [reflexivity|]. exists l. split; [exact E|]. split.
  - intros i I. destruct (L1 i I) as (kc & ke & kp & kf & s & dir & (H1 & K) & H2 & H3 & H4). exists kc, ke, kp, kf, s, dir. split; auto. destruct s; auto; discriminate.
  - intros kc ke kp kf s dir -> SD IM. apply L2; auto. split; [left|]; auto.
Qed.

(** the relation is an equivalence *)
Lemma turned_map : forall (f : nat -> nat) s l, turned s (map f l) = map f (turned s l).
Proof. intros f [] l; cbn; auto using map_rev. Qed.
Lemma rotation_map : forall (f : nat -> nat) a b, rotation a b -> rotation (map f a) (map f b).
Proof. intros f a b (x & y & -> & ->). exists (map f x), (map f y). rewrite !map_app. auto. Qed.

Lemma alike_refl : forall A, alike A A (fun c => c) (fun e => e) Pos.
Proof.
  intros A. constructor; auto; try (split; auto; fail). intros c x Hx. exists x. split; auto. rewrite map_id. cbn. exists [], (around_cross x). rewrite app_nil_r. auto.
Qed.
Definition over (s t : orient) : orient := match s, t with Pos, Pos => Pos | Pos, _ => Neg | _, Pos => Neg | _, _ => Pos end.
Lemma turned_over : forall T s t (l : list T), turned s (turned t l) = turned (over s t) l.
Proof. intros T [] [] l; cbn; auto using rev_involutive. Qed.
Lemma alike_trans : forall A B C kc ke s kc' ke' s', alike A B kc ke s -> alike B C kc' ke' s' -> alike A C (fun c => kc' (kc c)) (fun e => ke' (ke e)) (over s s').
Proof.
  intros A B C kc ke s kc' ke' s' [H1 H2 (H3 & H3') (H4 & H4') H5] [K1 K2 (K3 & K3') (K4 & K4') K5]. rewrite H1 in *. rewrite H2 in *. constructor; auto; try congruence.
  - split; auto.
  - split; auto.
  - intros c x Hx. destruct (H5 c x Hx) as (y & Hy & R). destruct (K5 _ y Hy) as (z & Hz & R'). exists z. split; auto. rewrite <- turned_over.
    rewrite <- (map_map ke ke'). eapply rotation_trans; [|apply rotation_map; exact R]. rewrite <- turned_map. apply turned_rotation. exact R'.
Qed.
Lemma alike_sym : forall A B kc ke s, sphere A -> alike A B kc ke s -> alike B A (inv_on (ncross A) kc) (inv_on (nedges A) ke) s.
Proof.
  intros A B kc ke s SA [H1 H2 H3 H4 H5]. constructor; auto; try (rewrite ?H1, ?H2; apply bij_inv; auto).
  intros c y Hy. assert (Hc : c < ncross A) by (rewrite <- H1; apply nth_error_Some; congruence). destruct (inv_spec (ncross A) kc c H3 Hc) as (I1 & I2).
  destruct (nth_error (p_cross A) (inv_on (ncross A) kc c)) as [x|] eqn:Hx; [|apply nth_error_None in Hx; unfold ncross in *; lia]. exists x. split; auto.
  destruct (H5 _ x Hx) as (y' & Hy' & R). rewrite I2, Hy in Hy'. injection Hy' as <-. apply turn_back. apply (rotation_map (inv_on (nedges A) ke)) in R.
  rewrite <- turned_map, map_map in R. assert (EQ : map (fun e => inv_on (nedges A) ke (ke e)) (around_cross x) = around_cross x); [|rewrite EQ in R; exact R].
  rewrite <- (map_id (around_cross x)) at 2. apply map_ext_in. intros e I. apply inv_left; auto.
  assert (exists p, p < 4 /\ cedge x p = e) as (p & P & <-).
  { cbn in I. destruct I as [<-|[<-|[<-|[<-|[]]]]]; [exists 0|exists 1|exists 2|exists 3]; cbn; split; auto; lia. }
  apply (edges_lt A SA (inv_on (ncross A) kc c) p). split; auto. exists x. auto.
Qed.

Theorem isomorphic_refl : forall A, valid A -> countable A -> pd_isomorphic A A = Ok true.
Proof.
  intros A VA CN. destruct (isomorphic_decides A A VA VA CN) as (b & E & H). rewrite E. f_equal. apply H. do 3 eexists. apply alike_refl.
Qed.
Theorem isomorphic_sym : forall A B, valid A -> valid B -> countable A -> countable B -> pd_isomorphic A B = pd_isomorphic B A.
Proof.
  intros A B VA VB CA CB. destruct (isomorphic_decides A B VA VB CA) as (b & E & H). destruct (isomorphic_decides B A VB VA CB) as (b' & E' & H'). rewrite E, E'. f_equal.
  pose proof (tidy_sphere A (proj1 VA) (proj1 (proj2 VA))) as SA. pose proof (tidy_sphere B (proj1 VB) (proj1 (proj2 VB))) as SB. apply eq_true_iff_eq. rewrite H, H'. split; intros (kc & ke & s & AL); apply alike_sym in AL; eauto.
Qed.
Theorem isomorphic_trans : forall A B C, valid A -> valid B -> valid C -> countable A -> countable B ->
  pd_isomorphic A B = Ok true -> pd_isomorphic B C = Ok true -> pd_isomorphic A C = Ok true.
Proof.
  intros A B C VA VB VC CA CB H1 H2. destruct (isomorphic_decides A B VA VB CA) as (b & E & H). rewrite H1 in E. injection E as <-. destruct (proj1 H eq_refl) as (kc & ke & s & AL).
  destruct (isomorphic_decides B C VB VC CB) as (b' & E' & H'). rewrite H2 in E'. injection E' as <-. destruct (proj1 H' eq_refl) as (kc' & ke' & s' & AL').
  destruct (isomorphic_decides A C VA VC CA) as (b & E & G). rewrite E. f_equal. apply G. do 3 eexists. eapply alike_trans; eauto.
Qed.

(** ** Satisfiability *)
Example valid_example : exists d, valid d /\ countable d /\ ncross d = 3 /\ nedges d = 6.
Proof.
  destruct Thm_Ops.tidy_example as (d & E & TD & _). exists d. vm_compute in E. injection E as <-. split; [|split; [split; [cbn; lia|reflexivity]|auto]].
  split; auto. split; [|reflexivity]. apply joined_connected. intros c Hc. destruct c as [|[|[|c]]]; [auto| | |cbn in Hc; lia]; right.
  - exists 0, 0, 0. split; (split; [lia|eexists; split; reflexivity]).
  - exists 2, 1, 2. split; (split; [lia|eexists; split; reflexivity]).
Qed.
(** a link of two components *)
Example linked_example : exists d, valid d /\ countable d /\ ncomps d = 2 /\ pd_isomorphic d d = Ok true.
Proof.
  destruct Thm_OverUnder.hopf_hyps as (_ & _ & T & _). assert (E : exists d, pd_regenerate hopf = Ok d) by (eexists; vm_compute; reflexivity). destruct E as (d & E).
  assert (TD : tidy d).
  { apply (Thm_Ops.regenerate_tidy hopf); auto; try (cbn; lia); try reflexivity. exists 0, Pos. split; [eexists; split; reflexivity|discriminate]. }
  vm_compute in E. injection E as E. exists d. split; [|subst d; split; [split; [cbn; lia|reflexivity]|split; [reflexivity|vm_compute; reflexivity]]].
  split; auto. split; [|subst d; reflexivity]. subst d. apply joined_connected. intros c Hc. destruct c as [|[|c]]; [auto| |cbn in Hc; lia]. right.
  exists 0, 0, 0. split; (split; [lia|eexists; split; reflexivity]).
Qed.
Print Assumptions isomorphic_decides.
Print Assumptions map_isomorphic_decides.
Print Assumptions build_isos_exact.
Print Assumptions build_map_isos_exact.
Print Assumptions isomorphic_refl.
Print Assumptions isomorphic_sym.
Print Assumptions isomorphic_trans.
