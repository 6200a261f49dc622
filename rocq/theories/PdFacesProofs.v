(** Lemmas for face regeneration. *)
From Coq Require Import List ZArith Lia Bool Arith Permutation Sorted.
From Verif Require Import Base ListAux Iterators Sorting Orbits Pd PdSpec PdProofs PdFaces.
Import ListNotations.
Open Scope nat_scope.

Lemma dart_dec : forall a b : dart, {a = b} + {a <> b}.
Proof. repeat decide equality. Qed.
Lemma dart_eqb_spec : forall a b, dart_eqb a b = true <-> a = b.
Proof.
  intros (e, o) (e', o'). unfold dart_eqb. cbn [fst snd]. rewrite andb_true_iff, Nat.eqb_eq.
  destruct o, o'; cbn; intuition congruence.
Qed.
Lemma dart_eqb_false : forall a b, dart_eqb a b = false <-> a <> b.
Proof.
  intros a b. rewrite <- dart_eqb_spec. destruct (dart_eqb a b); intuition congruence.
Qed.

(** * The turn map *)
Lemma left_turn_darts : forall d a b, left_turn d a b -> is_dart d a /\ is_dart d b.
Proof.
  intros d a b (c & p & _ & H1 & H2). apply dart_to_dto in H1. apply dart_from_to, dart_to_dto in H2.
  rewrite is_dart_flip in H2. tauto.
Qed.
Lemma left_turn_fun : forall d a b b', ends_recorded d -> two_ended d ->
  left_turn d a b -> left_turn d a b' -> b = b'.
Proof.
  intros d a b b' R T (c & p & Hp & H1 & H2) (c' & p' & Hp' & H3 & H4).
  apply dart_to_dto in H1 as (D1 & E1). apply dart_to_dto in H3 as (_ & E3).
  assert (c' = c) by congruence. assert (p' = p) by congruence. subst.
  apply dart_from_to, dart_to_dto in H2 as (D2 & E2). apply dart_from_to, dart_to_dto in H4 as (D4 & E4).
  assert (K : flip b = flip b') by (eapply dto_inj; eauto; congruence).
  rewrite <- (flip_flip b), K, flip_flip. auto.
Qed.
Lemma left_turn_inj : forall d a a' b, ends_recorded d -> two_ended d ->
  left_turn d a b -> left_turn d a' b -> a = a'.
Proof.
  intros d a a' b R T (c & p & Hp & H1 & H2) (c' & p' & Hp' & H3 & H4).
  apply dart_from_to, dart_to_dto in H2 as (D2 & E2). apply dart_from_to, dart_to_dto in H4 as (D4 & E4).
  rewrite E2 in E4. apply pair_equal_spec in E4 as (-> & E4).
  assert (p' = p).
  { destruct p as [|[|[|[|]]]]; destruct p' as [|[|[|[|]]]]; cbn in E4; try lia. }
  subst. apply dart_to_dto in H1 as (D1 & E1). apply dart_to_dto in H3 as (D3 & E3).
  eapply dto_inj; eauto. congruence.
Qed.

Lemma next_edge_ok : forall d a, ends_recorded d -> two_ended d -> is_dart d a ->
  exists b, next_edge_on_face d a = Ok b /\ left_turn d a b.
Proof.
  intros d (e, o) R T D. pose proof (dto_slot d _ R D) as S. cbn [fst] in S.
  destruct (dto d (e, o)) as (c, p) eqn:ED. cbn [fst snd] in S. pose proof (slot_lt _ _ _ _ S) as (Hc & Hp).
  set (q := (p + 3) mod 4). assert (Hq : q < 4) by (apply Nat.mod_upper_bound; lia).
  destruct (dto_surj d c q R T Hc Hq) as (b & DB & EB).
  exists (flip b). assert (LT : left_turn d (e, o) (flip b)).
  { exists c, p. split; auto. split; [apply dart_to_dto; auto|]. apply dart_from_to. rewrite flip_flip.
    apply dart_to_dto. auto. }
  split; auto. pose proof (dto_slot d _ R DB) as SB. rewrite EB in SB. cbn [fst snd] in SB.
  destruct D as (L & O). cbn [fst snd] in *. destruct (edge_at_ex d e L) as (E & HE).
  unfold next_edge_on_face. destruct (Nat.ltb_spec e (nedges d)); [|lia].
  assert (OO : match o with Unset => false | _ => true end = true) by (destruct O; subst; auto). rewrite OO.
  unfold edge_at in HE. rewrite (proj2 (get_ok _ _ _ _) HE). cbn [bind].
  unfold dto in ED. cbn [fst snd] in ED. rewrite HE in ED.
  assert (C1 : match o with Pos => e_head E | _ => e_tail E end = c).
  { unfold head_slot, tail_slot in ED. destruct O; subst o; congruence. }
  assert (C2 : match o with Pos => e_headpos E | _ => e_tailpos E end = p).
  { unfold head_slot, tail_slot in ED. destruct O; subst o; congruence. }
  rewrite C1, C2. fold q. destruct SB as (_ & x & Hx & SB).
  rewrite (proj2 (get_ok _ _ _ _) Hx). cbn [bind]. rewrite SB.
  destruct b as (e', o'). cbn [fst] in *. destruct DB as (L' & O'). cbn [fst snd] in *.
  destruct (edge_at_ex d e' L') as (E' & HE'). unfold edge_at in HE'.
  rewrite (proj2 (get_ok _ _ _ _) HE'). cbn [bind]. unfold dto in EB. cbn [fst snd] in EB. rewrite HE' in EB.
  specialize (T e' E' HE'). unfold head_slot, tail_slot in *. unfold flip. cbn [fst snd].
  destruct O'; subst o'; apply pair_equal_spec in EB as (B1 & B2); subst c; rewrite ?B2, ?Nat.eqb_refl; cbn [orb andb negb].
  - destruct (Nat.eqb_spec (e_tail E') (e_head E')); cbn [negb]; rewrite ?B2, ?Nat.eqb_refl; cbn [orb]; auto.
  - rewrite orb_true_r. destruct (Nat.eqb_spec (e_head E') (e_tail E')) as [Q|Q]; cbn [negb andb]; rewrite ?B2, ?Nat.eqb_refl, ?orb_true_r; auto.
    destruct (Nat.eqb_spec (e_headpos E') q) as [Q'|Q']; auto. exfalso. apply T. congruence.
Qed.

Definition turn (d : pd) (a : dart) : dart := match next_edge_on_face d a with Ok b => b | _ => a end.
Section Turn.
Context (d : pd) (R : ends_recorded d) (T : two_ended d).
Lemma next_turn : forall a, is_dart d a -> next_edge_on_face d a = Ok (turn d a).
Proof. intros a D. destruct (next_edge_ok d a R T D) as (b & H & _). unfold turn. rewrite H. auto. Qed.
Lemma turn_left : forall a b, is_dart d a -> (left_turn d a b <-> b = turn d a).
Proof.
  intros a b D. destruct (next_edge_ok d a R T D) as (b' & H & L). unfold turn. rewrite H. split.
  - intros L'. eapply left_turn_fun; eauto.
  - intros ->. auto.
Qed.
Lemma turn_closed : forall a, In a (darts d) -> In (turn d a) (darts d).
Proof.
  intros a H. apply in_darts in H. apply in_darts. assert (L : left_turn d a (turn d a)) by (apply turn_left; auto).
  apply left_turn_darts in L. tauto.
Qed.
Lemma turn_inj : forall a b, In a (darts d) -> In b (darts d) -> turn d a = turn d b -> a = b.
Proof.
  intros a b Ha Hb E. apply in_darts in Ha, Hb.
  assert (L : left_turn d a (turn d a)) by (apply turn_left; auto).
  assert (L' : left_turn d b (turn d a)) by (apply turn_left; auto).
  eapply left_turn_inj; eauto.
Qed.

Lemma walk_follow : forall n start cur, is_dart d cur ->
  walk_face d start n cur = match follow (turn d) dart_dec start n cur with Some l => Ok l | None => Fail end.
Proof.
  induction n as [|n IH]; intros start cur D; cbn [walk_face follow]; auto.
  rewrite next_turn by auto. cbn [bind]. destruct (dart_dec (turn d cur) start) as [E|E].
  - rewrite (proj2 (dart_eqb_spec _ _) E). auto.
  - rewrite (proj2 (dart_eqb_false _ _) E). rewrite IH by (apply in_darts, turn_closed, in_darts; auto).
    destruct (follow (turn d) dart_dec start n (turn d cur)); reflexivity.
Qed.

(** ** The search order *)
Definition order : list dart := map (fun e => (e, Pos)) (seq 0 (nedges d)) ++ map (fun e => (e, Neg)) (seq 0 (nedges d)).
Lemma in_order : forall a, In a order <-> is_dart d a.
Proof.
  intros (e, o). unfold order, is_dart. cbn [fst snd]. rewrite in_app_iff, !in_map_iff. split.
  - intros [(x & H & Hx)|(x & H & Hx)]; inversion H; subst; apply in_seq in Hx; split; auto; lia.
  - intros (H & [O|O]); subst; [left|right]; exists e; rewrite in_seq; split; auto; lia.
Qed.
Lemma later_split : forall a, is_dart d a -> exists pre, order = pre ++ a :: later_pairs d a.
Proof.
  intros (e, o) (L & O). cbn [fst snd] in *.
  assert (K : seq 0 (nedges d) = seq 0 e ++ e :: seq (e + 1) (nedges d - (e + 1))).
  { replace (nedges d) with (e + S (nedges d - (e + 1))) at 1 by lia. rewrite seq_app. cbn [seq Nat.add].
    rewrite Nat.add_1_r. auto. }
  destruct O; subst o; unfold order, later_pairs; cbn [fst snd].
  - exists (map (fun e => (e, Pos)) (seq 0 e)). rewrite K at 1. rewrite map_app. cbn [map]. rewrite <- app_assoc. auto.
  - exists (map (fun e => (e, Pos)) (seq 0 (nedges d)) ++ map (fun e => (e, Neg)) (seq 0 e)).
    rewrite K at 2. rewrite map_app. cbn [map]. rewrite <- app_assoc. auto.
Qed.
Lemma NoDup_order : NoDup order.
Proof.
  assert (P : Permutation order (darts d)).
  { unfold order, darts.
    assert (G : forall n k, Permutation (map (fun e => (e, Pos)) (seq k n) ++ map (fun e => (e, Neg)) (seq k n))
                       (flat_map (fun e => [(e, Pos); (e, Neg)]) (seq k n))).
    { induction n as [|n IH]; intros k; cbn [seq map flat_map app]; auto. apply perm_skip.
      etransitivity; [symmetry; apply Permutation_middle|]. apply perm_skip. apply IH. }
    apply G. }
  eapply Permutation_NoDup; [symmetry; exact P|apply NoDup_darts].
Qed.
Lemma later_uniq : forall a pre post, is_dart d a -> order = pre ++ a :: post -> post = later_pairs d a.
Proof.
  intros a pre post D E. destruct (later_split a D) as (pre' & E'). pose proof NoDup_order as N.
  rewrite E in E', N. clear E. revert pre' E'. induction pre as [|x pre IH]; intros pre' E'.
  - destruct pre' as [|y pre']; cbn in E'; [congruence|]. inversion E'; subst.
    cbn in N. inversion N as [|? ? N1 _]; subst. exfalso. apply N1. apply in_app_iff. cbn. auto.
  - cbn in N. inversion N as [|? ? N1 N2]; subst. destruct pre' as [|y pre']; cbn in E'; inversion E'; subst.
    + exfalso. apply N1. apply in_app_iff. cbn. auto.
    + eapply IH; eauto.
Qed.
Lemma find_split : forall A (f : A -> bool) l,
  (exists p x q, l = p ++ x :: q /\ find f l = Some x /\ f x = true /\ forall y, In y p -> f y = false) \/
  (find f l = None /\ forall y, In y l -> f y = false).
Proof.
  induction l as [|a l IH]; cbn [find]; [right; split; auto; intros y []|].
  destruct (f a) eqn:E.
  - left. exists [], a, l. repeat split; auto. intros y [].
  - destruct IH as [(p & x & q & -> & H1 & H2 & H3)|(H1 & H2)].
    + left. exists (a :: p), x, q. repeat split; auto. intros y [->|Hy]; auto.
    + right. split; auto. intros y [->|Hy]; auto.
Qed.
Lemma existsb_dart : forall a l, existsb (dart_eqb a) l = true <-> In a l.
Proof.
  intros a l. rewrite existsb_exists. split.
  - intros (x & H & E). apply dart_eqb_spec in E. congruence.
  - intros H. exists a. split; auto. apply dart_eqb_spec; auto.
Qed.

(** ** The loop *)
Definition is_cycle (f : face) : Prop :=
  exists k x, is_dart d x /\ period (turn d) k x /\ f = cyc (turn d) k x.
Record inv (start : dart) (done : list face) : Prop := {
  i_dart : is_dart d start;
  i_cycles : Forall is_cycle done;
  i_nodup : NoDup (concat done);
  i_fresh : ~ In start (concat done);
  i_before : forall pre post, order = pre ++ start :: post -> forall a, In a pre -> In a (concat done) }.
Definition complete (done : list face) : Prop :=
  Forall is_cycle done /\ NoDup (concat done) /\ Permutation (concat done) (darts d).

Lemma done_closed : forall done, Forall is_cycle done ->
  forall a, In a (concat done) -> In (turn d a) (concat done).
Proof.
  intros done F a H. apply in_concat in H as (f & Hf & Ha). rewrite Forall_forall in F.
  destruct (F f Hf) as (k & x & D & P & ->). apply in_concat. exists (cyc (turn d) k x). split; auto.
  apply cyc_closed; auto.
Qed.
Lemma cycle_darts : forall f, is_cycle f -> forall a, In a f -> is_dart d a.
Proof.
  intros f (k & x & D & P & ->) a H. apply in_cyc in H as (i & _ & ->).
  apply in_darts. apply iter_in; [apply turn_closed|apply in_darts; auto].
Qed.
Lemma inv_step : forall start done k, inv start done -> period (turn d) k start ->
  let done' := done ++ [cyc (turn d) k start] in
  match next_unassigned d (concat done') start with
  | Some a => inv a done'
  | None => complete done'
  end.
Proof.
  intros start done k I P done'. destruct I as [I1 I2 I3 I4 I5].
  assert (F : Forall is_cycle done').
  { apply Forall_app. split; auto. constructor; [|constructor]. exists k, start. auto. }
  assert (ED : concat done' = concat done ++ cyc (turn d) k start).
  { unfold done'. rewrite concat_app. cbn. rewrite app_nil_r. auto. }
  assert (N : NoDup (concat done')).
  { rewrite ED. assert (Q : forall a, In a (concat done) -> ~ In a (cyc (turn d) k start)).
    { intros a H1 H2. apply I4. eapply cyc_meets; eauto. apply done_closed; auto. }
    destruct P as (_ & _ & ND). clear -I3 ND Q. induction (concat done) as [|y l IH]; cbn; auto.
    inversion I3 as [|? ? J1 J2]; subst. constructor.
    - rewrite in_app_iff. intros [H|H]; auto. apply (Q y); cbn; auto.
    - apply IH; auto. intros a Ha. apply Q. cbn; auto. }
  assert (S0 : In start (concat done')).
  { rewrite ED. apply in_app_iff. right. apply in_cyc. exists 0. split; auto. destruct P; auto. }
  destruct (later_split start I1) as (pre & Eo).
  assert (B : forall a, In a pre -> In a (concat done')).
  { intros a Ha. rewrite ED. apply in_app_iff. left. eapply I5; eauto. }
  unfold next_unassigned.
  destruct (find_split _ (fun b => negb (existsb (dart_eqb b) (concat done'))) (later_pairs d start))
    as [(p & x & q & El & -> & Hx & Hp)|(-> & Hn)].
  - apply negb_true_iff in Hx. constructor; auto.
    + apply in_order. rewrite Eo, El. apply in_app_iff. right. right. apply in_app_iff. cbn. auto.
    + rewrite <- existsb_dart. congruence.
    + intros pre' post' E' a Ha.
      assert (Q : pre' = pre ++ start :: p).
      { rewrite Eo, El in E'. pose proof NoDup_order as ND. rewrite Eo, El in ND.
        replace (pre ++ start :: p ++ x :: q) with ((pre ++ start :: p) ++ x :: q) in * by (rewrite <- app_assoc; auto).
        clear -E' ND. revert pre' E'. induction (pre ++ start :: p) as [|y l IH]; intros pre' E'.
        - destruct pre' as [|z pre']; auto. cbn in *. inversion E'; subst. inversion ND as [|? ? N1 _]; subst.
          exfalso. apply N1. apply in_app_iff. cbn; auto.
        - cbn in *. inversion ND as [|? ? N1 N2]; subst. destruct pre' as [|z pre']; cbn in E'; inversion E'; subst.
          + exfalso. apply N1. apply in_app_iff. cbn; auto.
          + f_equal. auto. }
      subst pre'. apply in_app_iff in Ha as [Ha|[<-|Ha]]; auto.
      apply Hp in Ha. apply negb_false_iff, existsb_dart in Ha. auto.
  - split; auto. split; auto. apply NoDup_Permutation; auto; [apply NoDup_darts|].
    intros a. rewrite in_darts. split.
    + intros H. apply in_concat in H as (f & Hf & Ha). rewrite Forall_forall in F. eapply cycle_darts; eauto.
    + intros H. apply in_order in H. rewrite Eo in H. apply in_app_iff in H as [H|[<-|H]]; auto.
      apply Hn in H. apply negb_false_iff, existsb_dart in H. auto.
Qed.

Lemma faces_loop_ok : forall fuel start done, inv start done -> length done + fuel > MAXFACES d + 1 ->
  length done <= MAXFACES d ->
  (exists fs, faces_loop d fuel start done = Ok fs /\ complete fs /\
     length fs <= MAXFACES d /\ Forall (fun f => length f <= nedges d) (skipn (length done) fs) /\
     firstn (length done) fs = done) \/
  (faces_loop d fuel start done = Fail /\
     ((exists x k, is_dart d x /\ period (turn d) k x /\ nedges d < k) \/
      (exists fs, Forall is_cycle fs /\ NoDup (concat fs) /\ MAXFACES d < length fs))).
Proof.
  induction fuel as [|fuel IH]; intros start done I L1 L2; [lia|]. cbn [faces_loop].
  destruct (period_exists (turn d) (darts d) dart_dec turn_closed turn_inj start) as (k & _ & P).
  { apply in_darts. apply I. }
  rewrite walk_follow by apply I. rewrite (follow_period _ dart_dec k) by auto.
  destruct (Nat.leb_spec k (nedges d)) as [Lk|Lk].
  2:{ right. split; auto. left. exists start, k. split; [apply I|auto]. }
  cbn [bind]. pose proof (inv_step start done k I P) as ST. cbv zeta in ST.
  assert (FC : Forall is_cycle (done ++ [cyc (turn d) k start]) /\ NoDup (concat (done ++ [cyc (turn d) k start]))).
  { destruct (next_unassigned d (concat (done ++ [cyc (turn d) k start])) start).
    - split; apply ST. - split; apply ST. }
  destruct (Nat.leb_spec (MAXFACES d) (length done)) as [Lm|Lm].
  { right. split; auto. right. exists (done ++ [cyc (turn d) k start]). split; [tauto|]. split; [tauto|].
    rewrite app_length. cbn. lia. }
  assert (Ld : length (done ++ [cyc (turn d) k start]) = length done + 1) by (rewrite app_length; auto).
  
  destruct (next_unassigned d (concat (done ++ [cyc (turn d) k start])) start) as [a|].
  - destruct (IH a _ ST) as [(fs & H1 & H2 & H3 & H4 & H5)|(H1 & H2)]; [lia|lia| |right; auto].
    left. exists fs. split; auto. split; auto. split; auto. rewrite Ld in H4, H5.
    assert (Lf : length done + 1 <= length fs).
    { assert (Q : length (firstn (length done + 1) fs) = length done + 1) by (rewrite H5; auto).
      rewrite firstn_length in Q. lia. }
    split.
    + rewrite <- (firstn_skipn (length done + 1) fs), H5. rewrite <- app_assoc. rewrite skipn_app.
      rewrite skipn_all, Nat.sub_diag. cbn [skipn app]. constructor; auto. rewrite cyc_length. auto.
    + rewrite <- (firstn_skipn (length done + 1) fs), H5. rewrite <- app_assoc. rewrite firstn_app.
      rewrite firstn_all, Nat.sub_diag. cbn. rewrite app_nil_r. auto.
  - left. exists (done ++ [cyc (turn d) k start]). split; auto. split; auto. split; [lia|]. split.
    + rewrite skipn_app, skipn_all, Nat.sub_diag. cbn. constructor; auto. rewrite cyc_length. auto.
    + rewrite firstn_app, firstn_all, Nat.sub_diag. cbn. rewrite app_nil_r. auto.
Qed.

Lemma inv_start : 0 < nedges d -> inv (0, Pos) [].
Proof.
  intros H. assert (D0 : is_dart d (0, Pos)) by (split; auto). constructor; auto.
  - constructor.
  - intros pre post E a Ha. exfalso. destruct (later_split (0, Pos) D0) as (pre' & E').
    assert (Q : order = [] ++ (0, Pos) :: tl order).
    { unfold order. destruct (nedges d); [lia|]. reflexivity. }
    pose proof NoDup_order as N. rewrite Q in E. destruct pre as [|y pre]; [destruct Ha|].
    cbn in E. inversion E as [[E1 E2]]. rewrite Q in N. cbn in N. inversion N as [|? ? N1 _].
    apply N1. rewrite E2. apply in_app_iff. cbn; auto.
Qed.

(** ** Rotations of cycles *)
Lemma rotate_cycle : forall n f, is_cycle f -> n < length f -> is_cycle (rotate n f).
Proof.
  intros n f (k & x & D & P & ->) H. rewrite cyc_length in H. exists k, (iter n (turn d) x).
  assert (Dn : In (iter n (turn d) x) (darts d)) by (apply iter_in; [apply turn_closed|apply in_darts; auto]).
  split; [apply in_darts; auto|]. split.
  { eapply period_in_cyc; eauto using turn_closed, turn_inj. apply in_darts; auto. }
  apply nth_error_ext. intros i. unfold rotate.
  destruct (le_lt_dec k i) as [Hi|Hi].
  { rewrite !(proj2 (nth_error_None _ i)); auto; rewrite ?app_length, ?skipn_length, ?firstn_length, ?cyc_length; lia. }
  rewrite cyc_nth by auto. rewrite <- iter_add.
  destruct (le_lt_dec (k - n) i) as [H1|H1].
  - rewrite nth_error_app2 by (rewrite skipn_length, cyc_length; auto). rewrite skipn_length, cyc_length.
    rewrite nth_error_firstn. destruct (Nat.ltb_spec (i - (k - n)) n); [|lia].
    rewrite cyc_nth by lia. f_equal. destruct P as (P1 & P2 & _).
    rewrite <- (iter_mod (turn d) k x (i + n)) by auto.
    replace (i + n) with ((i - (k - n)) + 1 * k) by lia. rewrite Nat.mod_add, Nat.mod_small by lia. auto.
  - rewrite nth_error_app1 by (rewrite skipn_length, cyc_length; auto).
    rewrite nth_error_skipn. rewrite cyc_nth by lia. f_equal. f_equal. lia.
Qed.

Lemma low_pos_spec : forall l i lowE lowPos,
  (low_pos l i lowE lowPos = lowPos /\ forall a, In a l -> lowE < fst a) \/
  (exists j a, low_pos l i lowE lowPos = i + j /\ nth_error l j = Some a /\ fst a <= lowE /\
     forall b, In b l -> fst a <= fst b).
Proof.
  induction l as [|x l IH]; intros i lowE lowPos; cbn [low_pos].
  - left. split; auto. intros a [].
  - destruct (Nat.leb_spec (fst x) lowE) as [H|H].
    + right. destruct (IH (i + 1) (fst x) i) as [(E & F)|(j & a & E & N & L & F)].
      * exists 0, x. rewrite E. split; [lia|]. split; auto. split; auto.
        intros b [->|Hb]; auto. apply F in Hb. lia.
      * exists (S j), a. rewrite E. split; [lia|]. split; auto. split; [lia|].
        intros b [->|Hb]; auto.
    + destruct (IH (i + 1) lowE lowPos) as [(E & F)|(j & a & E & N & L & F)].
      * left. rewrite E. split; auto. intros b [->|Hb]; auto.
      * right. exists (S j), a. rewrite E. split; [lia|]. split; auto. split; [lia|].
        intros b [->|Hb]; auto. lia.
Qed.
Lemma rotate_perm : forall A n (l : list A), Permutation (rotate n l) l.
Proof.
  intros. unfold rotate. etransitivity; [apply Permutation_app_comm|]. rewrite firstn_skipn. auto.
Qed.
Lemma canonorder_rotates : forall f, f <> [] ->
  exists n, n < length f /\ canonorder_face f = rotate n f /\ starts_low (canonorder_face f).
Proof.
  intros [|x f] H; [congruence|]. unfold canonorder_face. clear H. set (l := x :: f).
  destruct (low_pos_spec l 0 (fst x) 0) as [(_ & F)|(j & a & E & N & _ & F)].
  - specialize (F x (or_introl eq_refl)). lia.
  - exists j. rewrite E. cbn [Nat.add]. assert (L : j < length l) by (apply nth_error_Some; congruence).
    split; auto. split; auto. intros u v Hu Hv.
    assert (nth_error (rotate j l) 0 = Some a).
    { unfold rotate. rewrite nth_error_app1 by (rewrite skipn_length; lia). rewrite nth_error_skipn, Nat.add_0_r. auto. }
    assert (u = a) by congruence. subst u. apply F. eapply Permutation_in; [apply rotate_perm|exact Hv].
Qed.

Lemma cycle_nonempty : forall f, is_cycle f -> f <> [].
Proof.
  intros f (k & x & D & (P & _) & ->) E. assert (L : length (cyc (turn d) k x) = 0) by (rewrite E; auto).
  rewrite cyc_length in L. lia.
Qed.
Lemma cycle_left : forall f, is_cycle f -> cyclically (left_turn d) f.
Proof.
  intros f C i a b Ha Hb. pose proof C as (k & x & D & P & E).
  assert (Hd : is_dart d a) by (eapply cycle_darts; eauto; eapply nth_error_In; eauto).
  apply turn_left; auto. rewrite E in Ha, Hb. rewrite cyc_length in Hb.
  pose proof (cyc_cyclic _ _ _ _ _ P Ha) as K. rewrite K in Hb. congruence.
Qed.
Lemma canonorder_cycle : forall f, is_cycle f -> is_cycle (canonorder_face f).
Proof.
  intros f C. destruct (canonorder_rotates f (cycle_nonempty f C)) as (n & H1 & -> & _).
  apply rotate_cycle; auto.
Qed.
Lemma canonorder_perm : forall f, is_cycle f -> Permutation (canonorder_face f) f.
Proof.
  intros f C. destruct (canonorder_rotates f (cycle_nonempty f C)) as (n & H1 & -> & _). apply rotate_perm.
Qed.
Lemma concat_perm : forall A (l m : list (list A)), Permutation l m -> Permutation (concat l) (concat m).
Proof.
  intros A l m P. induction P; cbn; auto.
  - apply Permutation_app_head; auto.
  - rewrite !app_assoc. apply Permutation_app_tail, Permutation_app_comm.
  - etransitivity; eauto.
Qed.
Lemma concat_map_perm : forall A (g : list A -> list A) l, (forall x, In x l -> Permutation (g x) x) ->
  Permutation (concat (map g l)) (concat l).
Proof.
  induction l as [|x l IH]; intros H; cbn; auto. apply Permutation_app; [apply H; cbn; auto|].
  apply IH. intros y Hy. apply H. cbn; auto.
Qed.

Definition face_le (a b : face) : bool := not_gt (pd_face_cmp a b).
Lemma face_le_total : forall a b, face_le a b = false -> face_le b a = true.
Proof.
  intros a b H. unfold face_le in *. apply face_cmp_spec.
  destruct (big_first_total (map fst a) (map fst b)) as [K|K]; auto. apply face_cmp_spec in K. congruence.
Qed.
Lemma face_le_trans : forall a b c, face_le a b = true -> face_le b c = true -> face_le a c = true.
Proof. unfold face_le. intros a b c. rewrite !face_cmp_spec. apply big_first_trans. Qed.
Lemma StronglySorted_map : forall A B (g : A -> B) (P : A -> A -> Prop) (Q : B -> B -> Prop),
  (forall x y, P x y -> Q (g x) (g y)) -> forall l, StronglySorted P l -> StronglySorted Q (map g l).
Proof.
  intros A B g P Q H l S. induction S as [|x l S IH F]; cbn; constructor; auto.
  rewrite Forall_map. eapply Forall_impl; [|exact F]. auto.
Qed.

Lemma finish_faces : forall fs, complete fs ->
  let fs' := isort face_le (map canonorder_face fs) in
  length fs' = length fs /\ complete fs' /\ Forall starts_low fs' /\
  StronglySorted big_first (map (map fst) fs').
Proof.
  intros fs (C & N & P) fs'. rewrite Forall_forall in C.
  assert (PM : Permutation fs' (map canonorder_face fs)) by apply isort_perm.
  assert (PC : Permutation (concat fs') (concat fs)).
  { etransitivity; [apply concat_perm; exact PM|]. apply concat_map_perm. intros f Hf. apply canonorder_perm; auto. }
  split; [unfold fs'; rewrite isort_length, map_length; auto|]. split; [split; [|split]|split].
  - apply Forall_forall. intros f Hf. apply (Permutation_in _ PM) in Hf. apply in_map_iff in Hf as (g & <- & Hg).
    apply canonorder_cycle; auto.
  - eapply Permutation_NoDup; [symmetry; exact PC|auto].
  - etransitivity; eauto.
  - apply Forall_forall. intros f Hf. apply (Permutation_in _ PM) in Hf. apply in_map_iff in Hf as (g & <- & Hg).
    destruct (canonorder_rotates g (cycle_nonempty g (C g Hg))) as (n & _ & _ & H). auto.
  - eapply StronglySorted_map; [|apply isort_sorted; [apply face_le_total|apply face_le_trans]].
    intros x y H. apply face_cmp_spec. exact H.
Qed.

(** ** Any other decomposition has the same number of parts *)
Definition is_decomposition (fs : list face) : Prop :=
  (forall f, In f fs -> f <> [] /\ cyclically (left_turn d) f) /\ Permutation (concat fs) (darts d).
Definition is_sub (fs : list face) : Prop :=
  (forall f, In f fs -> f <> [] /\ cyclically (left_turn d) f /\ forall a, In a f -> is_dart d a) /\ NoDup (concat fs).
Lemma decomposition_sub : forall fs, is_decomposition fs -> is_sub fs.
Proof.
  intros fs (H & P). split.
  - intros f Hf. destruct (H f Hf) as (H1 & H2). split; auto. split; auto. intros a Ha. apply in_darts.
    eapply Permutation_in; [exact P|]. apply in_concat. eauto.
  - eapply Permutation_NoDup; [symmetry; exact P|apply NoDup_darts].
Qed.
Lemma decomposition_block : forall fs f x, is_sub fs -> In f fs -> In x f ->
  is_dart d x /\ period (turn d) (length f) x /\ Permutation (cyc (turn d) (length f) x) f.
Proof.
  intros fs f x (H & N) Hf Hx.
  assert (Hd : forall y, In y f -> is_dart d y).
  { intros y Hy. apply (H f Hf); auto. }
  split; auto. apply cyclic_list; auto.
  - apply in_split in Hf as (l1 & l2 & ->). rewrite concat_app in N. cbn in N.
    clear -N. induction (concat l1) as [|y l IH]; cbn in N; [|inversion N; auto].
    revert N. induction f as [|z f IH]; intros N; [constructor|]. cbn in N. inversion N as [|? ? N1 N2]; subst.
    constructor; auto. intros Hz. apply N1, in_app_iff. auto.
  - intros i a b Ha Hb. destruct (H f Hf) as (_ & C & _). specialize (C i a b Ha Hb).
    apply turn_left in C; auto. apply Hd. eapply nth_error_In; eauto.
Qed.
Definition same_orbit (a b : dart) : Prop := is_dart d a /\ is_dart d b /\ exists n, iter n (turn d) a = b.
Lemma same_orbit_sym : forall a b, same_orbit a b -> same_orbit b a.
Proof.
  intros a b (Da & Db & n & H). split; auto. split; auto.
  destruct (period_exists (turn d) (darts d) dart_dec turn_closed turn_inj a) as (k & _ & P1 & P2 & _); [apply in_darts; auto|].
  exists (n * k - n). subst b. rewrite <- iter_add. replace (n * k - n + n) with (n * k) by nia.
  apply iter_period; auto.
Qed.
Lemma same_orbit_trans : forall a b c, same_orbit a b -> same_orbit b c -> same_orbit a c.
Proof.
  intros a b c (Da & _ & n & H) (_ & Dc & m & H'). split; auto. split; auto. exists (m + n).
  rewrite iter_add, H. auto.
Qed.
Definition first_of (f : face) : dart := hd (0, Pos) f.
Lemma first_in : forall f, f <> [] -> In (first_of f) f.
Proof. intros [|x f] H; [congruence|cbn; auto]. Qed.
Lemma decomposition_le : forall fs gs, is_sub fs -> is_decomposition gs -> length fs <= length gs.
Proof.
  intros fs gs F G. rewrite <- (map_length first_of fs), <- (map_length first_of gs).
  apply (unrelated_le _ same_orbit same_orbit_sym same_orbit_trans).
  - assert (N : NoDup (concat fs)) by apply F.
    assert (Q : forall f, In f fs -> f <> []) by (intros f Hf; apply (proj1 F); auto).
    assert (B : forall f x, In f fs -> In x f -> forall y, same_orbit x y -> In y f).
    { intros f x Hf Hx y (_ & _ & n & <-). destruct (decomposition_block fs f x F Hf Hx) as (Dx & Px & PP).
      apply (Permutation_in _ PP). destruct Px as (P1 & P2 & _). rewrite <- (iter_mod _ (length f)) by auto.
      apply in_cyc. exists (n mod length f). split; auto. apply Nat.mod_upper_bound. lia. }
    clear F G. induction fs as [|f fs IH]; cbn [map]; constructor.
    + apply Forall_forall. intros x Hx R0. apply in_map_iff in Hx as (g & <- & Hg).
      assert (I1 : In (first_of g) f).
      { eapply B; [| |exact R0]; [cbn; auto|]. apply first_in. apply Q. cbn; auto. }
      cbn in N. assert (I2 : In (first_of g) (concat fs)).
      { apply in_concat. exists g. split; auto. apply first_in, Q. cbn; auto. }
      clear -N I1 I2. induction f as [|z f IH]; [destruct I1|]. cbn in N. inversion N as [|? ? N1 N2]; subst.
      destruct I1 as [->|I1]; auto. apply N1, in_app_iff. auto.
    + apply IH.
      * cbn in N. clear -N. induction f; cbn in N; auto. inversion N; auto.
      * intros g Hg. apply Q. cbn; auto.
      * intros g x Hg. apply B. cbn; auto.
  - intros x Hx. apply in_map_iff in Hx as (f & <- & Hf).
    assert (I : In (first_of f) (darts d)).
    { destruct F as (H & _). apply in_darts. apply (H f Hf). apply first_in. apply (H f Hf). }
    pose proof (decomposition_sub gs G) as G'. destruct G as (H & P).
    apply (Permutation_in _ (Permutation_sym P)) in I. apply in_concat in I as (g & Hg & Ig).
    exists (first_of g). split; [apply in_map; auto|].
    destruct (decomposition_block gs g (first_of f) G' Hg Ig) as (D1 & P1 & PP).
    assert (I2 : In (first_of g) g) by (apply first_in, (H g Hg)).
    destruct (decomposition_block gs g (first_of g) G' Hg I2) as (D2 & _).
    apply (Permutation_in _ (Permutation_sym PP)) in I2. apply in_cyc in I2 as (i & _ & Ei).
    split; auto. split; auto. exists i. auto.
Qed.
Lemma complete_decomposition : forall fs, complete fs -> is_decomposition fs.
Proof.
  intros fs (C & N & P). split; auto. intros f Hf. rewrite Forall_forall in C.
  split; [apply cycle_nonempty|apply cycle_left]; auto.
Qed.
End Turn.
