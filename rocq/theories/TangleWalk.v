(** Tangles: the two sides of the boundary and the strands. *)
From Coq Require Import List ZArith Lia Bool Arith Permutation Sorted.
From Verif Require Import Base ListAux Iterators Sorting Orbits Cycles Containers Pd PdSpec PdProofs PdFaces PdFacesProofs PdCross PdCompsProofs PdIso Relabel RelabelProofs Strands
  OverUnder OverUnderSpec OverUnderProofs LinkProofs HashIso Planar PlanarProofs DartMap Bigon Thm_Faces Thm_Planar Tangle TangleSpec.
From Verif Require BigonStrands BigonCorners.
Import ListNotations.
Open Scope nat_scope.

(** * Lists *)
Lemma no_repeats_nodup : forall l, NoDup l -> no_repeats l = true.
Proof.
  induction l as [|x l IH]; intros N; auto. inversion N as [|? ? Nx N']; subst. cbn [no_repeats]. destruct l as [|y l]; auto.
  rewrite (IH N'). destruct (Nat.eqb_spec x y) as [->|]; auto. exfalso. apply Nx. cbn; auto.
Qed.
Lemma edges_unique_ok : forall l, NoDup l -> edges_unique l = true.
Proof. intros l N. apply no_repeats_nodup. eapply Permutation_NoDup; [symmetry; apply isort_perm|]. auto. Qed.
Lemma no_repeats_sorted : forall l, StronglySorted le l -> no_repeats l = true -> NoDup l.
Proof.
  intros l S. induction S as [|x l S IH F]; intros H; constructor.
  - destruct l as [|y l]; [intros []|]. cbn [no_repeats] in H. apply andb_true_iff in H as (H & H2). apply negb_true_iff, Nat.eqb_neq in H.
    intros [->|I]; [congruence|]. inversion F as [|? ? Lxy _]; subst. inversion S as [|? ? _ F2]; subst. rewrite Forall_forall in F2. specialize (F2 x I). lia.
  - apply IH. destruct l as [|y l]; auto. cbn [no_repeats] in H. apply andb_true_iff in H as (_ & H). exact H.
Qed.
Lemma edges_unique_nodup : forall l, edges_unique l = true -> NoDup l.
Proof.
  intros l H. eapply Permutation_NoDup; [apply (isort_perm Nat.leb)|]. apply no_repeats_sorted; auto.
  assert (S : StronglySorted (fun a b => Nat.leb a b = true) (isort Nat.leb l)).
  { apply (isort_sorted Nat.leb); intros.
    - apply Nat.leb_le. apply Nat.leb_gt in H0. lia.
    - rewrite Nat.leb_le in *. lia. }
  clear - S. revert S. generalize (isort Nat.leb l). intros m S. induction S as [|x m S IH F]; constructor; auto. eapply Forall_impl; [|exact F]. intros y Hy. apply Nat.leb_le. exact Hy.
Qed.
Lemma places_none : forall es e, ~ In e es -> places_of es e = [].
Proof.
  intros es e H. unfold places_of. destruct (filter _ _) as [|i l] eqn:E; auto. exfalso. apply H.
  assert (I : In i (i :: l)) by (cbn; auto). rewrite <- E in I. apply filter_In in I as (I & Q). apply in_seq in I. apply Nat.eqb_eq in Q. rewrite <- Q. apply nth_In. lia.
Qed.
Lemma filter_one : forall A (f : A -> bool) l x, NoDup l -> In x l -> (forall y, In y l -> f y = true <-> y = x) -> filter f l = [x].
Proof.
  induction l as [|a l IH]; intros x N I H; [destruct I|]. inversion N as [|? ? Na N']; subst. cbn [filter].
  assert (Q : (forall y, In y l -> f y = false) -> filter f l = []).
  { clear. induction l as [|b l IH]; intros H; auto. cbn. rewrite H by (cbn; auto). apply IH. intros. apply H. cbn; auto. }
  destruct I as [->|I].
  - destruct (f x) eqn:E; [f_equal; apply Q|].
    + intros y Hy. destruct (f y) eqn:E2; auto. apply H in E2; [|cbn; auto]. subst. tauto.
    + assert (f x = true) by (apply H; cbn; auto). congruence.
  - destruct (f a) eqn:E; [apply H in E; [subst; tauto|cbn; auto]|]. apply IH; auto. intros. apply H. cbn; auto.
Qed.
Lemma places_one : forall es i e, NoDup es -> nth_error es i = Some e -> places_of es e = [i].
Proof.
  intros es i e N H. assert (L : i < length es) by (apply nth_error_Some; congruence). unfold places_of. apply filter_one.
  - apply seq_NoDup.
  - apply in_seq. lia.
  - intros j Hj. apply in_seq in Hj. rewrite Nat.eqb_eq. split; [|intros ->; apply nth_error_nth; auto].
    intros Q. rewrite NoDup_nth_error in N. apply N; [lia|]. rewrite H. rewrite <- Q. apply nth_error_nth'. lia.
Qed.
Lemma pos_none : forall es e, ~ In e es -> tangle_pos es e = Ok None.
Proof. intros es e H. unfold tangle_pos. rewrite places_none; auto. Qed.
Lemma pos_some : forall es i e, NoDup es -> nth_error es i = Some e -> tangle_pos es e = Ok (Some i).
Proof. intros es i e N H. unfold tangle_pos. rewrite (places_one es i e); auto. Qed.
Lemma map2_map : forall A B C (f : A -> B -> res C) (g : A -> C) l m, length m = length l ->
  (forall i a b, nth_error l i = Some a -> nth_error m i = Some b -> f a b = Ok (g a)) -> map2_ok f l m = Ok (map g l).
Proof.
  induction l as [|a l IH]; intros [|b m] L H; cbn [length] in L; try lia; auto. cbn [map2_ok map].
  rewrite (H 0 a b) by reflexivity. cbn [bind]. rewrite IH; auto. intros i. apply (H (S i)).
Qed.
Lemma least_false : forall n (p : nat -> bool), p n = false -> exists r, r <= n /\ p r = false /\ forall i, i < r -> p i = true.
Proof.
  induction n as [|n IH]; intros p H; [exists 0; repeat split; auto; lia|].
  destruct (p 0) eqn:E; [|exists 0; repeat split; auto; lia].
  destruct (IH (fun i => p (S i)) H) as (r & L & P & Q). exists (S r). repeat split; auto; [lia|].
  intros [|i] Hi; auto. apply Q. lia.
Qed.
Lemma filter_split : forall A (f : A -> bool) l, length (filter f l) + length (filter (fun a => negb (f a)) l) = length l.
Proof. induction l as [|a l IH]; cbn [filter length]; auto. destruct (f a); cbn [negb length]; lia. Qed.
Lemma filter_perm_length : forall A (f : A -> bool) l m, Permutation l m -> length (filter f l) = length (filter f m).
Proof.
  induction 1 as [|x l m P IH|x y l|l m k P1 IH1 P2 IH2]; cbn [filter]; auto.
  - destruct (f x); cbn [length]; lia.
  - destruct (f x), (f y); cbn [length]; lia.
  - lia.
Qed.
Lemma filter_map_length : forall A B (f : B -> bool) (g : A -> B) l, length (filter f (map g l)) = length (filter (fun a => f (g a)) l).
Proof. induction l as [|a l IH]; cbn [map filter]; auto. destruct (f (g a)); cbn [length]; lia. Qed.

Section Tangle.
Context (d : pd) (SD : sphere d) (es fs : list nat) (inside : nat -> bool).
Context (CC : closed_curve d es fs) (TS : two_sides_of d es fs inside).
Notation R := (sp_recorded d SD). Notation G := (sp_through d SD). Notation T := (sp_ends d SD). Notation FP := (sp_faces d SD).
Notation succ := (succ d).
Definition hi (e : nat) : bool := inside (hd d e).
Definition ti (e : nat) : bool := inside (e_tail (rec d e)).
Definition dir (e : nat) : bdy := if hi e then Inward else Outward.
Notation os := (map dir es).

Lemma strands_part : strand_partition d (map cp_edge (p_comp d)).
Proof. apply numbered_strands, sp_comps; auto. Qed.
Lemma es_nodup : NoDup es. Proof. apply CC. Qed.
Lemma es_lt : forall e, In e es -> e < nedges d.
Proof.
  intros e I. apply In_nth_error in I as (i & Hi). destruct CC as (_ & _ & _ & L & _).
  destruct (nth_error fs i) as [f|] eqn:F; [|apply nth_error_None in F; rewrite L in F; apply nth_error_None in F; congruence].
  destruct TS as (X & _). destruct (X i e f Hi F) as [(_ & E & HE & _)|(_ & E & HE & _)]; eapply edge_at_lt; eauto.
Qed.
Lemma in_iff : forall e, crosses_in d inside e <-> e < nedges d /\ ti e = false /\ hi e = true.
Proof.
  intros e. split.
  - intros (E & HE & X & Y). pose proof (edge_at_lt _ _ _ HE) as L. pose proof (rec_at d e L) as K. unfold edge_at in *. assert (E = rec d e) by congruence. subst. auto.
  - intros (L & X & Y). exists (rec d e). split; [apply rec_at; auto|auto].
Qed.
Lemma out_iff : forall e, crosses_out d inside e <-> e < nedges d /\ ti e = true /\ hi e = false.
Proof.
  intros e. split.
  - intros (E & HE & X & Y). pose proof (edge_at_lt _ _ _ HE) as L. pose proof (rec_at d e L) as K. unfold edge_at in *. assert (E = rec d e) by congruence. subst. auto.
  - intros (L & X & Y). exists (rec d e). split; [apply rec_at; auto|auto].
Qed.
Lemma inner_iff : forall e, inner d inside e <-> e < nedges d /\ ti e = true /\ hi e = true.
Proof.
  intros e. split.
  - intros (E & HE & X & Y). pose proof (edge_at_lt _ _ _ HE) as L. pose proof (rec_at d e L) as K. unfold edge_at in *. assert (E = rec d e) by congruence. subst. auto.
  - intros (L & X & Y). exists (rec d e). split; [apply rec_at; auto|auto].
Qed.
Lemma es_iff : forall e, e < nedges d -> In e es <-> ti e <> hi e.
Proof.
  intros e L. split.
  - intros I. apply In_nth_error in I as (i & Hi). destruct CC as (_ & _ & _ & Ln & _).
    destruct (nth_error fs i) as [f|] eqn:F; [|apply nth_error_None in F; rewrite Ln in F; apply nth_error_None in F; congruence].
    destruct TS as (X & _). destruct (X i e f Hi F) as [(_ & K)|(_ & K)]; [apply in_iff in K|apply out_iff in K]; destruct K as (_ & -> & ->); discriminate.
  - intros N. destruct (in_dec Nat.eq_dec e es); auto. exfalso. apply N. symmetry. destruct TS as (_ & Y). apply (Y e); auto. apply rec_at; auto.
Qed.
Lemma look : forall e, e < nedges d ->
  (exists i, nth_error es i = Some e /\ ti e = negb (hi e) /\ tangle_pos es e = Ok (Some i) /\ get os i = Ok (dir e)) \/
  (~ In e es /\ ti e = hi e /\ tangle_pos es e = Ok None).
Proof.
  intros e L. pose proof (es_iff e L) as K. destruct (in_dec Nat.eq_dec e es) as [I|I].
  - left. destruct (In_nth_error _ _ I) as (i & Hi). exists i. split; auto. split; [apply K in I; destruct (ti e), (hi e); cbn; congruence|].
    split; [apply pos_some; auto; apply es_nodup|]. apply get_ok. rewrite nth_error_map, Hi. reflexivity.
  - right. split; auto. split; [|apply pos_none; auto]. destruct (bool_dec (ti e) (hi e)); tauto.
Qed.
Lemma rng_succ : forall i e, e < nedges d -> iter i succ e < nedges d.
Proof. intros. apply iter_lt; auto. exact G. Qed.
Lemma ti_succ : forall e, e < nedges d -> ti (succ e) = hi e.
Proof.
  intros e L. destruct (succ_spec d G e (rec d e) (rec_at d e L)) as (N & HN & _ & K). pose proof (rec_at d (succ e) (succ_lt d G e L)) as K2.
  unfold edge_at in *. assert (N = rec d (succ e)) by congruence. subst N. unfold ti, hi, hd. unfold tail_slot in K. apply pair_equal_spec in K as (-> & _). auto.
Qed.
Lemma next_is : forall e, e < nedges d -> pd_next_edge d e = Ok (succ e).
Proof.
  intros e L. destruct (succ_spec d G e (rec d e) (rec_at d e L)) as (N & HN & S & K).
  eapply (BigonStrands.next_edge_ok d R e (rec d e) (succ e) N); [apply rec_at; auto|exact HN|]. rewrite K. reflexivity.
Qed.

(** * The strand that enters at an edge *)
Lemma comp_period : forall e i C, on_comp d e i -> nth_error (p_comp d) i = Some C -> period succ (length (cp_edge C)) e.
Proof.
  intros e i C (C' & HC' & I) HC. rewrite HC in HC'. injection HC' as <-.
  apply (block_cycle succ (seq 0 (nedges d)) (map cp_edge (p_comp d)) (cp_edge C) e); auto.
  - apply strand_cycle; [exact R|exact G|exact strands_part].
  - apply in_map. eapply nth_error_In; eauto.
Qed.
Lemma leaves : forall a m, a < nedges d -> ti a = false -> hi a = true -> period succ m a ->
  exists r, 0 < r /\ r < m /\ (forall i, 0 < i < r -> ti (iter i succ a) = true /\ hi (iter i succ a) = true) /\
    ti (iter r succ a) = true /\ hi (iter r succ a) = false.
Proof.
  intros a m L Ta Ha (M & P & _). destruct m as [|m]; [lia|].
  assert (X : hi (iter m succ a) = false).
  { rewrite <- (ti_succ (iter m succ a)) by (apply rng_succ; auto). change (succ (iter m succ a)) with (iter (S m) succ a). rewrite P. auto. }
  destruct (least_false m (fun i => hi (iter i succ a)) X) as (r & Lr & Hr & Q).
  assert (r <> 0) by (intros ->; cbn in Hr; congruence).
  assert (Y : forall i, 0 < i <= r -> ti (iter i succ a) = true).
  { intros [|i] Hi; [lia|]. cbn [iter]. rewrite ti_succ by (apply rng_succ; auto). apply Q. lia. }
  exists r. split; [lia|]. split; [lia|]. split; [|split; [apply Y; lia|auto]].
  intros i Hi. split; [apply Y; lia|apply Q; lia].
Qed.
Lemma iter_front : forall (A : Type) (f : A -> A) n x, iter n f (f x) = iter (S n) f x.
Proof. induction n as [|n IH]; intros x; auto. cbn [iter]. rewrite IH. reflexivity. Qed.
Lemma walk_ok : forall r k j n, r < k -> j < nedges d ->
  (forall i, i < r -> hi (iter i succ j) = true) -> ti (iter r succ j) = true -> hi (iter r succ j) = false ->
  exists i, nth_error es i = Some (iter r succ j) /\ strand_walk k d es os j n = Ok (i, n + r + 1).
Proof.
  induction r as [|r IH]; intros [|k] j n K L Q X Y; try lia; cbn [strand_walk].
  - cbn [iter] in *. destruct (look j L) as [(i & Hi & _ & E1 & E2)|(_ & C & _)]; [|congruence].
    rewrite E1. cbn [bind]. rewrite E2. cbn [bind]. rewrite next_is by auto. cbn [bind]. unfold dir. rewrite Y. exists i. split; auto. f_equal. f_equal. lia.
  - assert (H0 : hi j = true) by (apply (Q 0); lia).
    destruct (IH k (succ j) (S n)) as (i & Hi & W).
    + lia.
    + apply succ_lt; auto. exact G.
    + intros i Hi. rewrite iter_front. apply Q. lia.
    + rewrite iter_front. auto.
    + rewrite iter_front. auto.
    + rewrite iter_front in Hi. exists i. split; auto. replace (n + S r + 1) with (S n + r + 1) by lia. rewrite <- W.
      destruct (look j L) as [(p & Hp & _ & E1 & E2)|(_ & _ & E1)]; rewrite E1; cbn [bind]; [rewrite E2; cbn [bind]|]; rewrite next_is by auto; cbn [bind]; auto.
      unfold dir. rewrite H0. reflexivity.
Qed.
Lemma in_turn_iter : forall k a, a < nedges d -> in_turn (continues d) (cyc succ k a).
Proof.
  intros k a L i x y Hx Hy. assert (Li : i + 1 < k) by (rewrite <- (cyc_length succ k a); apply nth_error_Some; congruence).
  rewrite cyc_nth in Hx, Hy by lia. injection Hx as <-. injection Hy as <-. apply (continues_succ d R G). split; [apply rng_succ; auto|].
  rewrite Nat.add_1_r. reflexivity.
Qed.
(** what make_strand finds for the entry at place [i] *)
Definition strand_at (i : nat) (s : tstrand) : Prop :=
  start_edge s = i /\ exists a r m, nth_error es i = Some a /\ a < nedges d /\ ti a = false /\ hi a = true /\ period succ m a /\
    0 < r /\ r < m /\ (forall j, 0 < j < r -> ti (iter j succ a) = true /\ hi (iter j succ a) = true) /\
    ti (iter r succ a) = true /\ hi (iter r succ a) = false /\
    nth_error es (end_edge s) = Some (iter r succ a) /\ ts_nedges s = r + 1 /\ on_comp d a (ts_comp s) /\
    exists C, nth_error (p_comp d) (ts_comp s) = Some C /\ m = length (cp_edge C).
Lemma make_ok : forall i a, nth_error es i = Some a -> hi a = true -> exists s, make_strand d es os i = Ok s /\ strand_at i s.
Proof.
  intros i a Hi Ha. assert (I : In a es) by (eapply nth_error_In; eauto). pose proof (es_lt a I) as L.
  assert (Ta : ti a = false). { apply es_iff in I; auto. destruct (ti a); congruence. }
  destruct (comp_pos_ok d strands_part a L) as (c & p & Ec & OC). pose proof OC as (C & HC & _).
  pose proof (comp_period a c C OC HC) as P. destruct (leaves a _ L Ta Ha P) as (r & R0 & Rm & Q & X & Y).
  destruct (walk_ok r (length (cp_edge C) + 4) a 0) as (b & Hb & W); auto; [lia|..].
  { intros j Hj. destruct j as [|j]; [exact Ha|]. apply (Q (S j)). lia. }
  exists (mkTS i b (r + 1) c). unfold make_strand. rewrite (proj2 (get_ok _ _ _ _) Hi). cbn [bind]. rewrite Ec. cbn [bind fst].
  rewrite (proj2 (get_ok _ _ _ _) HC). cbn [bind]. rewrite W. cbn [bind fst snd]. split; [reflexivity|].
  split; [reflexivity|]. exists a, r, (length (cp_edge C)). cbn [end_edge ts_nedges ts_comp]. repeat (split; auto). exists C. auto.
Qed.
Lemma strand_at_is : forall i s, strand_at i s -> is_strand d es inside s.
Proof.
  intros i s (E & a & r & m & Hi & L & Ta & Ha & P & R0 & Rm & Q & X & Y & He & Hn & OC & _).
  exists a, (map (fun j => iter j succ a) (seq 1 (r - 1))), (iter r succ a). rewrite E. split; auto. split; auto.
  assert (EC : a :: map (fun j => iter j succ a) (seq 1 (r - 1)) ++ [iter r succ a] = cyc succ (r + 1) a).
  { rewrite Nat.add_1_r, cyc_succ. change (a :: ?u ++ ?v) with ((a :: u) ++ v). f_equal. unfold cyc. destruct r as [|r]; [lia|].
    cbn [seq map iter]. replace (S r - 1) with r by lia. reflexivity. }
  rewrite EC. split; [apply in_iff; auto|]. split; [apply out_iff; split; [apply rng_succ; auto|auto]|].
  split; [|split; [apply in_turn_iter; auto|split; [rewrite cyc_length; auto|auto]]].
  intros e I. apply in_map_iff in I as (j & <- & I). apply in_seq in I. apply inner_iff. split; [apply rng_succ; auto|]. apply Q. lia.
Qed.
Lemma strands_meet : forall i j s t, strand_at i s -> strand_at j t -> end_edge s = end_edge t -> i = j.
Proof.
  assert (X : forall a b r q, a < nedges d -> b < nedges d -> r <= q -> 0 < r -> ti a = false ->
     (forall k, 0 < k < q -> ti (iter k succ b) = true) -> iter r succ a = iter q succ b -> a = b).
  { intros a b r q La Lb Lr R0 Ta Q E. replace q with (r + (q - r)) in E by lia. rewrite iter_add in E.
    apply (Orbits.iter_inj succ (seq 0 (nedges d)) (D_closed d G) (D_inj d R G)) in E.
    - destruct (q - r) as [|k] eqn:K; auto. assert (ti a = true); [|congruence]. rewrite E. apply Q. lia.
    - apply in_seq. lia.
    - apply in_seq. pose proof (rng_succ (q - r) b Lb). lia. }
  intros i j s t (_ & a & r & m & Hi & L & Ta & Ha & P & R0 & Rm & Q & _ & _ & He & _)
    (_ & b & q & n & Hj & L' & Tb & Hb & P' & R0' & Rm' & Q' & _ & _ & He' & _) E.
  rewrite E, He' in He. injection He as He. assert (a = b).
  { destruct (le_ge_dec r q); [apply (X a b r q)|symmetry; apply (X b a q r)]; auto; intros k Hk; [apply Q'|apply Q]; auto. }
  subst b. pose proof es_nodup as N. rewrite NoDup_nth_error in N. apply N; [apply nth_error_Some|]; congruence.
Qed.

(** * As many edges enter as leave *)
Definition into (i : nat) : bool := match nth_error es i with Some e => hi e | None => false end.
Definition entries : list nat := filter into (seq 0 (length es)).
Definition exits : list nat := filter (fun i => negb (into i)) (seq 0 (length es)).
Lemma entries_in : forall i, In i entries <-> exists e, nth_error es i = Some e /\ hi e = true.
Proof.
  intros i. unfold entries, into. rewrite filter_In, in_seq. split.
  - intros (_ & H). destruct (nth_error es i) as [e|]; [eauto|discriminate].
  - intros (e & He & H). rewrite He. split; auto. assert (i < length es) by (apply nth_error_Some; congruence). lia.
Qed.
Lemma exits_in : forall i, In i exits <-> exists e, nth_error es i = Some e /\ hi e = false.
Proof.
  intros i. unfold exits, into. rewrite filter_In, in_seq. split.
  - intros (I & H). destruct (nth_error es i) as [e|] eqn:E; [exists e; split; auto; destruct (hi e); auto|]. apply nth_error_None in E. lia.
  - intros (e & He & H). rewrite He, H. split; auto. assert (i < length es) by (apply nth_error_Some; congruence). lia.
Qed.
Lemma count_in : length entries = length (filter hi es).
Proof.
  unfold entries. rewrite <- (filter_map_length _ _ (fun o => match o with Some e => hi e | None => false end) (nth_error es)).
  assert (E : map (nth_error es) (seq 0 (length es)) = map Some es).
  { generalize es. clear. induction es as [|x l IH]; auto. cbn [length seq map nth_error]. f_equal. rewrite <- seq_shift, map_map. exact IH. }
  rewrite E. rewrite filter_map_length. reflexivity.
Qed.
Lemma succ_perm : Permutation (map succ (seq 0 (nedges d))) (seq 0 (nedges d)).
Proof.
  apply NoDup_Permutation_bis.
  - apply NoDup_map_on; [apply seq_NoDup|]. exact (D_inj d R G).
  - rewrite map_length. auto.
  - intros x I. apply in_map_iff in I as (y & <- & I). apply (D_closed d G); auto.
Qed.
Lemma balanced : length (filter hi es) = length (filter ti es).
Proof.
  set (D := seq 0 (nedges d)).
  assert (A : length (filter hi D) = length (filter ti D)).
  { unfold D. rewrite <- (filter_perm_length _ ti _ _ succ_perm), filter_map_length. f_equal. apply filter_ext_in. intros e I. apply in_seq in I. symmetry. apply ti_succ. lia. }
  assert (B : forall f, length (filter f D) = length (filter f es) + length (filter f (filter (fun e => negb (existsb (Nat.eqb e) es)) D))).
  { intros f. assert (P : Permutation D (es ++ filter (fun e => negb (existsb (Nat.eqb e) es)) D)).
    { apply NoDup_Permutation.
      - apply seq_NoDup.
      - apply NoDup_app_intro; [apply es_nodup|apply NoDup_filter, seq_NoDup|]. intros x I J. apply filter_In in J as (_ & J). apply negb_true_iff in J.
        assert (existsb (Nat.eqb x) es = true) by (apply existsb_exists; exists x; split; auto; apply Nat.eqb_refl). congruence.
      - intros x. rewrite in_app_iff, filter_In. unfold D. split.
        + intros I. destruct (in_dec Nat.eq_dec x es) as [J|J]; auto. right. split; auto. apply negb_true_iff. destruct (existsb (Nat.eqb x) es) eqn:E; auto.
          apply existsb_exists in E as (y & Iy & E). apply Nat.eqb_eq in E. subst. tauto.
        + intros [I|(I & _)]; auto. apply in_seq. apply es_lt in I. lia. }
    rewrite (filter_perm_length _ f _ _ P), filter_app, app_length. reflexivity. }
  rewrite (B hi), (B ti) in A. assert (C : filter hi (filter (fun e => negb (existsb (Nat.eqb e) es)) D) = filter ti (filter (fun e => negb (existsb (Nat.eqb e) es)) D)).
  { apply filter_ext_in. intros e I. apply filter_In in I as (I & J). apply in_seq in I. apply negb_true_iff in J. destruct TS as (_ & Y). apply (Y e); [apply rec_at; lia|].
    intros K. assert (existsb (Nat.eqb e) es = true) by (apply existsb_exists; exists e; split; auto; apply Nat.eqb_refl). congruence. }
  rewrite C in A. lia.
Qed.
Lemma halves : length entries = length es / 2 /\ length exits = length es / 2 /\ length es = 2 * (length es / 2).
Proof.
  assert (A : length entries + length exits = length es).
  { unfold entries, exits. rewrite filter_split, seq_length. auto. }
  assert (B : length entries = length exits).
  { pose proof balanced as X. pose proof count_in as Y. pose proof (filter_split _ hi es) as Z.
    assert (W : filter ti es = filter (fun a => negb (hi a)) es).
    { apply filter_ext_in. intros e I. pose proof (proj1 (es_iff e (es_lt e I)) I). destruct (ti e), (hi e); cbn; congruence. }
    rewrite W in X. lia. }
  assert (H : length es = 2 * length entries) by lia. rewrite H. rewrite (Nat.mul_comm 2), Nat.div_mul by lia. lia.
Qed.

(** * All strands *)
Definition the_strand (i : nat) : tstrand := match make_strand d es os i with Ok s => s | _ => mkTS 0 0 0 0 end.
Lemma the_strand_ok : forall i, In i entries -> make_strand d es os i = Ok (the_strand i) /\ strand_at i (the_strand i).
Proof.
  intros i I. apply entries_in in I as (a & Hi & Ha). destruct (make_ok i a Hi Ha) as (s & E & K). unfold the_strand. rewrite E. auto.
Qed.
Lemma upd_split : forall A (l : list A) s x, s < length l -> firstn (S s) (upd s x l) = firstn s l ++ [x].
Proof.
  induction l as [|y l IH]; intros [|s] x L; cbn [length] in L; try lia; auto. cbn [upd]. rewrite !firstn_cons. cbn [app]. f_equal. apply IH. lia.
Qed.
Lemma strands_loop : forall is s ss, (forall i, In i is -> i < length es) -> s + length (filter into is) = length ss ->
  make_strands d es os is s ss = Ok (firstn s ss ++ map the_strand (filter into is)).
Proof.
  induction is as [|i is IH]; intros s ss I L; cbn [make_strands filter] in *.
  - cbn [length map] in *. rewrite firstn_all2 by lia. rewrite app_nil_r. auto.
  - assert (Li : i < length es) by (apply I; cbn; auto). destruct (nth_error es i) as [e|] eqn:E; [|apply nth_error_None in E; lia].
    assert (I' : forall j, In j is -> j < length es) by (intros; apply I; cbn; auto).
    assert (Ei : into i = hi e) by (unfold into; rewrite E; auto). rewrite Ei in *.
    rewrite (proj2 (get_ok _ os i (dir e))) by (rewrite nth_error_map, E; reflexivity). cbn [bind]. assert (De : dir e = if hi e then Inward else Outward) by reflexivity. rewrite De. destruct (hi e) eqn:H.
    + destruct (the_strand_ok i) as (M & _); [apply entries_in; eauto|]. rewrite M. cbn [bind]. cbn [length] in L.
      destruct (Nat.ltb_spec s (length ss)); [|lia]. rewrite IH; auto; [|rewrite upd_length; lia].
      rewrite upd_split by auto. rewrite <- app_assoc. reflexivity.
    + apply IH; auto.
Qed.
Lemma strands_ok : forall ss, length ss = length es / 2 -> make_strands d es os (seq 0 (length es)) 0 ss = Ok (map the_strand entries).
Proof.
  intros ss L. rewrite strands_loop; auto.
  - intros i I. apply in_seq in I. lia.
  - destruct halves as (H & _). unfold entries in H. lia.
Qed.
Lemma starts : map start_edge (map the_strand entries) = entries.
Proof.
  rewrite map_map. rewrite <- (map_id entries) at 2. apply map_ext_in. intros i I. apply the_strand_ok in I as (_ & E & _). auto.
Qed.
Lemma entries_sorted : StronglySorted lt entries.
Proof.
  unfold entries. generalize (length es) 0. intros n. induction n as [|n IH]; intros k; cbn [seq filter]; [constructor|].
  destruct (into k); auto. constructor; auto. rewrite Forall_forall. intros x I. apply filter_In in I as (I & _). apply in_seq in I. lia.
Qed.
Lemma ends_nodup : NoDup (map end_edge (map the_strand entries)).
Proof.
  rewrite map_map. apply NoDup_map_on.
  - apply NoDup_filter, seq_NoDup.
  - intros i j I J E. apply the_strand_ok in I as (_ & I). apply the_strand_ok in J as (_ & J). eapply strands_meet; eauto.
Qed.
Lemma ends_exit : forall i, In i (map end_edge (map the_strand entries)) <-> In i exits.
Proof.
  assert (A : incl (map end_edge (map the_strand entries)) exits).
  { intros i I. rewrite map_map in I. apply in_map_iff in I as (j & <- & I). apply the_strand_ok in I as (_ & _ & a & r & m & H).
    apply exits_in. exists (iter r succ a). tauto. }
  intros i. split; [apply A|]. apply (NoDup_length_incl ends_nodup); auto. rewrite !map_length. destruct halves. lia.
Qed.
End Tangle.
