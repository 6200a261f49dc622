(** C33: simplification removes loops, one after the other, until none is left. *)
From Coq Require Import List ZArith Lia Bool Arith Permutation Relations.
From Verif Require Import Base Iterators Pd PdSpec PdProofs Relabel Strands PdComps PdCompsProofs OverUnder RegenSpec Planar
  PdFaces PdFacesProofs PdExamples RegenProofs Thm_Regen Thm_Comps Thm_Faces Thm_OverUnder Deloop DeloopSpec MoveProofs DeloopProofs DeloopComps Thm_LoopDel FewComps Simplify.
Import ListNotations.
Open Scope nat_scope.

(** a crossing with the same edge at two places next to each other *)
Definition has_loop (d : pd) : Prop := exists c p e, slot d c p e /\ slot d c ((p + 1) mod 4) e.

Definition same_tables (d d' : pd) : Prop :=
  p_edge d' = p_edge d /\ p_cross d' = p_cross d /\ p_comp d' = p_comp d /\ p_face d' = p_face d.

(** [untwisted n d d']: [d'] is [d] after the removal of [n] loops.  The last crossing leaves the unknot without crossings. *)
Inductive untwisted : nat -> pd -> pd -> Prop :=
| un_none : forall d d', same_tables d d' -> untwisted 0 d d'
| un_loop : forall n d d1 d' c e0 e1 e2 kc rho ke, loop_removed d d1 c e0 e1 e2 kc rho ke ->
    Permutation (p_comp d1) (map (fun k => mkComp (map ke (kept_edges e1 e2 (cp_edge k))) (cp_tag k)) (p_comp d)) ->
    face_partition d1 (p_face d1) ->
    untwisted n d1 d' -> untwisted (S n) d d'
| un_last : forall d u, ncross d = 1 -> has_loop d -> pd_build_unknot0 = Ok u -> untwisted 1 d u.

(** a face with one edge is a loop, and a loop bounds a face with one edge *)
Lemma monogon_loop : forall d e o, ends_recorded d -> left_turn d (e, o) (e, o) ->
  exists E, edge_at d e E /\ exists p, p < 4 /\ slot d (e_head E) p e /\ slot d (e_head E) ((p + 1) mod 4) e.
Proof.
  intros d e o R (c & p & Hp & (E & HE & A) & (E' & HE' & B)). cbn [fst snd] in *.
  unfold edge_at in HE, HE'. rewrite HE in HE'. injection HE' as <-. exists E. split; auto.
  destruct (proj2 R _ _ HE) as (S1 & S2). exists ((p + 3) mod 4). split; [apply Nat.mod_upper_bound; lia|].
  assert (Q : ((p + 3) mod 4 + 1) mod 4 = p) by (clear -Hp; destruct p as [|[|[|[|?]]]]; cbn; lia). rewrite Q.
  unfold head_slot, tail_slot in *.
  destruct A as [(-> & A)|(-> & A)], B as [(U & B)|(U & B)]; try discriminate; apply pair_eq in A as (A1 & A2); apply pair_eq in B as (B1 & B2).
  - split; congruence.
  - split; congruence.
Qed.
Lemma block_nodup : forall (fs : list face) m, NoDup (concat fs) -> In m fs -> NoDup m.
Proof.
  induction fs as [|f fs IH]; intros m F2 Im; [destruct Im|]. cbn [concat] in F2. assert (NoDup f /\ NoDup (concat fs)) as (A & B).
  { clear -F2. induction f as [|x f IH]; cbn in F2; [split; [constructor|auto]|]. inversion F2 as [|? ? N1 N2]; subst. destruct (IH N2). split; auto. constructor; auto.
    intro I. apply N1, in_app_iff. auto. }
  destruct Im as [->|Im]; auto.
Qed.
Lemma loop_monogon : forall d, workable d -> has_loop d -> exists f, In f (p_face d) /\ length f = 1.
Proof.
  intros d W (c & p & e & S1 & S2). pose proof (wk_recorded d W) as R. pose proof (wk_ends d W) as T. destruct (wk_faces d W) as (F1 & F2 & F3).
  pose proof S1 as (Hp & x & Hx & E1). destruct S2 as (_ & x' & Hx' & E2). rewrite Hx in Hx'. injection Hx' as <-.
  destruct (loop_found d c x p e R (wk_through d W) T Hx Hp E1 E2) as (E & HE & _ & _ & _ & LH).
  destruct (mono_exists _ _ _ _ _ LH) as (om & M).
  assert (MM : left_turn d (e, om) (e, om)) by (destruct M as [(-> & M & _)|(-> & M & _)]; exact M).
  assert (IM : In (e, om) (concat (p_face d))) by (apply F3; split; [eapply edge_at_lt; eauto|destruct M as [(-> & _)|(-> & _)]; auto]).
  apply in_concat in IM. destruct IM as (m & Im & Hm). exists m. split; auto.
  destruct (F1 m Im) as (_ & Cm). pose proof (block_nodup _ _ F2 Im) as ND.
  apply In_nth_error in Hm. destruct Hm as (i & Hi). assert (Li : i < length m) by (apply nth_error_Some; congruence).
  destruct (nth_error m ((i + 1) mod length m)) as [y|] eqn:Y; [|apply nth_error_None in Y; pose proof (Nat.mod_upper_bound (i + 1) (length m)); lia].
  pose proof (left_turn_fun d _ _ _ R T MM (Cm _ _ _ Hi Y)) as Q. rewrite <- Q, <- Hi in Y.
  rewrite NoDup_nth_error in ND. assert ((i + 1) mod length m = i) as Z by (apply ND; [apply Nat.mod_upper_bound; lia|auto]).
  destruct (Nat.eq_dec (i + 1) (length m)) as [V|V]; [rewrite V, Nat.mod_same in Z by lia; lia|]. rewrite Nat.mod_small in Z by lia. lia.
Qed.

Definition reduced_or_unknot (d' : pd) : Prop :=
  pd_build_unknot0 = Ok d' \/
  workable d' /\ ~ has_loop d' /\ (forall f, In f (p_face d') -> length f <> 1).

Lemma loop_simplifies : forall fuel w, workable w -> ncross w <= fuel ->
  exists n d', simplify_loop fuel w = Ok d' /\ untwisted n w d' /\ ncross d' + n = ncross w /\ reduced_or_unknot d'.
Proof.
  induction fuel as [|fuel IH]; intros w W Hf; pose proof (wk_some w W) as Hn; [lia|]. cbn [simplify_loop].
  destruct (find (fun f => length f =? 1) (p_face w)) as [f|] eqn:FD.
  - apply find_some in FD as (If & Lf). apply Nat.eqb_eq in Lf. destruct f as [|(e, o) [|? ?]]; cbn in Lf; try lia.
    destruct (wk_faces w W) as (F1 & F2 & F3). destruct (F1 _ If) as (_ & CY). pose proof (CY 0 (e, o) (e, o) eq_refl eq_refl) as LT.
    destruct (monogon_loop w e o (wk_recorded w W) LT) as (E & HE & p & Hp & S1 & S2).
    cbn [get nth_error bind fst]. unfold edge_at in HE. rewrite (proj2 (get_ok _ _ _ _) HE). cbn [bind].
    destruct (Nat.eq_dec (ncross w) 1) as [N1|N1].
    + destruct (loop_deletion_last w (e_head E) p e W N1 S1 S2) as (-> & u & U & Nu). rewrite U. cbn [bind]. rewrite Nu. cbn. exists 1, u.
      split; auto. split; [apply un_last; auto; exists (e_head E), p, e; auto|]. split; [lia|]. left. exact U.
    + destruct (loop_deletion w (e_head E) p e W ltac:(lia) S1 S2) as (w' & e0 & e2 & kc & rho & ke & D & LR & W' & PC & _).
      rewrite D. cbn [bind]. pose proof (wk_some _ W') as Hn'. destruct (Nat.ltb_spec 0 (ncross w')); [|lia].
      pose proof (lr_ncross _ _ _ _ _ _ _ _ _ LR) as NN.
      destruct (IH w' W' ltac:(lia)) as (n & d' & K1 & K2 & K3 & K4). exists (S n), d'. split; auto. split; [|split; [lia|auto]].
      eapply un_loop; eauto. apply (wk_faces _ W').
  - exists 0, w. split; auto. split; [apply un_none; repeat split|]. split; [lia|]. right. split; auto.
    assert (N : forall f, In f (p_face w) -> length f <> 1).
    { intros f If L. pose proof (find_none _ _ FD f If) as Q. cbn in Q. apply Nat.eqb_neq in Q. lia. }
    split; auto. intro L. destruct (loop_monogon w W L) as (f & If & Lf). apply (N f If Lf).
Qed.

Lemma same_workable : forall d a, workable d -> same_tables d a -> p_maxv a = Nat.max 2 (ncross d) -> workable a.
Proof.
  intros d a W (S1 & S2 & S3 & S4) M.
  assert (FW : 2 * ncomps d <= ncross d + 2).
  { apply components_few; try apply W; [apply comps_partition; apply W]. }
  pose proof (wk_some d W) as N. destruct W as [W1 W2 W3 W4 W5 W6 W7 W8 W9 W10 W11]. destruct d as [d1 d2 d3 d4 d5 d6 d7], a as [a1 a2 a3 a4 a5 a6 a7]. cbn [p_edge p_cross p_comp p_face p_maxv] in *. subst. constructor; auto.
  - unfold ncross in *. cbn [p_cross p_maxv] in *. lia.
  - unfold MAXCOMPONENTS, ncomps, ncross in *. cbn [p_comp p_cross p_maxv] in *. clear -FW.
    pose proof (Nat.div_le_mono (length d5) (Nat.max 2 (length d5)) 2 ltac:(lia) ltac:(lia)).
    pose proof (Nat.div_mod (length d5) 2 ltac:(lia)). pose proof (Nat.mod_upper_bound (length d5) 2). lia.
Qed.
Lemma same_untwisted : forall n d a d', same_tables d a -> untwisted n a d' -> untwisted n d d'.
Proof.
  intros n d a d' (S1 & S2 & S3 & S4) U. destruct U as [a d' (T1 & T2 & T3 & T4)|n a d1 d' c e0 e1 e2 kc rho ke LR PC FP U|a u N L U].
  - apply un_none. repeat split; congruence.
  - rewrite S3 in PC. apply (un_loop n d d1 d' c e0 e1 e2 kc rho ke); [|exact PC|exact FP|exact U].
    clear U FP PC. destruct d as [x1 x2 x3 x4 x5 x6 x7], a as [a1 a2 a3 a4 a5 a6 a7]. cbn [p_edge p_cross p_comp p_face] in *. subst.
    destruct LR as [L1 L2 L3 L4 L5 L6 L7 L8 L9 L10 L11 L12 L13].
    constructor; [exact L1|exact L2|exact L3|exact L4|exact L5|exact L6|exact L7|exact L8|exact L9|exact L10|exact L11|exact L12|exact L13].
  - apply un_last; [|clear N U|exact U]; destruct d as [x1 x2 x3 x4 x5 x6 x7], a as [a1 a2 a3 a4 a5 a6 a7];
      cbn [p_edge p_cross p_comp p_face] in *; subst; [exact N|exact L].
Qed.
Lemma workable_copy : forall d, workable d -> exists a, pd_copy d = Ok a /\ same_tables d a /\ workable a.
Proof.
  intros d W. destruct (copy_same d) as (a & C & _ & _ & S1 & S2 & S3 & S4 & M).
  - apply W.
  - pose proof (proj1 (wk_recorded d W)). lia.
  - intros C HC. pose proof (comps_partition d (wk_comps d W)) as (P1 & _). apply (P1 (cp_edge C)). apply in_map. auto.
  - assert (FW : 2 * ncomps d <= ncross d + 2).
    { apply components_few; try apply W; [apply comps_partition; apply W]. }
    pose proof (Nat.div_mod (ncross d) 2 ltac:(lia)). pose proof (Nat.mod_upper_bound (ncross d) 2). lia.
  - rewrite (wk_nfaces d W). lia.
  - exists a. split; auto. assert (S : same_tables d a) by (repeat split; auto). split; auto. eapply same_workable; eauto.
Qed.

(** The program ends, after at most as many removals as there are crossings, in the unknot without crossings or in a
    diagram without loops. *)
Theorem simplify_reduces : forall d fuel, workable d -> ncross d <= fuel ->
  exists n d', pd_simplify fuel d = Ok d' /\ untwisted n d d' /\ ncross d' + n = ncross d /\ reduced_or_unknot d'.
Proof.
  intros d fuel W Hf. destruct (workable_copy d W) as (a & C & S & Wa). unfold pd_simplify. rewrite C. cbn [bind].
  pose proof (wk_some d W). destruct (Nat.eqb_spec (ncross d) 0); [lia|].
  assert (N : ncross a = ncross d) by (unfold ncross; destruct S as (_ & -> & _); auto).
  destruct (loop_simplifies fuel a Wa ltac:(lia)) as (m & d' & K1 & K2 & K3 & K4). exists m, d'. split; auto. split; [eapply same_untwisted; eauto|]. split; auto. lia.
Qed.
Print Assumptions simplify_reduces.

(** The components keep their tags, unless the unknot without crossings is reached. *)
Theorem simplify_tags : forall d fuel d', workable d -> ncross d <= fuel -> pd_simplify fuel d = Ok d' -> 0 < ncross d' ->
  Permutation (map cp_tag (p_comp d')) (map cp_tag (p_comp d)).
Proof.
  intros d fuel d' W Hf S N. destruct (simplify_reduces d fuel W Hf) as (n & d2 & K & U & _). rewrite S in K. injection K as <-. clear W Hf S.
  induction U as [d d' (_ & _ & -> & _)|k d d1 d' c e0 e1 e2 kc rho ke _ PC _ _ IH|d u _ _ HU]; auto.
  - rewrite (IH N). apply (Permutation_map cp_tag) in PC. rewrite map_map in PC. cbn [cp_tag] in PC. exact PC.
  - vm_compute in HU. injection HU as <-. cbn in N. lia.
Qed.
Print Assumptions simplify_tags.

(** A diagram without loops is only copied; so simplifying twice changes nothing more. *)
Theorem simplify_reduced : forall d fuel, workable d -> ncross d <= fuel -> ~ has_loop d ->
  exists d', pd_simplify fuel d = Ok d' /\ same_tables d d'.
Proof.
  intros d fuel W Hf NL. destruct (simplify_reduces d fuel W Hf) as (n & d' & K & U & _). exists d'. split; auto.
  destruct U as [d d' S|k d d1 d' c e0 e1 e2 kc rho ke LR _ _ _|d u _ L _]; auto; [|contradiction]. exfalso. apply NL.
  destruct (lr_loop _ _ _ _ _ _ _ _ _ LR) as (E0 & E1 & E2 & p & q & H0 & H1 & H2 & Hp & Hq & A0 & A1 & B1 & A2 & Hpq).
  destruct (proj2 (wk_recorded d W) _ _ H1) as (S1 & S2). unfold head_slot, tail_slot in *. apply pair_eq in A1 as (A1 & A1'). apply pair_eq in B1 as (B1 & B1').
  rewrite A1, A1' in S2. rewrite B1, B1' in S1. destruct Hpq as [-> | ->]; [exists c, q, e1|exists c, p, e1]; auto.
Qed.
Print Assumptions simplify_reduced.

Example curly_simplifies : workable curly_trefoil /\ has_loop curly_trefoil /\
  exists d', pd_simplify 4 curly_trefoil = Ok d' /\ p_cross d' = p_cross trefoil /\ p_edge d' = p_edge trefoil.
Proof.
  split; [apply curly_workable|]. split; [exists 3, 2, 4; split; apply curly_loop|]. eexists. split; [vm_compute; reflexivity|]. split; reflexivity.
Qed.
