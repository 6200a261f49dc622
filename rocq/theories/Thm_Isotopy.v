(** C60: the search for diagram isotopies. *)
From Coq Require Import List ZArith Lia Bool Arith Permutation.
From Verif Require Import Base Iterators Perm Pd PdSpec PdOps PdRegen PdExamples Relabel HashSpec RegenSpec Carry Planar PdIso IsoSpec DiagIso DartMap
  AlikeProofs IsotopySpec IsotopyProofs IsotopyMoves Thm_Ops Thm_Planar Thm_IsoComplete Thm_IsoWrap.
Import ListNotations.
Open Scope nat_scope.

(** * Theorems *)

(** the list has every orientation-preserving, sign-preserving, tag-preserving isomorphism exactly once, and nothing else *)
Theorem build_isotopies_exact : forall A B, drawn A -> drawn B -> tags_agree A B -> turnable A ->
  exists l, pd_build_diagram_isotopies A B = Ok l /\
   (forall i, In i l -> exists kc ke kp kf s, sign_like s /\ kept A B kc ke kp kf s /\ holds A i kc ke kp kf s (fun _ => Pos)) /\
   (forall kc ke kp kf s, sign_like s -> kept A B kc ke kp kf s ->
      exists n, forall n', (exists i, nth_error l n' = Some i /\ holds A i kc ke kp kf s (fun _ => Pos)) <-> n' = n).
Proof. exact kept_listed. Qed.

(** the answer is exact unless a component has just two edges *)
Theorem isotopic_decides : forall A B, drawn A -> drawn B -> tags_agree A B -> turnable A -> (forall C, In C (p_comp A) -> length (cp_edge C) <> 2) ->
  exists b, pd_diagram_isotopic A B = Ok b /\ (b = true <-> exists kc ke turn s, isotopy A B kc ke turn s).
Proof.
  intros A B DA DB TG TN N2. destruct (kept_listed A B DA DB TG TN) as (l & E & L1 & L2). destruct (drawn_facts A DA) as (SA & _). destruct (drawn_facts B DB) as (SB & _).
  unfold pd_diagram_isotopic. rewrite E. cbn [bind]. eexists. split; [reflexivity|]. destruct l as [|i l]; cbn [length Nat.eqb negb].
  - split; [discriminate|]. intros (kc & ke & turn & s & I). destruct (isotopy_kept A B SA SB kc ke turn s I) as (kp & kf & K).
    destruct (L2 kc ke kp kf (sgn s) (sgn_like s) K) as (n & Hn). destruct (proj2 (Hn n) eq_refl) as (i & Hi & _). destruct n; discriminate.
  - split; auto. intros _. destruct (L1 i (or_introl eq_refl)) as (kc & ke & kp & kf & s & SO & K & _).
    destruct (kept_isotopy A B SA SB kc ke kp kf s SO K N2) as (turn & I). exists kc, ke, turn, s. auto.
Qed.

(** isotopic diagrams are always found to be isotopic *)
Theorem isotopic_complete : forall A B kc ke turn s, drawn A -> drawn B -> tags_agree A B -> turnable A ->
  isotopy A B kc ke turn s -> pd_diagram_isotopic A B = Ok true.
Proof.
  intros A B kc ke turn s DA DB TG TN I. destruct (kept_listed A B DA DB TG TN) as (l & E & _ & L2). destruct (drawn_facts A DA) as (SA & _). destruct (drawn_facts B DB) as (SB & _).
  unfold pd_diagram_isotopic. rewrite E. cbn [bind]. destruct (isotopy_kept A B SA SB kc ke turn s I) as (kp & kf & K).
  destruct (L2 kc ke kp kf (sgn s) (sgn_like s) K) as (n & Hn). destruct (proj2 (Hn n) eq_refl) as (i & Hi & _). destruct l; [destruct n; discriminate|reflexivity].
Qed.

(** * Where it fails *)

(** other tags on the components of a diagram *)
Definition retag (d : pd) (ts : list Z) : pd :=
  mkPd (p_maxv d) (p_uid d) (p_hash d) (p_edge d) (p_cross d) (map (fun ct => mkComp (cp_edge (fst ct)) (snd ct)) (combine (p_comp d) ts)) (p_face d).
Lemma retag_same : forall d ts, length ts = ncomps d -> same_but_tags d (retag d ts).
Proof.
  intros d ts L. constructor; auto. cbn. rewrite map_map. cbn. unfold ncomps in L. revert ts L. induction (p_comp d) as [|C cs IH]; intros [|t ts] L; cbn in *; try discriminate; auto. f_equal. auto.
Qed.
Lemma same_refl : forall d, same_but_tags d d.
Proof. intros d. constructor; auto. Qed.

Lemma hopf_drawn : exists d, pd_regenerate hopf = Ok d /\ tidy d /\ connected d.
Proof.
  destruct Thm_OverUnder.hopf_hyps as (_ & _ & T & _). assert (E : exists d, pd_regenerate hopf = Ok d) by (eexists; vm_compute; reflexivity). destruct E as (d & E). exists d. split; auto.
  split.
  - apply (regenerate_tidy hopf); auto; try (cbn; lia); try reflexivity. exists 0, Pos. split; [eexists; split; reflexivity|discriminate].
  - vm_compute in E. injection E as <-. apply joined_connected. intros c Hc. destruct c as [|[|c]]; [auto| |cbn in Hc; lia]. right.
    exists 0, 0, 0. split; (split; [lia|eexists; split; reflexivity]).
Qed.

(** the Hopf link with the two tags exchanged is isotopic to the Hopf link, but the program stops: the permutation of the
    components that is read off the tags is checked before its number is computed *)
Theorem isotopic_tags_refuted : exists A B kc ke turn s, drawn A /\ drawn B /\ NoDup (tags A) /\ NoDup (tags B) /\ (forall t, In t (tags A) <-> In t (tags B)) /\ turnable A /\
  isotopy A B kc ke turn s /\ pd_diagram_isotopic A B = Fail.
Proof.
  destruct hopf_drawn as (d & E & T & C). exists d, (retag d [66; 65]%Z), (fun c => c), (fun e => nth e [2; 3; 0; 1] 0), (fun c => nth c [1; 3] 0), Neg.
  split; [exists d; split; auto; split; auto; apply same_refl|]. assert (NC : ncomps d = 2) by (vm_compute in E; injection E as <-; reflexivity).
  split; [exists d; split; auto; split; auto; apply retag_same; auto|]. clear T C NC. vm_compute in E. injection E as <-.
  split; [repeat constructor; cbn; intuition discriminate|]. split; [repeat constructor; cbn; intuition discriminate|]. split; [cbn; intuition|]. split; [reflexivity|].
  split; [|vm_compute; reflexivity]. constructor; auto.
  - split; auto.
  - split; [intros [|[|[|[|e]]]] He; cbn in *; lia|]. intros [|[|[|[|e]]]] [|[|[|[|f]]]] He Hf; cbn in *; lia.
  - intros c x Hx. destruct c as [|[|c]]; cbn in Hx; try discriminate; [| |destruct c; discriminate]; injection Hx as <-; (eexists; split; [reflexivity|]; split; [reflexivity|]);
      intros [|[|[|[|p]]]] Hp; try reflexivity; lia.
  - intros e Ed HE. destruct e as [|[|[|[|e]]]]; cbn in HE; try discriminate; [| | | |destruct e; discriminate]; injection HE as <-; eexists; (split; [reflexivity|]); auto.
  - intros i C e HC I. destruct i as [|[|i]]; cbn in HC; try discriminate; [| |destruct i; discriminate]; injection HC as <-; cbn in I;
      [exists 1|exists 0]; (eexists; split; [reflexivity|]); cbn; intuition; subst; auto.
Qed.

(** two copies of the Hopf link with different tags are not isotopic; the program stops instead of saying so *)
Theorem isotopic_missing_tag_refuted : exists A B, drawn A /\ drawn B /\ turnable A /\ (forall kc ke turn s, ~ isotopy A B kc ke turn s) /\ pd_diagram_isotopic A B = Fail.
Proof.
  destruct hopf_drawn as (d & E & T & C). exists d, (retag d [65; 67]%Z). split; [exists d; split; auto; split; auto; apply same_refl|].
  assert (NC : ncomps d = 2) by (vm_compute in E; injection E as <-; reflexivity). split; [exists d; split; auto; split; auto; apply retag_same; auto|]. clear T C NC. vm_compute in E. injection E as <-.
  split; [reflexivity|]. split; [|vm_compute; reflexivity]. intros kc ke turn s [_ _ _ _ _ _ T]. destruct (T 1 _ 2 eq_refl (or_introl eq_refl)) as (j & C' & HC & _ & X).
  destruct j as [|[|j]]; cbn in HC; try discriminate; [| |destruct j; discriminate]; injection HC as <-; discriminate.
Qed.

(** a circle of four edges and two circles of two edges that cross it twice each; and the same crossings, with the same signs,
    with one small circle reversed (so that it passes below the large circle where it passed above) *)
Definition chain3 (es : list edge) : pd := mkPd 4 0 []
  ([mkEdge 0 0 2 1; mkEdge 1 1 0 2; mkEdge 3 2 1 3; mkEdge 2 3 3 0; mkEdge 2 0 3 3; mkEdge 3 1 2 2] ++ es)
  [mkCross 0 6 1 7 Pos; mkCross 7 1 6 2 Neg; mkCross 4 0 5 3 Pos; mkCross 3 5 2 4 Neg] [] [].
Definition chain_above : pd := chain3 [mkEdge 1 2 0 1; mkEdge 0 3 1 0].
Definition chain_below : pd := chain3 [mkEdge 0 1 1 2; mkEdge 1 0 0 3].
Lemma chain_drawn : forall d, d = chain_above \/ d = chain_below -> exists d', pd_regenerate d = Ok d' /\ tidy d' /\ connected d'.
Proof.
  intros d H. assert (T : two_ended d).
  { assert (K : forallb (fun E => negb ((e_head E =? e_tail E) && (e_headpos E =? e_tailpos E))) (p_edge d) = true) by (destruct H as [->| ->]; reflexivity). rewrite forallb_forall in K.
    intros e E X Y. apply nth_error_In in X. apply K in X. unfold head_slot, tail_slot in Y. injection Y as X1 X2. rewrite X1, X2, !Nat.eqb_refl in X. discriminate. }
  assert (E : exists d', pd_regenerate d = Ok d') by (destruct H as [->| ->]; eexists; vm_compute; reflexivity). destruct E as (d' & E). exists d'. split; auto. split.
  - apply (regenerate_tidy d); auto; try (destruct H as [->| ->]; cbn; lia); try (destruct H as [->| ->]; reflexivity).
    exists 0, Pos. split; [destruct H as [->| ->]; eexists; split; reflexivity|discriminate].
  - apply stepwise_connected. intros c H0 Hc. apply linked_joined. assert (K : ncross d' = 4 /\ forallb (linked_before d') (seq 1 3) = true).
    { destruct H as [->| ->]; vm_compute in E; injection E as <-; split; vm_compute; reflexivity. }
    destruct K as (K1 & K). rewrite forallb_forall in K. apply K, in_seq. lia.
Qed.
(** the head of each edge is where the map of the crossings takes it *)
Definition heads_move (A B : pd) (i : iso) : bool :=
  match i_cross i with
  | None => false
  | Some x => forallb (fun e => match nth_error (p_edge A) e, nth_error (p_edge B) (nth e (pmap (em_perm (i_edge i))) 0) with
      | Some E, Some E' => e_head E' =? nth (e_head E) (pmap (om_perm x)) 0
      | _, _ => false end) (seq 0 (nedges A))
  end.
Theorem isotopic_two_edges_refuted : exists A B, drawn A /\ drawn B /\ tags_agree A B /\ turnable A /\
  pd_diagram_isotopic A B = Ok true /\ forall kc ke turn s, ~ isotopy A B kc ke turn s.
Proof.
  destruct (chain_drawn chain_above (or_introl eq_refl)) as (A & EA & TA & CA). destruct (chain_drawn chain_below (or_intror eq_refl)) as (B & EB & TB & CB). exists A, B.
  assert (DA : drawn A) by (exists A; split; auto; split; auto; apply same_refl). assert (DB : drawn B) by (exists B; split; auto; split; auto; apply same_refl).
  assert (Q : tags_agree A B /\ turnable A /\ pd_diagram_isotopic A B = Ok true /\ exists l, pd_build_diagram_isotopies A B = Ok l /\ forallb (fun i => negb (heads_move A B i)) l = true).
  { clear - EA EB. vm_compute in EA, EB. injection EA as <-. injection EB as <-. split; [|split; [reflexivity|split; [vm_compute; reflexivity|]]].
    - split; [repeat constructor; cbn; intuition discriminate|]. split; [repeat constructor; cbn; intuition discriminate|]. auto.
    - eexists. split; vm_compute; reflexivity. }
  destruct Q as (TG & TN & I & l & EL & BAD). split; auto. split; auto. split; auto. split; auto. split; auto. intros kc ke turn s IT.
  pose proof (tidy_sphere A TA CA) as SA. pose proof (tidy_sphere B TB CB) as SB. destruct (isotopy_kept A B SA SB kc ke turn s IT) as (kp & kf & K).
  destruct (kept_listed A B DA DB TG TN) as (l' & EL' & _ & L2). assert (l' = l) as -> by congruence. destruct (L2 kc ke kp kf (sgn s) (sgn_like s) K) as (n & Hn).
  destruct (proj2 (Hn n) eq_refl) as (i & Hi & (x & HX & _ & HC) & _ & _ & HE & _). rewrite forallb_forall in BAD. specialize (BAD i (nth_error_In _ _ Hi)).
  assert (G : heads_move A B i = true); [|rewrite G in BAD; discriminate]. unfold heads_move. rewrite HX. apply forallb_forall. intros e He. apply in_seq in He.
  destruct (nth_error (p_edge A) e) as [E|] eqn:X; [|apply nth_error_None in X; unfold nedges in He; lia]. destruct (it_edge _ _ _ _ _ _ IT e E X) as (E' & HE' & H1 & _).
  rewrite HE by lia. rewrite HE', H1. apply Nat.eqb_eq. symmetry. apply HC. destruct (proj2 (sp_recorded A SA) e E X) as ((_ & y & Hy & _) & _). apply nth_error_Some. congruence.
Qed.

(** * Satisfiability *)
(** the trefoil with tag 7: moving every edge along by two *)
Example isotopic_example : exists d A, pd_regenerate trefoil = Ok d /\ A = retag d [7%Z] /\ drawn A /\ tags_agree A A /\ turnable A /\ (forall C, In C (p_comp A) -> length (cp_edge C) <> 2) /\
  pd_diagram_isotopic A A = Ok true /\ isotopy A A (fun c => c) (fun e => e) (fun _ => 0) Pos.
Proof.
  destruct tidy_example as (d & E & TD & _). exists d, (retag d [7%Z]). split; auto. split; auto. split.
  { exists d. split; auto. split; [|apply retag_same; vm_compute in E; injection E as <-; reflexivity]. vm_compute in E. injection E as <-.
    apply joined_connected. intros c Hc. destruct c as [|[|[|c]]]; [auto| | |cbn in Hc; lia]; right.
    - exists 0, 0, 0. split; (split; [lia|eexists; split; reflexivity]).
    - exists 2, 1, 2. split; (split; [lia|eexists; split; reflexivity]). }
  vm_compute in E. injection E as <-. split; [split; [repeat constructor; cbn; intuition discriminate|split; [repeat constructor; cbn; intuition discriminate|auto]]|].
  split; [reflexivity|]. split; [intros C [<-|[]]; cbn; lia|]. split; [vm_compute; reflexivity|]. constructor; auto; try (split; auto; fail).
  - intros c x Hx. exists x. split; auto. split; auto. intros [|[|[|[|p]]]] Hp; try reflexivity; lia.
  - intros e Ed HE. exists Ed. split; auto. assert (e_headpos Ed < 4 /\ e_tailpos Ed < 4) as (P1 & P2).
    { destruct e as [|[|[|[|[|[|e]]]]]]; cbn in HE; try discriminate; try (injection HE as <-; cbn; lia). destruct e; discriminate. }
    assert (K : forall p, p < 4 -> turn_to Pos 0 p = p) by (intros [|[|[|[|p]]]] Hp; try reflexivity; lia). rewrite !K; auto.
  - intros i C e HC I. exists i, C. auto.
Qed.
(** the trefoil and its mirror image with the same tag: both hypotheses of [isotopic_decides] hold and the answer is no *)
Example isotopic_no_example : exists d d', pd_regenerate trefoil = Ok d /\ drawn d /\ d' = mkPd (p_maxv d) (p_uid d) (p_hash d) (p_edge d) (map (fun x => set_sign x Neg) (p_cross d)) (p_comp d) (p_face d) /\
  pd_diagram_isotopic d d' = Ok false.
Proof.
  destruct tidy_example as (d & E & TD & _). exists d. eexists. split; auto. split; [|split; [reflexivity|vm_compute in E; injection E as <-; vm_compute; reflexivity]].
  exists d. split; auto. split; [|apply same_refl]. vm_compute in E. injection E as <-.
  apply joined_connected. intros c Hc. destruct c as [|[|[|c]]]; [auto| | |cbn in Hc; lia]; right.
  - exists 0, 0, 0. split; (split; [lia|eexists; split; reflexivity]).
  - exists 2, 1, 2. split; (split; [lia|eexists; split; reflexivity]).
Qed.
Print Assumptions build_isotopies_exact.
Print Assumptions isotopic_decides.
Print Assumptions isotopic_complete.
Print Assumptions isotopic_tags_refuted.
Print Assumptions isotopic_missing_tag_refuted.
Print Assumptions isotopic_two_edges_refuted.
