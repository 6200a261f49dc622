(** Two diagrams alike at their crossings are isomorphic, and the first comparisons of the search hold. *)
From Coq Require Import List ZArith Lia Bool Arith Permutation Sorted.
From Verif Require Import Base ListAux Iterators PermData Perm PermProofs Sorting Cycles CycleMatch Pd PdSpec PdProofs Relabel RelabelProofs Strands
  PdFacesProofs PdHash HashSpec HashProofs HashIso Thm_Hash RegenSpec PdIso IsoSpec DiagIso IsoSound Planar Carry LinkProofs DartMap.
Import ListNotations.
Open Scope nat_scope.

Lemma tidy_sphere : forall d, tidy d -> connected d -> sphere d.
Proof. intros d [T1 T2 [] T4 T5] C. constructor; auto. Qed.

Lemma alike_extends : forall A B kc ke s, sphere A -> sphere B -> sign_like s -> alike A B kc ke s ->
  exists kp kf dir, isomorphism A B kc ke kp kf s s dir /\ forall i, sign_like (dir i).
Proof.
  intros A B kc ke s SA SB SO AL. pose proof AL as [NC NE BC BE XX].
  destruct (from_cross A B SA SB ke NE BE s SO) as (h & LF).
  { intros c x Hx. destruct (XX c x Hx) as (y & Hy & Ro). exists (kc c), y. auto. }
  assert (NF : nfaces B = nfaces A) by (rewrite (sp_nfaces A SA), (sp_nfaces B SB), NC; auto).
  pose proof (to_face A B SA SB ke BE s SO h LF) as TF.
  destruct (finite_choice (fun f f' => exists F F', nth_error (p_face A) f = Some F /\ nth_error (p_face B) f' = Some F' /\
    rotation (turned s (map fst F')) (map ke (map fst F))) (nfaces A)) as (kf & KF).
  { intros f Hf. destruct (nth_error (p_face A) f) as [F|] eqn:X; [|apply nth_error_None in X; unfold nfaces in Hf; lia].
    destruct (TF f F X) as (f' & F' & HF' & Ro). exists f', F, F'. auto. }
  pose proof (to_comp A B SA SB ke NE BE s SO h LF) as TC.
  destruct (finite_choice (fun i j => exists t, j < ncomps B /\ sign_like t /\ comp_fits A B ke i j t) (ncomps A) TC) as (kp & KP).
  assert (exists dir, forall i, sign_like (dir i) /\ (i < ncomps A -> comp_fits A B ke i (kp i) (dir i))) as (dir & DIR).
  { clear - KP. assert (H : forall n, n <= ncomps A -> exists dir, forall i, sign_like (dir i) /\ (i < n -> comp_fits A B ke i (kp i) (dir i))).
    { induction n as [|n IH]; intros L; [exists (fun _ => Pos); split; [left; auto|lia]|].
      destruct IH as (dir & D); [lia|]. destruct (KP n) as (t & _ & T1 & T2); [lia|].
      exists (fun i => if i =? n then t else dir i). intros i. destruct (Nat.eqb_spec i n) as [->|]; [auto|].
      destruct (D i) as (D1 & D2). split; auto. intros. apply D2. lia. }
    apply (H (ncomps A)); auto. }
  assert (CM : ncomps B = ncomps A /\ bij_on (ncomps A) kp).
  { destruct (sp_comps A SA) as (A1 & A2 & _). destruct (sp_comps B SB) as (B1 & B2 & _).
    unfold ncomps. rewrite <- (map_length cp_edge (p_comp A)), <- (map_length cp_edge (p_comp B)).
    apply (blocks_match _ _ ke); rewrite ?A1, ?B1; auto using seq_NoDup.
    - intros x y Hx Hy. apply in_seq in Hx, Hy. apply BE; lia.
    - intros y Hy. apply in_seq in Hy. destruct (bij_surj _ _ y BE) as (x & Hx & E); [lia|]. exists x. split; auto. apply in_seq; lia.
    - intros I. apply in_map_iff in I as (C & E & I). apply A2 in I as (I & _). auto.
    - intros I. apply in_map_iff in I as (C & E & I). apply B2 in I as (I & _). auto.
    - intros i b Hb. rewrite nth_error_map in Hb. destruct (nth_error (p_comp A) i) as [C|] eqn:HC; [|discriminate]. cbn in Hb. injection Hb as <-.
      assert (Hi : i < ncomps A) by (apply nth_error_Some; congruence).
      destruct (proj2 (DIR i) Hi C HC) as (C' & HC' & Ro). exists (cp_edge C'). split; [apply map_nth_error; auto|].
      symmetry. apply rotation_perm in Ro. rewrite <- Ro. destruct (dir i); cbn; auto; apply Permutation_rev. }
  destruct CM as (NP & BP).
  exists kp, kf, dir. split; [|apply DIR]. constructor; auto.
  - intros i C HC. assert (Hi : i < ncomps A) by (apply nth_error_Some; congruence). apply (proj2 (DIR i) Hi C HC).
  - split.
    + intros f Hf. destruct (KF f Hf) as (F & F' & _ & H2 & _). rewrite <- NF. apply nth_error_Some. congruence.
    + intros f g Hf Hg E. destruct (KF f Hf) as (F & F' & H1 & H2 & Ro). destruct (KF g Hg) as (G & G' & H3 & H4 & Ro').
      rewrite E, H4 in H2. injection H2 as ->. eapply (same_face A SA ke BE s SO); eauto.
  - intros f F HF. assert (Hf : f < nfaces A) by (apply nth_error_Some; congruence).
    destruct (KF f Hf) as (F0 & F' & H1 & H2 & Ro). rewrite HF in H1. injection H1 as <-. exists F'. auto.
Qed.

Lemma sizes_perm : forall (a b : list nat) n k, length a = n -> length b = n -> bij_on n k ->
  (forall i, i < n -> nth i a 0 = nth (k i) b 0) -> Permutation a b.
Proof.
  intros a b n k La Lb BK H. rewrite <- (map_nth_self _ a 0), <- (map_nth_self _ b 0), La, Lb.
  rewrite <- (bij_perm n k BK) at 2. rewrite map_map. erewrite map_ext_in; [reflexivity|]. intros i Hi. apply in_seq in Hi. apply H. lia.
Qed.

Section Iso.
Context (A B : pd) (SA : sphere A) (SB : sphere B) (kc ke kp kf : nat -> nat) (s r : orient) (dir : nat -> orient).
Context (I : isomorphism A B kc ke kp kf s r dir).

Lemma comp_lengths : Permutation (comp_sizes A) (comp_sizes B).
Proof.
  unfold comp_sizes. apply (sizes_perm _ _ (ncomps A) kp); rewrite ?map_length; auto.
  - apply (im_ncomps _ _ _ _ _ _ _ _ _ I).
  - apply (im_kp _ _ _ _ _ _ _ _ _ I).
  - intros i Hi. destruct (nth_error (p_comp A) i) as [C|] eqn:HC; [|apply nth_error_None in HC; unfold ncomps in Hi; lia].
    destruct (im_comp _ _ _ _ _ _ _ _ _ I i C HC) as (C' & HC' & Ro).
    erewrite (nth_error_nth _ i) by (apply map_nth_error; exact HC). erewrite nth_error_nth by (apply map_nth_error; exact HC').
    apply rotation_perm, Permutation_length in Ro. rewrite map_length in Ro. rewrite <- Ro. destruct (dir i); cbn; auto; apply rev_length.
Qed.
Lemma face_lengths : Permutation (map (@length (nat * orient)) (p_face A)) (map (@length (nat * orient)) (p_face B)).
Proof.
  apply (sizes_perm _ _ (nfaces A) kf); rewrite ?map_length; auto.
  - apply (im_nfaces _ _ _ _ _ _ _ _ _ I).
  - apply (im_kf _ _ _ _ _ _ _ _ _ I).
  - intros i Hi. destruct (nth_error (p_face A) i) as [C|] eqn:HC; [|apply nth_error_None in HC; unfold nfaces in Hi; lia].
    destruct (im_face _ _ _ _ _ _ _ _ _ I i C HC) as (C' & HC' & Ro).
    erewrite (nth_error_nth _ i) by (apply map_nth_error; exact HC). erewrite nth_error_nth by (apply map_nth_error; exact HC').
    apply rotation_perm, Permutation_length in Ro. rewrite !map_length in Ro. rewrite <- Ro. destruct r; cbn; rewrite ?rev_length, ?map_length; auto.
Qed.
End Iso.

Lemma may_match_ok : forall A B kc ke kp kf s r dir, tidy A -> tidy B -> connected A -> connected B ->
  isomorphism A B kc ke kp kf s r dir -> may_match A B = true.
Proof.
  intros A B kc ke kp kf s r dir TA TB CA CB I. pose proof (tidy_sphere A TA CA) as SA. pose proof (tidy_sphere B TB CB) as SB.
  pose proof (comp_lengths A B kc ke kp kf s r dir I) as CL. pose proof (face_lengths A B kc ke kp kf s r dir I) as FL.
  destruct (td_regular A TA) as [_ _ _ _ NA _ FA _ _ OA]. destruct (td_regular B TB) as [_ _ _ _ NB _ FB _ _ OB].
  destruct NA as (_ & _ & NA). destruct NB as (_ & _ & NB).
  assert (EC : comp_sizes A = comp_sizes B).
  { apply desc_unique; auto; unfold comp_sizes; rewrite <- (map_map cp_edge (@length nat)); apply big_first_sizes; auto. }
  assert (EF : map (@length (nat * orient)) (p_face A) = map (@length (nat * orient)) (p_face B)).
  { apply desc_unique; auto.
    - replace (map (@length (nat * orient)) (p_face A)) with (map (@length nat) (map (map fst) (p_face A))); [apply big_first_sizes; auto|].
      rewrite map_map. apply map_ext. intros. apply map_length.
    - replace (map (@length (nat * orient)) (p_face B)) with (map (@length nat) (map (map fst) (p_face B))); [apply big_first_sizes; auto|].
      rewrite map_map. apply map_ext. intros. apply map_length. }
  assert (EH : p_hash A = p_hash B).
  { destruct (hash_invariant A B ke kf) as (h & HA & HB); auto.
    - apply partition_faced; [apply SA|apply (sp_recorded A SA)|auto].
    - apply partition_faced; [apply SB|apply (sp_recorded B SB)|auto].
    - apply (im_alike _ _ _ _ _ _ _ _ _ I).
    - pose proof (im_alike _ _ _ _ _ _ _ _ _ I) as [_ NE _ BE _]. constructor; auto; [apply (im_nfaces _ _ _ _ _ _ _ _ _ I)|apply (im_kf _ _ _ _ _ _ _ _ _ I)|].
      intros i f Hf. unfold face_edges in *. rewrite nth_error_map in Hf. destruct (nth_error (p_face A) i) as [F|] eqn:HF; [|discriminate].
      cbn in Hf. injection Hf as <-. destruct (im_face _ _ _ _ _ _ _ _ _ I i F HF) as (F' & HF' & Ro).
      exists (map fst F'). split; [apply map_nth_error; auto|]. apply rotation_sym in Ro. destruct r; cbn [turned] in Ro; [left; auto|right|right];
      apply rotation_rev in Ro; rewrite rev_involutive in Ro; exact Ro.
    - rewrite (td_hash A TA) in HA. rewrite (td_hash B TB) in HB. injection HA as HA. injection HB as HB. rewrite HA, HB. reflexivity. }
  unfold may_match. pose proof (im_alike _ _ _ _ _ _ _ _ _ I) as [E1 E2 _ _ _].
  rewrite EH, E1, E2, (im_ncomps _ _ _ _ _ _ _ _ _ I), (im_nfaces _ _ _ _ _ _ _ _ _ I), EC, EF, !Nat.eqb_refl.
  assert (Q : forall l, list_eqb l l = true) by (intros l; apply list_eqb_eq; auto). rewrite !Q. reflexivity.
Qed.
