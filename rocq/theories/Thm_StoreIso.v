(** C59: a store of diagrams kept up to isomorphism. *)
From Coq Require Import List ZArith Lia Bool Arith Permutation Sorted.
From Verif Require Import Base Iterators Pd PdSpec PdProofs PdStore PdStoreSpec PdStoreProofs PdPack Base64 PdHash PdRegen PdExamples Relabel RegenSpec Carry Planar PdIso DiagIso
  DartMap AlikeProofs FewComps Thm_Faces Thm_Comps Thm_Pack Thm_Regen Thm_Ops Thm_Planar Thm_Iso Thm_IsoComplete Thm_Store.
Import ListNotations.
Open Scope nat_scope.

(** * Specification *)

(** two diagrams are the same up to numbering and mirror image of the projection *)
Definition equivalent (a b : pd) : Prop := exists kc ke spin, alike a b kc ke spin.

(** a diagram that the store can hold: valid, its records as pd_regenerate leaves them, every crossing signed, and small enough to pack *)
Definition fileable (d : pd) : Prop :=
  valid d /\ countable d /\ pd_regenerate d = Ok d /\ (forall x, In x (p_cross d) -> csign x <> Unset) /\ (Z.of_nat (pd_packbits (ncross d) true) < 2 ^ 31)%Z.

(** the functions of the store for diagrams.  Simplification: in the model of the store these are total functions; [filing_succeeds] shows
    that all the calls made for fileable diagrams return *)
Definition no_pd : pd := mkPd 0 0 [] [] [] [] [].
Definition pack_of (d : pd) : list Z := match pd_pack d with Ok w => w | _ => [] end.
Definition unpack_of (w : list Z) : pd := match pd_unpack w with Ok d => d | _ => no_pd end.
Definition answer (r : res bool) : bool := match r with Ok b => b | _ => false end.
Definition iso_of (a b : pd) : bool := answer (pd_isomorphic a b).
Definition isot_of (a b : pd) : bool := answer (pd_diagram_isotopic a b).
Definition add_diagrams (h : list pd) : res (@pdstor (list Z) * list nat) :=
  add_all p_hash pack_of unpack_of iso_of isot_of pd_new_pdstor (map (fun d => (d, ISOMORPHISM)) h).
Definition visit_diagrams := @visit pd (list Z) unpack_of.

(** the diagram without its number and its spare room *)
Definition same_but_room (a b : pd) : Prop :=
  p_hash a = p_hash b /\ p_edge a = p_edge b /\ p_cross a = p_cross b /\ p_comp a = p_comp b /\ p_face a = p_face b.

(** * Proofs *)
Lemma equivalent_congr : forall a a' b b', same_but_room a a' -> same_but_room b b' -> equivalent a b -> equivalent a' b'.
Proof.
  intros a a' b b' (_ & E1 & E2 & _) (_ & F1 & F2 & _) (kc & ke & s & [H1 H2 H3 H4 H5]). exists kc, ke, s. unfold ncross, nedges in *. constructor; unfold ncross, nedges in *; rewrite <- ?E1, <- ?E2, <- ?F1, <- ?F2; auto.
Qed.
Lemma signed_here : forall d, (forall x, In x (p_cross d) -> csign x <> Unset) -> Thm_Pack.all_signed d true.
Proof. intros d H c s (x & Hx & <-). split; auto. intros _. eapply H, nth_error_In; eauto. Qed.

Lemma stored_diagram : forall d, fileable d -> pd_pack d = Ok (pack_of d) /\ pd_unpack (pack_of d) = Ok (stored pack_of unpack_of d) /\
  same_but_room d (stored pack_of unpack_of d) /\ valid (stored pack_of unpack_of d).
Proof.
  intros d ((TD & CD & OD) & (C12 & _) & RG & SG & PB). pose proof (tidy_sphere d TD CD) as SD. pose proof (sp_some d SD) as Hn.
  assert (HB : too_many_bits (ncross d) true = false) by (unfold too_many_bits; apply Z.leb_gt; auto).
  assert (HE : pd_edges_ok d = Ok true) by (unfold pd_ok in OD; apply and_ok_true in OD as (_ & OD); apply and_ok_true in OD; apply OD).
  pose proof (td_room d TD) as HM.
  assert (FC : 2 * ncomps d <= ncross d + 2) by (apply components_few; try apply SD; apply comps_partition; apply SD).
  assert (MV : ncross d <= maxverts_of (ncross d)) by (unfold maxverts_of; destruct (Nat.eqb_spec (ncross d) 1); lia).
  assert (LL : ncomps d <= maxverts_of (ncross d) / 2 + 2).
  { apply Nat.le_trans with (ncross d / 2 + 2); [|apply Nat.add_le_mono_r, Nat.div_le_mono; lia]. apply Nat.le_trans with ((2 * ncomps d) / 2); [rewrite Nat.mul_comm, Nat.div_mul; lia|].
    apply Nat.le_trans with ((ncross d + 2 * 2) / 2); [apply Nat.div_le_mono; lia|]. rewrite Nat.div_add; lia. }
  destruct (unpack_pack_regular d Hn HE (sp_ends d SD) (signed_here d SG) HB HM LL ltac:(lia) RG) as (words & E & U).
  assert (PO : pack_of d = words) by (unfold pack_of; rewrite E; auto). assert (UO : stored pack_of unpack_of d = mkPd (maxverts_of (ncross d)) 0 (p_hash d) (p_edge d) (p_cross d) (p_comp d) (p_face d)) by (unfold stored, unpack_of; rewrite PO, U; auto).
  rewrite UO, PO. split; auto. split; auto. split; [repeat split|].
  destruct (unpack_is d Hn HE (sp_ends d SD) true (signed_here d SG) HB) as (words' & E' & U'). rewrite E in E'. injection E' as <-. rewrite (decoded_signed d (signed_here d SG)) in U'. rewrite U in U'.
  symmetry in U'. apply bind_ok in U' as (d' & RD & U'). apply bind_ok in U' as (b & OK & U'). destruct b; [|discriminate]. injection U' as ->.
  split; [|split; auto].
  eapply regenerate_tidy; [| | | | |exact RD]; auto.
  - exact (sp_ends d SD).
  - destruct (nth_error (p_cross d) 0) as [c0|] eqn:C0; [|apply nth_error_None in C0; unfold ncross in Hn; lia]. exists 0, (csign c0). split; [exists c0; auto|]. eapply SG, nth_error_In; eauto.
Qed.

Lemma encoded_some : forall a b c X Y, firstn 31 (base64encode (firstn 24 (map uchar ([a; b; c] ++ X) ++ Y))) <> [].
Proof. intros a b c X Y. generalize 21 as k, 30 as m. intros k m. cbn [app map]. generalize (uchar a) as x, (uchar b) as y, (uchar c) as z, (map uchar X ++ Y) as l. intros x y z l. discriminate. Qed.
Lemma hash_some : forall d, valid d -> p_hash d <> [].
Proof.
  intros d (TD & CD & _). pose proof (td_hash d TD) as H. unfold pd_regenerate_hash in H. apply bind_ok in H as (data & HD & H). apply ok_inj in H. apply (f_equal p_hash) in H. change (firstn 31 (base64encode data) = p_hash d) in H. rewrite <- H.
  unfold hash_data in HD. apply bind_ok in HD as (ifs & _ & HD). destruct (map (map fst) (p_face d)) as [|f0 rest]; [discriminate|]. destruct (existsb _ _); [discriminate|]. apply ok_inj in HD.
  rewrite <- HD. apply encoded_some.
Qed.
Lemma iso_answer : forall a b, valid a -> countable a -> valid b -> pd_isomorphic a b = Ok (iso_of a b) /\ (iso_of a b = true <-> equivalent a b).
Proof.
  intros a b VA CA VB. destruct (isomorphic_decides a b VA VB CA) as (r & E & H). unfold iso_of. rewrite E. auto.
Qed.
Lemma room_refl : forall d, same_but_room d d.
Proof. intros d. repeat split. Qed.
Lemma room_sym : forall a b, same_but_room a b -> same_but_room b a.
Proof. intros a b (H1 & H2 & H3 & H4 & H5). repeat split; auto. Qed.
Lemma countable_stored : forall d, fileable d -> countable (stored pack_of unpack_of d).
Proof.
  intros d F. destruct (stored_diagram d F) as (_ & _ & (_ & _ & _ & E & _) & _). destruct F as (_ & C & _). unfold countable, turns, ncomps in *. rewrite <- E. auto.
Qed.

(** the calls made while diagrams are added *)
Theorem filing_succeeds : forall a b, fileable a -> fileable b ->
  pd_pack a = Ok (pack_of a) /\ pd_unpack (pack_of a) = Ok (stored pack_of unpack_of a) /\ same_but_room a (stored pack_of unpack_of a) /\
  pd_isomorphic (stored pack_of unpack_of a) b = Ok (iso_of (stored pack_of unpack_of a) b) /\
  (iso_of (stored pack_of unpack_of a) b = true <-> equivalent a b).
Proof.
  intros a b FA FB. destruct (stored_diagram a FA) as (E1 & E2 & S & V). split; auto. split; auto. split; auto.
  destruct (iso_answer (stored pack_of unpack_of a) b V (countable_stored a FA)) as (E3 & E4); [apply FB|]. split; auto. rewrite E4. split; apply equivalent_congr; auto using room_refl, room_sym.
Qed.

Lemma equivalent_refl : forall a, equivalent a a.
Proof. intros a. do 3 eexists. apply alike_refl. Qed.
Lemma equivalent_sym : forall a b, valid a -> equivalent a b -> equivalent b a.
Proof. intros a b (T & C & _) (kc & ke & s & AL). apply alike_sym in AL; [|apply tidy_sphere; auto]. do 3 eexists. exact AL. Qed.
Lemma equivalent_trans : forall a b c, equivalent a b -> equivalent b c -> equivalent a c.
Proof. intros a b c (kc & ke & s & AL) (kc' & ke' & s' & AL'). do 3 eexists. eapply alike_trans; eauto. Qed.

Notation acc := (accept p_hash pack_of unpack_of iso_of isot_of).
Lemma equivalent_hash : forall r d, fileable r -> fileable d -> equivalent r d -> p_hash r = p_hash d.
Proof.
  intros r d FR FD (kc & ke & s & AL). destruct (alike_sign _ _ _ _ _ AL) as (s' & SO & AL' & _). destruct FR as ((TR & CR & _) & _), FD as ((TD & CD & _) & _).
  destruct (alike_extends r d kc ke s') as (kp & kf & dir & IM & _); auto using tidy_sphere. pose proof (may_match_ok r d kc ke kp kf s' s' dir TR TD CR CD IM) as MM.
  unfold may_match in MM. rewrite !andb_true_iff in MM. destruct MM as ((((((MM & _) & _) & _) & _) & _) & _). apply PermProofs.list_eqb_eq in MM. auto.
Qed.
Lemma stands_equivalent : forall r d, fileable r -> fileable d -> stands_for p_hash pack_of unpack_of iso_of isot_of ISOMORPHISM r d = true <-> equivalent r d.
Proof.
  intros r d FR FD. destruct (filing_succeeds r d FR FD) as (_ & _ & _ & _ & H). unfold stands_for. rewrite andb_true_iff. cbn [same]. rewrite H. split; [tauto|]. intros E. split; auto.
  pose proof (equivalent_hash r d FR FD E) as X.
  unfold keyb. rewrite X. destruct (list_eq_dec Nat.eq_dec (p_hash d) (p_hash d)); congruence.
Qed.
Lemma accepted_classes : forall h reps, Forall fileable h -> Forall fileable reps -> ForallOrdPairs (fun a b => ~ equivalent a b) reps ->
  let out := fold_left acc (map (fun d => (d, ISOMORPHISM)) h) reps in
  Forall fileable out /\ ForallOrdPairs (fun a b => ~ equivalent a b) out /\ (forall d, In d h \/ In d reps -> exists r, In r out /\ equivalent r d) /\ (forall r, In r out -> In r h \/ In r reps).
Proof.
  induction h as [|d h IH]; intros reps FH FR NP; cbn [map fold_left].
  - split; auto. split; auto. split; auto. intros d [[]|I]. exists d. split; auto. apply equivalent_refl.
  - inversion FH as [|? ? FD FH']; subst. set (reps' := acc reps (d, ISOMORPHISM)).
    assert (K : Forall fileable reps' /\ ForallOrdPairs (fun a b => ~ equivalent a b) reps' /\ (exists r, In r reps' /\ equivalent r d) /\ (forall r, In r reps -> In r reps') /\ forall r, In r reps' -> r = d \/ In r reps).
    { unfold reps', accept. cbn [fst snd]. rewrite Forall_forall in FR. destruct (existsb _ reps) eqn:E.
      - apply existsb_exists in E as (r & I & E). apply stands_equivalent in E; auto. split; [apply Forall_forall; auto|]. split; auto. split; [eauto|]. auto.
      - split; [apply Forall_app; split; [apply Forall_forall; auto|auto]|]. split; [|split; [|split]].
        + assert (N : forall r, In r reps -> ~ equivalent r d).
          { intros r I X. apply stands_equivalent in X; auto. rewrite <- not_true_iff_false in E. apply E. apply existsb_exists. eauto. }
          clear - NP N. induction NP; cbn [app]; [repeat constructor|]. constructor; [apply Forall_app; split; auto; constructor; auto; apply N; cbn; auto|]. apply IHNP. intros. apply N. cbn; auto.
        + exists d. split; [apply in_or_app; cbn; auto|apply equivalent_refl].
        + intros r I. apply in_or_app; auto.
        + intros r I. apply in_app_or in I as [I|[I|[]]]; auto. }
    destruct K as (K1 & K2 & (r0 & K3 & K4) & K5 & K6). destruct (IH reps' FH' K1 K2) as (L1 & L2 & L3 & L4). split; auto. split; auto. split.
    + intros x [[<-|I]|I]; [|apply L3; auto|apply L3; auto]. destruct (L3 r0) as (r & I & Q); auto. exists r. split; auto. eapply equivalent_trans; eauto.
    + intros r I. apply L4 in I as [I|I]; [cbn; auto|]. apply K6 in I as [->|I]; cbn; auto.
Qed.

Lemma pairs_perm : forall (R : pd -> pd -> Prop) l l', Permutation l l' -> (forall a b, In a l -> In b l -> R a b -> R b a) -> ForallOrdPairs R l -> ForallOrdPairs R l'.
Proof.
  intros R l l' P. induction P; intros S H; auto.
  - inversion H; subst. constructor; [|apply IHP; auto; intros; apply S; cbn; auto]. eapply Permutation_Forall; eauto.
  - inversion H as [|? ? F1 H1]; subst. inversion H1 as [|? ? F2 H2]; subst. inversion F1; subst. constructor; [constructor; auto|constructor; auto]. apply S; cbn; auto.
  - apply IHP2; [|apply IHP1; auto]. intros a b Ia Ib. apply S; eapply Permutation_in; try (apply Permutation_sym; exact P1); auto.
Qed.

(** * Theorem *)

(** Adding any diagrams succeeds.  Visiting the store then returns, up to number and room, diagrams that were added; no two of
    them are equivalent, and each diagram that was added is equivalent to one of them.  Two additions report the same number
    under the same hash exactly when the diagrams are equivalent. *)
Theorem store_one_per_class : forall h, Forall fileable h -> (Z.of_nat (length h) < 2 ^ 32)%Z ->
  exists s us s' vs, add_diagrams h = Ok (s, us) /\ visit_diagrams (length h) s = Ok (s', vs) /\ pd_stor_nelts s = Z.of_nat (length vs) /\
    (forall v, In v (map snd vs) -> exists d, In d h /\ same_but_room d v) /\
    ForallOrdPairs (fun a b => ~ equivalent a b) (map snd vs) /\
    (forall d, In d h -> exists v, In v (map snd vs) /\ equivalent v d) /\
    (forall i j a b u w, nth_error h i = Some a -> nth_error h j = Some b -> nth_error us i = Some u -> nth_error us j = Some w ->
      (p_hash a = p_hash b /\ u = w <-> equivalent a b)).
Proof.
  intros h FH LH. destruct (accepted_classes h [] FH (Forall_nil _) (FOP_nil _)) as (K1 & K2 & K3 & K4). set (reps := fold_left acc (map (fun d => (d, ISOMORPHISM)) h) []) in *.
  destruct (pdstor_contents p_hash pack_of unpack_of iso_of isot_of (map (fun d => (d, ISOMORPHISM)) h)) as (s & us & ks & E1 & _ & _ & (s' & vs & E2 & _ & P & _) & E3 & _ & _ & UID).
  - apply Forall_forall. intros x I. apply in_map_iff in I as (d & <- & I). cbn. apply hash_some. rewrite Forall_forall in FH. apply (FH d I).
  - rewrite map_length. auto.
  - rewrite map_length in E2. change (PdStoreSpec.accepted p_hash pack_of unpack_of iso_of isot_of (map (fun d => (d, ISOMORPHISM)) h)) with reps in *.
    exists s, us, s', vs. split; [exact E1|]. split; [exact E2|]. split; [rewrite E3; apply Permutation_length in P; rewrite !map_length in P; congruence|].
    rewrite Forall_forall in K1. split; [|split; [|split]].
    + intros v I. apply (Permutation_in _ P) in I. apply in_map_iff in I as (r & <- & I). exists r. split; [destruct (K4 r I) as [|[]]; auto|]. apply (stored_diagram r (K1 r I)).
    + eapply pairs_perm; [apply Permutation_sym; exact P| |].
      * intros a b Ia Ib N X. apply N. apply in_map_iff in Ib as (r & <- & Ib). apply equivalent_sym; auto. apply (stored_diagram r (K1 r Ib)).
      * clear - K1 K2. induction K2 as [|r l F K IH]; cbn; [constructor|]. constructor; [|apply IH; intros; apply K1; cbn; auto].
        rewrite Forall_forall in *. intros v I. apply in_map_iff in I as (r' & <- & I). intros X. apply (F r' I). eapply equivalent_congr; [| |exact X]; apply room_sym; apply stored_diagram; apply K1; cbn; auto.
    + intros d I. destruct (K3 d (or_introl I)) as (r & Ir & Q). exists (stored pack_of unpack_of r). split; [apply (Permutation_in _ (Permutation_sym P)); apply in_map; auto|].
      eapply equivalent_congr; [|apply room_refl|exact Q]. apply (stored_diagram r (K1 r Ir)).
    + intros i j a b u w Ha Hb Hu Hw. rewrite Forall_forall in FH. pose proof (FH a (nth_error_In _ _ Ha)) as FA. pose proof (FH b (nth_error_In _ _ Hb)) as FB.
      assert (REP : forall i d u, nth_error h i = Some d -> nth_error us i = Some u -> exists r, 1 <= u /\ nth_error (under p_hash (p_hash d) reps) (u - 1) = Some r /\ equivalent r d).
      { intros k d v Hd Hv. pose proof (FH d (nth_error_In _ _ Hd)) as FD. destruct (UID k v d ISOMORPHISM) as (r & H1 & H2 & H3); auto; [rewrite (map_nth_error (fun d => (d, ISOMORPHISM)) _ _ Hd); auto|].
        exists r. split; auto. split; auto. destruct H3 as [->|H3]; [apply equivalent_refl|]. apply stands_equivalent in H3; auto. apply K1. apply nth_error_In in H2. apply filter_In in H2. apply H2. }
      destruct (REP i a u Ha Hu) as (r & U1 & U2 & U3). destruct (REP j b w Hb Hw) as (q & W1 & W2 & W3). split.
      * intros (EH & <-). rewrite EH, W2 in U2. injection U2 as ->. eapply equivalent_trans; [|exact W3]. apply equivalent_sym; auto. apply K1. apply nth_error_In in W2. apply filter_In in W2. apply W2.
      * intros Q. pose proof (equivalent_hash a b FA FB Q) as EH. split; auto. rewrite <- EH in W2.
        assert (Iq : fileable q) by (apply K1; apply nth_error_In in W2; apply filter_In in W2; apply W2). assert (Ir : fileable r) by (apply K1; apply nth_error_In in U2; apply filter_In in U2; apply U2).
        assert (RQ : equivalent r q). { eapply equivalent_trans; [exact U3|]. eapply equivalent_trans; [exact Q|]. apply equivalent_sym; auto. apply Iq. }
        assert (QR : equivalent q r) by (apply equivalent_sym; auto; apply Ir).
        assert (FP : ForallOrdPairs (fun a b => ~ equivalent a b) (under p_hash (p_hash a) reps)).
        { clear - K2. unfold under. induction K2 as [|x l F K IH]; cbn; [constructor|]. destruct (keyb (p_hash x) (p_hash a)); auto. constructor; auto. rewrite Forall_forall in *. intros y I. apply filter_In in I. apply F, I. }
        assert (POS : forall l n m x y, ForallOrdPairs (fun a b => ~ equivalent a b) l -> nth_error l n = Some x -> nth_error l m = Some y -> n < m -> ~ equivalent x y).
        { clear. intros l n m x y F. revert n m. induction F as [|z l G F IH]; intros n m Hn Hm L; [destruct n; discriminate|]. destruct n as [|n], m as [|m]; try lia; cbn in *.
          - injection Hn as <-. rewrite Forall_forall in G. apply G. eapply nth_error_In; eauto.
          - eapply IH; eauto. lia. }
        destruct (lt_eq_lt_dec (u - 1) (w - 1)) as [[L|L]|L]; [|lia|]; exfalso; [apply (POS _ _ _ _ _ FP U2 W2 L RQ)|apply (POS _ _ _ _ _ FP W2 U2 L QR)].
Qed.
(** ** Satisfiability *)
Example fileable_example : exists d, fileable d /\ ncross d = 3.
Proof.
  destruct Thm_Ops.tidy_example as (d & E & TD & _). exists d. assert (E2 : pd_regenerate d = Ok d) by (vm_compute in E; injection E as <-; vm_compute; reflexivity).
  vm_compute in E. injection E as <-. split; [|reflexivity]. split; [|split; [split; [cbn; lia|reflexivity]|split; [exact E2|split; [|reflexivity]]]].
  - split; auto. split; [|reflexivity]. apply joined_connected. intros c Hc. destruct c as [|[|[|c]]]; [auto| | |cbn in Hc; lia]; right.
    + exists 0, 0, 0. split; (split; [lia|eexists; split; reflexivity]).
    + exists 2, 1, 2. split; (split; [lia|eexists; split; reflexivity]).
  - intros x Hx. cbn in Hx. repeat (destruct Hx as [<-|Hx]; [discriminate|]). destruct Hx.
Qed.
Print Assumptions filing_succeeds.
Print Assumptions store_one_per_class.
