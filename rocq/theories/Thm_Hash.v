(** C20, C21: the hash of a diagram. *)
From Coq Require Import String Ascii.
From Coq Require Import List ZArith Lia Bool Arith Permutation Sorted.
From Verif Require Import Base Base64 Iterators ListAux Pd PdSpec PdProofs Relabel RelabelProofs
  Strands PdHash HashSpec HashProofs HashIso Base64Proofs PdExamples Thm_Pd Thm_Faces.
Import ListNotations.
Open Scope nat_scope.

(** ** C20 *)

(** Diagrams with the same number of crossings whose faces agree up to renumbering edges and
    faces and up to a change of direction, and whose components have the same lengths, get the
    same hash. *)
Theorem hash_invariant : forall d d' pi phi,
  faced d -> faced d' -> faces_sorted d -> faces_sorted d' -> comps_sorted d -> comps_sorted d' ->
  ncross d' = ncross d -> same_faces d d' pi phi -> same_lengths d d' ->
  exists h, pd_regenerate_hash d = Ok (with_hash d h) /\ pd_regenerate_hash d' = Ok (with_hash d' h).
Proof.
  intros d d' pi phi F F' S S' C C' N SF SL. pose proof (vector_same d d' pi phi F F' S S' C C' N SF SL) as E.
  rewrite (hash_data_ok d) in E by auto. eexists. unfold pd_regenerate_hash. rewrite E, hash_data_ok by auto. cbn [bind]. auto.
Qed.

(** In particular for two diagrams accepted by pd_ok, with all their faces and with their
    components in order, that differ by a renumbering of crossings, edges and places. *)
Theorem hash_relabelled : forall d d' sigma rho pi, 0 < ncross d -> two_ended d ->
  pd_ok d = Ok true -> pd_ok d' = Ok true ->
  face_partition d (p_face d) -> face_partition d' (p_face d') -> numbered_along d -> numbered_along d' ->
  relabelled d d' sigma rho pi ->
  exists h, pd_regenerate_hash d = Ok (with_hash d h) /\ pd_regenerate_hash d' = Ok (with_hash d' h).
Proof.
  intros d d' sigma rho pi Hn T O O' F F' N N' R.
  pose proof (rl_ncross _ _ _ _ _ R) as Nc.
  destruct (pd_ok_incidence d O Hn) as (_ & _ & E & G & _).
  destruct (pd_ok_incidence d' O') as (_ & _ & E' & G' & _); [lia|].
  assert (FS : forall d, 0 < ncross d -> ends_recorded d -> pd_ok d = Ok true -> faces_sorted d).
  { intros x Hx Ex Ox. unfold pd_ok in Ox. rewrite !and_ok_true in Ox. apply (faces_ok_spec x Hx Ex). tauto. }
  destruct (relabelled_faces d d' sigma rho pi R E T F F') as (phi & SF).
  apply (hash_invariant d d' pi phi); auto.
  - apply partition_faced; auto. apply E.
  - apply partition_faced; auto; [lia|apply E'].
  - apply FS; auto. lia.
  - apply N.
  - apply N'.
  - unfold same_lengths. rewrite <- !(map_map cp_edge (@length nat)).
    eapply relabelled_strands; eauto; apply numbered_strands; auto.
Qed.

(** The hash does not look at signs, tags, or the old hash and uid. *)
Theorem hash_ignores : forall d d', p_edge d = p_edge d' -> ncross d = ncross d' ->
  face_edges d = face_edges d' -> map cp_edge (p_comp d) = map cp_edge (p_comp d') ->
  hash_data d = hash_data d'.
Proof.
  intros d d' E N F C. unfold hash_data. fold (face_edges d) (face_edges d'). rewrite F, N. unfold nedges. rewrite E.
  assert (Nf : nfaces d = nfaces d').
  { unfold nfaces. rewrite <- (map_length (map fst) (p_face d)), <- (map_length (map fst) (p_face d')). f_equal. exact F. }
  assert (Nc : ncomps d = ncomps d').
  { unfold ncomps. rewrite <- (map_length cp_edge (p_comp d)), <- (map_length cp_edge (p_comp d')). f_equal. exact C. }
  rewrite <- !(map_map cp_edge (@length nat)), C, Nf, Nc. reflexivity.
Qed.

(** ** C21 *)

(** The text of a byte string whose length is a multiple of three (it is always 24) is its base-64
    form: every three bytes become four characters of the alphabet that stand for the same number. *)
Theorem base64_correct : forall data n, length data = 3 * n -> Forall byte data ->
  base64_text data (base64encode data).
Proof. exact encode_ok. Qed.
Theorem base64_length : forall data n, length data = 3 * n -> Forall byte data ->
  3 * length (base64encode data) = 4 * length data.
Proof. intros data n L F. apply text_length. eapply base64_correct; eauto. Qed.
(** Different byte strings get different texts. *)
Theorem base64_injective : forall a b n m, length a = 3 * n -> length b = 3 * m -> Forall byte a -> Forall byte b ->
  base64encode a = base64encode b -> a = b.
Proof.
  intros a b n m La Lb Fa Fb E. pose proof (base64_correct a n La Fa) as Ha.
  pose proof (base64_correct b m Lb Fb) as Hb. rewrite E in Ha. symmetry. eapply text_inj; eauto.
Qed.

(** The stored hash is 31 characters long, ... *)
Theorem hash_text : forall d d', pd_regenerate_hash d = Ok d' ->
  d' = with_hash d (p_hash d') /\ length (p_hash d') = 31 /\ Forall base64_char (p_hash d').
Proof.
  intros d d' H. unfold pd_regenerate_hash in H. destruct (hash_data d) as [data| | |] eqn:E; try discriminate.
  cbn [bind] in H. apply ok_inj in H. subst d'. split; [reflexivity|]. cbn [p_hash with_hash].
  destruct (hash_data_bytes d data E) as (L & F). pose proof (encode_ok data 8 L F) as T. split.
  - rewrite firstn_length, (encode_length 8) by auto. reflexivity.
  - apply Forall_forall. intros c Hc. apply in_firstn in Hc. apply text_chars in T. rewrite Forall_forall in T. auto.
Qed.
(** ... one less than the text of the 24 bytes needs: the last six bits of the last byte are lost. *)
Theorem hash_text_cut : forall a b, length a = 24 -> length b = 24 -> Forall byte a -> Forall byte b ->
  firstn 31 (base64encode a) = firstn 31 (base64encode b) <->
  firstn 23 a = firstn 23 b /\ (nth 23 a 0 / 64 = nth 23 b 0 / 64)%Z.
Proof. exact cut_text. Qed.
Theorem hash_text_injective_refuted :
  let a := repeat 0%Z 23 ++ [1%Z] in let b := repeat 0%Z 23 ++ [63%Z] in
  Forall byte a /\ Forall byte b /\ a <> b /\ base64encode a <> base64encode b /\
  firstn 31 (base64encode a) = firstn 31 (base64encode b).
Proof.
  cbv zeta. split; [|split; [|split; [discriminate|split; [vm_compute; discriminate|reflexivity]]]];
    apply Forall_app; split; try (apply Forall_forall; intros x Hx; apply repeat_spec in Hx; subst);
    try (constructor; [|constructor]); unfold byte; lia.
Qed.

(** ** Satisfiability *)

(** the automorphism of the trefoil that moves every edge on by two *)
Definition turn6 (e : nat) : nat := (e + 2) mod 6.
Definition turn5 (f : nat) : nat := nth f [0; 1; 4; 2; 3] 0.
Example trefoil_hash_hyps : faced trefoil /\ faces_sorted trefoil /\ comps_sorted trefoil /\
  same_faces trefoil trefoil turn6 turn5 /\ same_lengths trefoil trefoil.
Proof.
  split; [|split; [|split; [|split]]].
  - split; [discriminate|]. split; [cbn; intuition discriminate|].
    intros e. do 6 (destruct e as [|e]; [reflexivity|]).
    change (nedges trefoil) with 6. rewrite (proj2 (Nat.ltb_ge _ _)) by lia.
    apply count_occ_not_In. intros H. cbn in H. lia.
  - apply (faces_ok_spec trefoil); [cbn; lia| |reflexivity]. apply (edges_ok_spec trefoil); [cbn; lia|reflexivity].
  - repeat constructor.
  - constructor; try reflexivity.
    + split; intros i; [|intros j]; change (nedges trefoil) with 6; unfold turn6;
        intros; [apply Nat.mod_upper_bound; lia|].
      do 6 (destruct i as [|i]; [do 6 (destruct j as [|j]; [cbn in *; lia|]); lia|]); lia.
    + split; intros i; [|intros j]; change (nfaces trefoil) with 5; unfold turn5; intros.
      * do 5 (destruct i as [|i]; [cbn; lia|]). lia.
      * do 5 (destruct i as [|i]; [do 5 (destruct j as [|j]; [cbn in *; lia|]); lia|]); lia.
    + intros i f H. destruct i as [|[|[|[|[|i]]]]]; try (injection H as <-; eexists; split; [reflexivity|]; left).
      * exists [2], [0; 4]. auto.
      * exists [3; 5], [1]. auto.
      * exists [], [2; 5]. auto.
      * exists [3], [0]. auto.
      * exists [4], [1]. auto.
      * destruct i; discriminate.
  - apply Permutation_refl.
Qed.
(** the hash of the trefoil, as in data/pdstors/3.pdstor *)
Example trefoil_hash : pd_regenerate_hash trefoil =
  Ok (with_hash trefoil (map nat_of_ascii (list_ascii_of_string "AwYFAwMCAgIBBgAG7wAAAAAAAAAAAAA"))).
Proof. vm_compute. reflexivity. Qed.
Example trefoil_partition : face_partition trefoil (p_face trefoil) /\ numbered_along trefoil.
Proof.
  split.
  - destruct (regenerate_faces_correct (with_faces trefoil [])) as [H|(d' & H & _ & P & _)]; try reflexivity.
    + cbn; lia.
    + intros e E. apply two_ended_trefoil.
    + vm_compute in H. discriminate.
    + assert (d' = trefoil) by (apply ok_inj; rewrite <- H; vm_compute; reflexivity). subst. exact P.
  - split; [reflexivity|]. split; [|repeat constructor]. intros c [<-|[]]. split; [discriminate|].
    intros i a b Ha Hb.
    do 6 (destruct i as [|i]; [injection Ha as <-; injection Hb as <-; do 2 eexists; repeat split; reflexivity|]).
    destruct i; discriminate.
Qed.
Print Assumptions hash_invariant.
Print Assumptions hash_relabelled.
Print Assumptions hash_ignores.
Print Assumptions base64_correct.
Print Assumptions base64_length.
Print Assumptions base64_injective.
Print Assumptions hash_text.
Print Assumptions hash_text_cut.
Print Assumptions hash_text_injective_refuted.
