(** Regeneration of components and faces does not look at the rest of the record. *)
From Coq Require Import List ZArith Lia Bool Arith Permutation Sorted.
From Verif Require Import Base Iterators Sorting Pd PdProofs PdCross PdEdges PdComps PdFaces RegenProofs.
Import ListNotations.
Open Scope nat_scope.

Section Rest.
Context (u : nat) (h : list nat) (cs : list component) (fs : list face).
Definition rest (d : pd) : pd := mkPd (p_maxv d) u h (p_edge d) (p_cross d) cs fs.
Definition on_fst {A} (r : res (pd * A)) : res (pd * A) := bind r (fun p => Ok (rest (fst p), snd p)).

Lemma comp_loop_rest : forall f d s nxt cnt, comp_loop f (rest d) s nxt cnt = on_fst (comp_loop f d s nxt cnt).
Proof.
  induction f as [|f IH]; intros d s nxt cnt; cbn [comp_loop]; auto.
  change (MAXEDGES (rest d)) with (MAXEDGES d). destruct (_ || _); auto.
  change (p_edge (rest d)) with (p_edge d). destruct (get (p_edge d) (fst nxt)) as [E| | |]; auto. cbn [bind].
  destruct (pd_oriented_edge E (snd nxt)) as [E'| | |]; auto. cbn [bind].
  change (nedges (rest d)) with (nedges d). destruct (nedges d <=? cnt); auto.
  change (with_edges (rest d) (upd (fst nxt) E' (p_edge d))) with (rest (with_edges d (upd (fst nxt) E' (p_edge d)))).
  change (next_comp_edge (rest (with_edges d (upd (fst nxt) E' (p_edge d)))) (fst nxt))
    with (next_comp_edge (with_edges d (upd (fst nxt) E' (p_edge d))) (fst nxt)).
  destruct (next_comp_edge _ (fst nxt)) as [nx| | |]; auto. cbn [bind]. rewrite IH.
  destruct (comp_loop f _ s nx (S cnt)) as [(x, l)| | |]; auto.
Qed.
Lemma comps_loop_rest : forall f d e cc, comps_loop f (rest d) e cc = on_fst (comps_loop f d e cc).
Proof.
  induction f as [|f IH]; intros d e cc; cbn [comps_loop]; auto.
  change (nedges (rest d)) with (nedges d). destruct (nedges d <=? e); auto.
  change (next_comp_edge (rest d) e) with (next_comp_edge d e).
  destruct (next_comp_edge d e) as [nx| | |]; auto. cbn [bind]. rewrite comp_loop_rest.
  destruct (comp_loop _ d e nx 1) as [(x, l)| | |]; auto. cbn [on_fst bind fst snd].
  change (MAXCOMPONENTS (rest d)) with (MAXCOMPONENTS d).
  destruct (_ <? _); auto. destruct (_ =? _); auto.
  change (find_unassigned_edge (rest x) (concat (cc ++ [e :: l]))) with (find_unassigned_edge x (concat (cc ++ [e :: l]))).
  destruct (find_unassigned_edge _ _); auto.
Qed.
Lemma crossings_rest : forall d, pd_regenerate_crossings (rest d) =
  bind (pd_regenerate_crossings d) (fun x => Ok (mkPd (p_maxv x) u h (p_edge x) (p_cross x) cs fs)).
Proof.
  intros d. unfold pd_regenerate_crossings. cbn [rest p_cross p_edge]. unfold ncross. cbn [rest p_cross].
  destruct (Perm.scatter _ _ _); auto. cbn [bind]. destruct (map_ok _ _); auto.
Qed.
End Rest.

Lemma regenerate_comps_rest : forall u h cs fs d x, pd_regenerate_comps d = Ok x ->
  pd_regenerate_comps (rest u h cs fs d) = Ok (mkPd (p_maxv x) u h (p_edge x) (p_cross x) (p_comp x) fs).
Proof.
  intros u h cs fs d x. unfold pd_regenerate_comps. change (ncross (rest u h cs fs d)) with (ncross d).
  change (p_maxv (rest u h cs fs d)) with (p_maxv d). destruct (_ <=? _); [|discriminate].
  change (pd_cross_ok (rest u h cs fs d)) with (pd_cross_ok d). destruct (pd_cross_ok d) as [[]| | |]; try discriminate.
  cbn [bind]. change (pd_edges_ok (rest u h cs fs d)) with (pd_edges_ok d). destruct (pd_edges_ok d) as [[]| | |]; try discriminate.
  cbn [bind]. change (nedges (rest u h cs fs d)) with (nedges d). rewrite comps_loop_rest.
  destruct (comps_loop _ d 0 []) as [(y, L)| | |]; try discriminate. cbn [on_fst bind fst snd].
  change (nedges (rest u h cs fs y)) with (nedges y). destruct (Perm.scatter _ _ _) as [num| | |]; try discriminate. cbn [bind].
  change (p_edge (rest u h cs fs y)) with (p_edge y). destruct (map_ok _ _) as [es| | |]; try discriminate. cbn [bind].
  change (p_cross (rest u h cs fs y)) with (p_cross y). destruct (map_ok _ _) as [xs| | |]; try discriminate. cbn [bind].
  set (cc := renumbered 0 0 _). intros H.
  change (with_comps (with_cross (with_edges (rest u h cs fs y) es) xs) cc)
    with (rest u h cc fs (with_comps (with_cross (with_edges y es) xs) cc)).
  rewrite crossings_rest, H. cbn [bind]. f_equal.
  unfold pd_regenerate_crossings in H. destruct (Perm.scatter _ _ _); try discriminate. cbn [bind] in H.
  destruct (map_ok _ _); try discriminate. cbn [bind] in H. apply ok_inj in H. subst x. reflexivity.
Qed.

(** ** Faces, with another capacity *)
Definition same_tables (d d' : pd) : Prop := p_edge d = p_edge d' /\ p_cross d = p_cross d'.
Lemma next_edge_tables : forall d d', same_tables d d' -> next_edge_on_face d = next_edge_on_face d'.
Proof. intros d d' (E & C). unfold next_edge_on_face, nedges. rewrite E, C. reflexivity. Qed.
Lemma walk_tables : forall d d', same_tables d d' -> forall n s c, walk_face d s n c = walk_face d' s n c.
Proof.
  intros d d' H. induction n as [|n IH]; intros s c; cbn [walk_face]; auto. rewrite (next_edge_tables d d' H).
  destruct (next_edge_on_face d' c); auto. cbn [bind]. rewrite IH. auto.
Qed.
Lemma faces_loop_more : forall d n s done fs, faces_loop d n s done = Ok fs -> length done < length fs.
Proof.
  intros d. induction n as [|n IH]; intros s done fs H; cbn [faces_loop] in H; [discriminate|].
  destruct (walk_face d s (nedges d) s); try discriminate. cbn [bind] in H.
  destruct (_ <=? _); [discriminate|].
  destruct (next_unassigned _ _ _).
  - apply IH in H. rewrite app_length in H. cbn in H. lia.
  - apply ok_inj in H. subst. rewrite app_length. cbn. lia.
Qed.
Lemma faces_loop_room : forall d d' fs, same_tables d d' -> length fs <= MAXFACES d' ->
  forall n n' s done, faces_loop d n s done = Ok fs -> length fs <= length done + n' -> faces_loop d' n' s done = Ok fs.
Proof.
  intros d d' fs H M. pose proof H as (E & C).
  induction n as [|n IH]; intros n' s done Q L; [discriminate|]. pose proof (faces_loop_more d _ _ _ _ Q) as K.
  destruct n' as [|n']; [lia|]. cbn [faces_loop] in *. rewrite <- (walk_tables d d' H).
  assert (N : nedges d' = nedges d) by (unfold nedges; rewrite E; auto). rewrite N.
  destruct (walk_face d s (nedges d) s); try discriminate. cbn [bind] in *.
  destruct (_ <=? _); [discriminate|]. rewrite (proj2 (Nat.leb_gt (MAXFACES d') (length done))) by lia.
  assert (NU : forall a b, next_unassigned d' a b = next_unassigned d a b).
  { intros. unfold next_unassigned, later_pairs. rewrite N. auto. }
  rewrite NU. destruct (next_unassigned d _ s).
  - eapply IH; eauto. rewrite app_length. cbn. lia.
  - auto.
Qed.
Lemma regenerate_faces_room : forall d d' fs, same_tables d d' -> length fs <= MAXFACES d' ->
  pd_regenerate_faces d = Ok (with_faces d fs) -> pd_regenerate_faces d' = Ok (with_faces d' fs).
Proof.
  intros d d' fs H M. pose proof H as (E & C). unfold pd_regenerate_faces.
  assert (N : nedges d' = nedges d) by (unfold nedges; rewrite E; auto).
  assert (Nc : ncross d' = ncross d) by (unfold ncross; rewrite C; auto). rewrite N, Nc.
  destruct (0 <? ncross d); [|discriminate]. destruct (1 <? nedges d); [|discriminate].
  destruct (faces_loop d _ _ _) as [gs| | |] eqn:G; try discriminate. cbn [bind].
  destruct (Nat.eqb_spec (length (isort (fun a b => not_gt (pd_face_cmp a b)) (map canonorder_face gs))) (ncross d + 2)) as [Q|]; [|discriminate].
  intros K. apply ok_inj in K. assert (K2 := f_equal p_face K). cbn [with_faces p_face] in K2.
  assert (Lg : length gs = length fs).
  { rewrite <- K2, isort_length, map_length. auto. }
  rewrite (faces_loop_room d d' gs H ltac:(lia) _ (MAXFACES d' + 2) _ _ G) by (cbn; lia). cbn [bind].
  rewrite Q, Nat.eqb_refl, K2. auto.
Qed.
