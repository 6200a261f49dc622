(** The diagram found in a KnotTheory code is regenerated to the diagram that was written. *)
From Coq Require Import List NArith ZArith Lia Bool Arith.
From Verif Require Import Base ListAux Iterators Sorting Perm Pd PdSpec PdProofs PdCross PdCrossProofs Relabel RelabelProofs Strands SlotCount PdEdges PdComps PdCompsProofs PdFaces PdHash PdRegen
  RegenSpec RegenProofs RestProofs Carry OverUnder OverUnderSpec OverUnderProofs Thm_OverUnder Thm_Comps Thm_Faces Thm_Regen DeloopProofs PdOps Build KTheory KTheoryText KTheoryProofs.
Import ListNotations.
Open Scope nat_scope.
Open Scope res_scope.

(** *** the tables of a tidy diagram in a record with enough room *)
Section Room.
Context (d : pd) (TD : tidy d) (m u : nat) (h0 : list nat) (cs0 : list component) (fs0 : list face).
Context (Sg : signed d) (Hm : ncross d <= m) (LL : ncomps d <= m / 2 + 2).
Let d0 := mkPd m u h0 (p_edge d) (p_cross d) cs0 fs0.
Let d1 := mkPd m u (p_hash d) (p_edge d) (p_cross d) (p_comp d) (p_face d).
Lemma tidy_edges : pd_edges_ok d = Ok true.
Proof. destruct TD as [Hn _ [R G T _ _ _ _ _ _ _] _ _]. apply edges_ok_spec; auto. Qed.
Lemma room_crossings : pd_regenerate_crossings d0 = Ok d0.
Proof. destruct TD as [Hn _ [R G T C _ _ _ _ _ _] _ _]. apply regenerate_canonical_fixed; [exact (recorded_in_range d R)|exact C]. Qed.
Lemma room_after : bind (regenerate_edges_if_needed d0) (fun d2 => bind (pd_regenerate_comps d2) (fun d3 => bind (pd_regenerate_faces d3) pd_regenerate_hash)) = Ok d1.
Proof.
  pose proof TD as [Hn _ Rg HF HH]. pose proof tidy_edges as HE. pose proof (rg_recorded d Rg) as R.
  unfold regenerate_edges_if_needed. change (all_signs_unset d0) with (all_signs_unset d). rewrite signed_not_unset by auto.
  change (pd_edges_ok d0) with (pd_edges_ok d). rewrite HE. cbn [bind].
  assert (C1 : pd_regenerate_comps d1 = Ok d1).
  { apply regenerate_comps_fixed; auto; try exact (rg_comps d Rg); try exact (rg_tags d Rg); try exact (rg_cross d Rg).
    apply (consistent_cross_ok d); auto; apply Rg. }
  pose proof (regenerate_comps_rest u h0 cs0 fs0 d1 d1 C1) as C0. change (rest u h0 cs0 fs0 d1) with d0 in C0. rewrite C0. cbn [bind]. clear C0.
  match goal with |- bind (pd_regenerate_faces ?x) _ = _ => set (d2 := x) end.
  rewrite (regenerate_faces_room d d2 (p_face d)).
  - cbn [bind]. unfold pd_regenerate_hash in *. change (hash_data (with_faces d2 (p_face d))) with (hash_data d).
    destruct (hash_data d); try discriminate. cbn [bind] in *. f_equal. apply ok_inj in HH.
    assert (H2 := f_equal p_hash HH). cbn [with_hash p_hash] in H2. unfold d1. rewrite <- H2. reflexivity.
  - split; reflexivity.
  - change (nfaces d <= MAXFACES d1). rewrite (rg_nfaces d Rg). unfold MAXFACES. change (p_maxv d1) with m. lia.
  - rewrite HF. destruct d; reflexivity.
Qed.
Lemma room_regenerate : pd_regenerate d0 = Ok d1.
Proof. unfold pd_regenerate. rewrite room_crossings. exact room_after. Qed.
Lemma room_ok : ncomps d <= 64 -> pd_ok d1 = Ok true.
Proof.
  intros L64. pose proof TD as [Hn _ Rg HF HH]. pose proof tidy_edges as HE.
  destruct (regenerate_signed d0 (map cp_edge (p_comp d))) as (d' & s & r & q & E' & RL & _ & Nc & _ & _ & K); auto.
  - exact (rg_ends d Rg).
  - exact (comps_partition d (rg_comps d Rg)).
  - rewrite map_length. exact LL.
  - exists (p_face d). split; [exact (rg_faces d Rg)|]. split; [exact (rg_nfaces d Rg)|].
    exact (faces_short d Hn HE (rg_ends d Rg) HF).
  - rewrite room_regenerate in E'. apply ok_inj in E'. subst d'. apply K. exact L64.
Qed.
End Room.

(** *** turning the crossings back *)
Lemma rdist_turned : forall x u, starts_at_lowest x -> cedge x 0 <> cedge x 2 -> u < 4 -> cross_rdist (rotate_left x u) = (4 - u) mod 4.
Proof.
  intros x u (H & K) N Hu. unfold cross_rdist. pose proof (H 1 ltac:(lia)). pose proof (H 2 ltac:(lia)). pose proof (H 3 ltac:(lia)). clear H. destruct x as [a b c e s]. cbn [cedge ce0 ce1 ce2 ce3] in *.
  destruct (small4 u Hu) as [->|[->|[->| ->]]]; cbn -[Nat.ltb Nat.eqb];
  repeat (match goal with |- context[?x <? ?y] => is_var x; is_var y; destruct (Nat.ltb_spec x y); try lia end; cbn -[Nat.ltb Nat.eqb]);
  repeat (match goal with |- context[?x =? ?y] => is_var x; is_var y; destruct (Nat.eqb_spec x y); try lia end); reflexivity.
Qed.
Lemma rotate_turned : forall x u, u < 4 -> rotate_left (rotate_left x u) ((4 - u) mod 4) = x.
Proof. intros x u Hu. destruct x. destruct (small4 u Hu) as [->|[->|[->| ->]]]; reflexivity. Qed.
Lemma map_ok_ext : forall {A B C} (f : B -> res C) (g : A -> res C) (h : A -> B) l, (forall x, In x l -> f (h x) = g x) -> map_ok f (map h l) = map_ok g l.
Proof. intros A B C f g h l. induction l as [|x l IH]; intros H; auto. cbn [map map_ok]. rewrite H by (left; auto). rewrite IH by (intros; apply H; right; auto). reflexivity. Qed.

Section Back.
Context (d : pd) (R : ends_recorded d) (G : goes_through d) (T : two_ended d) (NA : numbered_along d) (AS : all_signed d).
Context (L3 : forall C, In C (p_comp d) -> 3 <= length (cp_edge C)).
Context (CC : crossings_canonical d).
Context (m w : nat) (h0 : list nat) (cs0 : list component) (fs0 : list face).
Let d0 := mkPd m w h0 (p_edge d) (p_cross d) cs0 fs0.
Lemma cross_turned_back : forall c, c < ncross d -> cross_rdist (turned_cross d c) = (4 - under_place d c) mod 4 /\ rotate_left (turned_cross d c) (cross_rdist (turned_cross d c)) = nth c (p_cross d) no_cross.
Proof.
  intros c Hc. destruct (nth_error (p_cross d) c) as [x|] eqn:Hx; [|apply nth_error_None in Hx; unfold ncross in Hc; lia].
  destruct (at_crossing d R G T AS c x Hx) as (_ & Lu & _). unfold turned_cross. rewrite (nth_error_nth _ _ no_cross Hx).
  assert (N : cedge x 0 <> cedge x 2).
  { intros Q. destruct (opposite d R G T c 0 x Hx ltac:(lia)) as [(_ & C)|(_ & C)]; change ((0 + 2) mod 4) with 2 in C; rewrite <- Q in C; exact (not_back d R NA L3 _ _ C C). }
  rewrite rdist_turned; auto; [|apply CC; eapply nth_error_In; eauto]. split; auto. apply rotate_turned; auto.
Qed.
Lemma crossings_back : pd_regenerate_crossings (mkPd m w h0 (map (turned_edge d) (p_edge d)) (map (turned_cross d) (seq 0 (ncross d))) cs0 fs0) = Ok d0.
Proof.
  assert (E0 : pd_regenerate_crossings d0 = Ok d0) by (apply regenerate_canonical_fixed; [exact (recorded_in_range d R)|exact CC]).
  rewrite <- E0. match goal with |- pd_regenerate_crossings ?x = _ => assert (NX : ncross x = ncross d) by (unfold ncross at 1; cbn [p_cross]; rewrite map_length, seq_length; auto) end.
  unfold pd_regenerate_crossings. rewrite NX. clear NX. cbn [p_cross p_edge d0]. change (ncross d0) with (ncross d).
  assert (Q : map (fun c => rotate_left c (cross_rdist c)) (map (turned_cross d) (seq 0 (ncross d))) = p_cross d).
  { rewrite map_map. rewrite (map_ext_in _ (fun c => nth c (p_cross d) no_cross)); [apply map_nth_seq|]. intros c Hc. apply in_seq in Hc. apply cross_turned_back. lia. }
  assert (Q0 : map (fun c => rotate_left c (cross_rdist c)) (p_cross d) = p_cross d).
  { rewrite (map_ext_in _ (fun x => x)); [apply map_id|]. intros x Hx. rewrite low_rdist by (apply CC; auto). apply rotate_0. }
  rewrite Q, Q0. destruct (scatter _ 0 (repeat 0 (ncross d))) as [num| | |] eqn:SC; auto. cbn [bind].
  rewrite (map_ok_ext _ (move_edge (map cross_rdist (p_cross d)) num)); [reflexivity|].
  intros E HE. apply In_nth_error in HE as (e & HE). destruct (proj2 R e E HE) as (S1 & S2). apply slot_lt in S1, S2.
  assert (ME : forall c p, c < ncross d -> p < 4 -> move_end (map cross_rdist (map (turned_cross d) (seq 0 (ncross d)))) num c (turned d c p) = move_end (map cross_rdist (p_cross d)) num c p).
  { intros c p Hc Hp. destruct (nth_error (p_cross d) c) as [x|] eqn:Hx; [|apply nth_error_None in Hx; unfold ncross in Hc; lia].
    destruct (at_crossing d R G T AS c x Hx) as (_ & Lu & _). destruct (cross_turned_back c Hc) as (Z & _). unfold move_end.
    rewrite map_map. rewrite (proj2 (get_ok _ (map (fun x0 => cross_rdist (turned_cross d x0)) (seq 0 (ncross d))) c ((4 - under_place d c) mod 4))).
    2:{ rewrite (map_nth_error _ c (seq 0 (ncross d)) (d := c)); [rewrite Z; auto|]. rewrite (nth_error_nth' _ 0) by (rewrite seq_length; auto). rewrite seq_nth; auto. }
    rewrite (proj2 (get_ok _ (map cross_rdist (p_cross d)) c 0)).
    2:{ rewrite (map_nth_error _ c _ Hx), low_rdist; auto. apply CC. eapply nth_error_In; eauto. }
    unfold turned. destruct (Nat.leb_spec 4 p); [lia|]. pose proof (mod4_lt (p + 4 - under_place d c)). destruct (Nat.leb_spec 4 ((p + 4 - under_place d c) mod 4)); [lia|]. cbn [bind].
    destruct (get num c); auto. cbn [bind]. do 2 f_equal. generalize dependent (under_place d c). intros v Lv _ _ _. destruct (small4 v Lv) as [->|[->|[->| ->]]], (small4 p Hp) as [->|[->|[->| ->]]]; reflexivity. }
  unfold move_edge, turned_edge. cbn [e_head e_headpos e_tail e_tailpos]. rewrite !ME by tauto. reflexivity.
Qed.
End Back.

(** *** reading back *)
Section RoundTrip.
Context (d : pd) (TD : tidy d) (AS : all_signed d) (L3 : forall C, In C (p_comp d) -> 3 <= length (cp_edge C)).
Context (NB : (N.of_nat (ncross d) <= 9990)%N) (LL : ncomps d <= (ncross d + 2) / 2 + 2) (L64 : ncomps d <= 64).
Lemma all_signed_signed : signed d.
Proof.
  pose proof (td_some d TD) as Hn. destruct (nth_error (p_cross d) 0) as [c0|] eqn:C0; [|apply nth_error_None in C0; unfold ncross in Hn; lia].
  assert (SA : sign_at d 0 (csign c0)) by (exists c0; auto). exists 0, (csign c0). split; auto. exact (AS _ _ SA).
Qed.
Lemma built : kt_build (codes d) = Ok (Some (mkPd (ncross d + 2) 0 (p_hash d) (p_edge d) (p_cross d) (p_comp d) (p_face d))).
Proof.
  pose proof TD as [Hn _ [R G T CC NA _ _ _ _ _] _ _]. unfold kt_build.
  assert (LC : length (codes d) = ncross d) by (unfold codes; rewrite map_length, seq_length; auto). rewrite LC.
  unfold pd_code_new. destruct (Nat.eqb_spec (ncross d + 2) 0); [lia|]. destruct (Nat.eqb_spec (ncross d + 2) 1); [lia|]. cbn [negb bind].
  unfold MAXEDGES. cbn [p_maxv].
  destruct (sweep_all d R G T NA AS L3 NB (2 * (ncross d + 2) + 1) ltac:(lia)) as (es & E1 & E2). rewrite E1. cbn [bind].
  rewrite (nothing_corrected d R G T NA L3 NB (2 * (ncross d + 2) + 1) ltac:(lia)). cbn [bind fst snd]. rewrite E2.
  unfold with_faces, with_cross, with_edges. cbn [p_maxv p_uid p_hash p_edge p_cross p_comp p_face].
  match goal with |- bind (pd_regenerate ?x) _ = _ => assert (RG : pd_regenerate x = Ok (mkPd (ncross d + 2) 0 (p_hash d) (p_edge d) (p_cross d) (p_comp d) (p_face d))) end.
  { unfold pd_regenerate. rewrite (crossings_back d R G T NA AS L3 CC). exact (room_after d TD (ncross d + 2) 0 [32] [] (repeat [] (ncross d + 2)) all_signed_signed ltac:(lia) LL). }
  rewrite RG. cbn [bind p_cross].
  assert (FS : forallb (fun c => negb (orient_eqb (csign c) Unset)) (p_cross d) = true).
  { apply forallb_forall. intros x Hx. apply In_nth_error in Hx as (c & Hx). assert (SA : sign_at d c (csign x)) by (exists x; auto). apply AS in SA. destruct (csign x); auto. }
  rewrite FS. rewrite (room_ok d TD (ncross d + 2) 0 [32] [] [] all_signed_signed ltac:(lia) LL L64). reflexivity.
Qed.
End RoundTrip.
