From Coq Require Import List ZArith Lia Bool Arith.
From Verif Require Import Base PlcConstraints PlcStrands.
Import ListNotations.
Open Scope Z_scope.

Section P.
Context {V K : Type}.
Notation strand := (strand V K).
Notation plcurve := (plcurve V K).

(** * Specification vocabulary *)

(** vertex [i] of a strand, [-1 <= i <= nv], counting the wrap-around cells *)
Definition vertex (s : strand) (i : Z) : option V :=
  if i + 1 <? 0 then None else nth_error (s_buf s) (Z.to_nat (i + 1)).

Definition strand_wf (s : strand) : Prop :=
  2 <= s_nv s /\ Z.of_nat (length (s_buf s)) = s_nv s + 2.

(** the wrap-around cells are what the documentation says *)
Definition wrapped (s : strand) : Prop :=
  if s_open s
  then vertex s (-1) = vertex s 1 /\ vertex s (s_nv s) = vertex s (s_nv s - 2)
  else 3 <= s_nv s /\ vertex s (-1) = vertex s (s_nv s - 1) /\ vertex s (s_nv s) = vertex s 0.

(** * Proofs *)

Lemma vget_ok : forall (b : list V) i, 0 <= i + 1 < Z.of_nat (length b) ->
  exists v, vget b i = Ok v /\ nth_error b (Z.to_nat (i + 1)) = Some v.
Proof.
  intros b i H. unfold vget. rewrite (proj2 (Z.leb_le _ _)) by lia.
  destruct (nth_error b (Z.to_nat (i + 1))) eqn:E; eauto.
  apply nth_error_None in E. lia.
Qed.

Lemma vset_ok : forall (b : list V) i v, 0 <= i + 1 < Z.of_nat (length b) ->
  vset b i v = Ok (upd (Z.to_nat (i + 1)) v b).
Proof.
  intros b i v H. unfold vset.
  rewrite (proj2 (Z.leb_le _ _)), (proj2 (Z.ltb_lt _ _)) by lia. reflexivity.
Qed.

Lemma fix_strand_ok : forall s, strand_wf s ->
  exists s', fix_strand s = Ok s' /\ strand_wf s' /\ wrapped s' /\ s_nv s' = s_nv s /\
    s_clr s' = s_clr s /\ s_open s' = (s_open s || (s_nv s <? 3)) /\
    (forall i, 0 <= i < s_nv s -> vertex s' i = vertex s i).
Proof.
  intros s [N B]. unfold fix_strand.
  remember (if s_nv s <? 3 then true else s_open s) as op.
  assert (EO : op = s_open s || (s_nv s <? 3)).
  { subst op. destruct (s_nv s <? 3); [rewrite orb_true_r|rewrite orb_false_r]; auto. }
  destruct op.
  - destruct (vget_ok (s_buf s) 1 ltac:(lia)) as (a & A1 & A2). rewrite A1. cbn [bind].
    rewrite vset_ok by lia. cbn [bind].
    change (Z.to_nat (-1 + 1)) with 0%nat.
    destruct (vget_ok (upd 0 a (s_buf s)) (s_nv s - 2)) as (c & C1 & C2).
    { rewrite upd_length. lia. }
    rewrite C1. cbn [bind]. rewrite vset_ok by (rewrite upd_length; lia). cbn [bind].
    eexists. split; [reflexivity|].
    assert (VX : forall i, -1 <= i <= s_nv s ->
      vertex (mkStrand (s_nv s) true (upd (Z.to_nat (s_nv s + 1)) c (upd 0 a (s_buf s))) (s_clr s)) i =
      if i =? -1 then Some a else if i =? s_nv s then Some c else vertex s i).
    { intros i Hi. unfold vertex; cbn [s_buf].
      rewrite (proj2 (Z.ltb_ge (i + 1) 0)) by lia. rewrite !nth_error_upd, upd_length.
      destruct (Nat.eqb (Z.to_nat (s_nv s + 1)) (Z.to_nat (i + 1))) eqn:E1.
      - apply Nat.eqb_eq in E1. rewrite (proj2 (Z.eqb_neq i (-1))), (proj2 (Z.eqb_eq i (s_nv s))) by lia.
        rewrite (proj2 (Nat.ltb_lt _ _)) by lia. reflexivity.
      - apply Nat.eqb_neq in E1. rewrite (proj2 (Z.eqb_neq i (s_nv s))) by lia.
        destruct (i =? -1) eqn:E2.
        + apply Z.eqb_eq in E2. subst i. cbn [Nat.eqb]. rewrite (proj2 (Nat.ltb_lt _ _)) by lia. reflexivity.
        + apply Z.eqb_neq in E2. rewrite (proj2 (Nat.eqb_neq 0 _)) by lia. reflexivity. }
    split; [split; cbn [s_nv s_buf]; [lia|rewrite !upd_length; lia]|].
    split.
    + unfold wrapped. cbn [s_open s_nv]. rewrite !VX by lia.
      rewrite Z.eqb_refl. rewrite (proj2 (Z.eqb_neq (s_nv s) (-1))) by lia. rewrite Z.eqb_refl. split.
      * rewrite (proj2 (Z.eqb_neq 1 (-1))), (proj2 (Z.eqb_neq 1 (s_nv s))) by lia. unfold vertex.
        rewrite (proj2 (Z.ltb_ge _ _)) by lia. auto.
      * rewrite (proj2 (Z.eqb_neq (s_nv s - 2) (-1))), (proj2 (Z.eqb_neq (s_nv s - 2) (s_nv s))) by lia. unfold vertex.
        rewrite (proj2 (Z.ltb_ge _ _)) by lia. rewrite <- C2.
        rewrite nth_error_upd. rewrite (proj2 (Nat.eqb_neq 0 _)) by lia. reflexivity.
    + cbn [s_nv s_clr s_open]. repeat (split; auto).
      intros i Hi. rewrite VX by lia.
      rewrite (proj2 (Z.eqb_neq i (-1))), (proj2 (Z.eqb_neq i (s_nv s))) by lia. reflexivity.
  - destruct (vget_ok (s_buf s) (s_nv s - 1) ltac:(lia)) as (a & A1 & A2). rewrite A1. cbn [bind].
    rewrite vset_ok by lia. cbn [bind].
    change (Z.to_nat (-1 + 1)) with 0%nat.
    destruct (vget_ok (upd 0 a (s_buf s)) 0) as (c & C1 & C2).
    { rewrite upd_length. lia. }
    rewrite C1. cbn [bind]. rewrite vset_ok by (rewrite upd_length; lia). cbn [bind].
    eexists. split; [reflexivity|].
    assert (VX : forall i, -1 <= i <= s_nv s ->
      vertex (mkStrand (s_nv s) false (upd (Z.to_nat (s_nv s + 1)) c (upd 0 a (s_buf s))) (s_clr s)) i =
      if i =? -1 then Some a else if i =? s_nv s then Some c else vertex s i).
    { intros i Hi. unfold vertex; cbn [s_buf].
      rewrite (proj2 (Z.ltb_ge (i + 1) 0)) by lia. rewrite !nth_error_upd, upd_length.
      destruct (Nat.eqb (Z.to_nat (s_nv s + 1)) (Z.to_nat (i + 1))) eqn:E1.
      - apply Nat.eqb_eq in E1. rewrite (proj2 (Z.eqb_neq i (-1))), (proj2 (Z.eqb_eq i (s_nv s))) by lia.
        rewrite (proj2 (Nat.ltb_lt _ _)) by lia. reflexivity.
      - apply Nat.eqb_neq in E1. rewrite (proj2 (Z.eqb_neq i (s_nv s))) by lia.
        destruct (i =? -1) eqn:E2.
        + apply Z.eqb_eq in E2. subst i. cbn [Nat.eqb]. rewrite (proj2 (Nat.ltb_lt _ _)) by lia. reflexivity.
        + apply Z.eqb_neq in E2. rewrite (proj2 (Nat.eqb_neq 0 _)) by lia. reflexivity. }
    assert (N3 : 3 <= s_nv s).
    { destruct (s_nv s <? 3) eqn:E; [rewrite orb_true_r in EO; discriminate|]. apply Z.ltb_ge in E. lia. }
    split; [split; cbn [s_nv s_buf]; [lia|rewrite !upd_length; lia]|].
    split.
    + unfold wrapped. cbn [s_open s_nv]. rewrite !VX by lia.
      rewrite Z.eqb_refl. rewrite (proj2 (Z.eqb_neq (s_nv s) (-1))) by lia. rewrite Z.eqb_refl. split; auto. split.
      * rewrite (proj2 (Z.eqb_neq (s_nv s - 1) (-1))), (proj2 (Z.eqb_neq (s_nv s - 1) (s_nv s))) by lia. unfold vertex.
        rewrite (proj2 (Z.ltb_ge _ _)) by lia. auto.
      * rewrite (proj2 (Z.eqb_neq 0 (-1))), (proj2 (Z.eqb_neq 0 (s_nv s))) by lia. unfold vertex.
        rewrite (proj2 (Z.ltb_ge _ _)) by lia. rewrite <- C2.
        rewrite nth_error_upd. rewrite (proj2 (Nat.eqb_neq 0 _)) by lia. reflexivity.
    + cbn [s_nv s_clr s_open]. repeat (split; auto).
      intros i Hi. rewrite VX by lia.
      rewrite (proj2 (Z.eqb_neq i (-1))), (proj2 (Z.eqb_neq i (s_nv s))) by lia. reflexivity.
Qed.

Lemma vertex_ext : forall b1 b2 : list V, length b1 = length b2 ->
  (forall i, -1 <= i < Z.of_nat (length b1) - 1 ->
     nth_error b1 (Z.to_nat (i + 1)) = nth_error b2 (Z.to_nat (i + 1))) -> b1 = b2.
Proof.
  induction b1 as [|x b1 IH]; intros [|y b2] L H; simpl in L; try discriminate; auto.
  f_equal.
  - specialize (H (-1) ltac:(cbn [length]; lia)). simpl in H. congruence.
  - apply IH; [lia|]. intros i Hi. specialize (H (i + 1) ltac:(cbn [length]; lia)).
    replace (Z.to_nat (i + 1 + 1)) with (S (Z.to_nat (i + 1))) in H by lia. exact H.
Qed.

Lemma fix_strand_idem : forall s, strand_wf s -> wrapped s -> fix_strand s = Ok s.
Proof.
  intros s W R. destruct (fix_strand_ok s W) as (s' & E & W' & R' & N & C & O & I).
  rewrite E. f_equal. destruct s as [nv op b cl], s' as [nv' op' b' cl']. cbn [s_nv s_clr s_open s_buf] in *.
  subst nv' cl'. unfold strand_wf in *. cbn [s_nv s_buf] in *.
  assert (op' = op).
  { rewrite O. unfold wrapped in R; cbn [s_open s_nv] in R. destruct op; auto. simpl.
    apply Z.ltb_ge. lia. }
  clear O. subst op'. f_equal.
  assert (VB : forall i, -1 <= i -> vertex (mkStrand nv op b' cl) i = nth_error b' (Z.to_nat (i + 1)) /\
     vertex (mkStrand nv op b cl) i = nth_error b (Z.to_nat (i + 1))).
  { intros i Hi. unfold vertex. rewrite (proj2 (Z.ltb_ge _ _)) by lia. auto. }
  apply vertex_ext; [lia|]. intros i Hi.
  destruct (VB i ltac:(lia)) as [VB1 VB2]. rewrite <- VB1, <- VB2.
  destruct (Z.eq_dec i (-1)) as [->|N1]; [|destruct (Z.eq_dec i nv) as [->|N2]].
  - unfold wrapped in R, R'. cbn [s_open s_nv] in R, R'. destruct op.
    + destruct R as [R1 R2], R' as [Q1 Q2]. rewrite R1, Q1.
      destruct (Z.eq_dec nv 2) as [->|].
      * apply I. lia.
      * apply I. lia.
    + destruct R as (_ & R1 & R2), R' as (_ & Q1 & Q2). rewrite R1, Q1. apply I. lia.
  - unfold wrapped in R, R'. cbn [s_open s_nv] in R, R'. destruct op.
    + destruct R as [R1 R2], R' as [Q1 Q2]. rewrite R2, Q2. apply I. lia.
    + destruct R as (_ & R1 & R2), R' as (_ & Q1 & Q2). rewrite R2, Q2. apply I. lia.
  - apply I. lia.
Qed.

Lemma fix_strands_idem : forall l, Forall strand_wf l -> Forall wrapped l -> fix_strands l = Ok l.
Proof.
  induction l as [|s l IH]; intros F G; auto. inversion F; inversion G; subst. cbn [fix_strands].
  rewrite fix_strand_idem by auto. cbn [bind]. rewrite IH; auto.
Qed.

Lemma fix_strands_app : forall l1 l2 : list strand, fix_strands (l1 ++ l2) =
  bind (fix_strands l1) (fun a => bind (fix_strands l2) (fun b => Ok (a ++ b))).
Proof.
  induction l1 as [|s l1 IH]; intros l2; cbn [app fix_strands bind].
  - destruct (fix_strands l2); auto.
  - destruct (fix_strand s); cbn [bind]; auto. rewrite IH.
    destruct (fix_strands l1); cbn [bind]; auto. destruct (fix_strands l2); auto.
Qed.

(** * Vertex numbers *)

Definition total (l : list strand) : Z := fold_right (fun s a => s_nv s + a) 0 l.

Lemma fold_total : forall (l : list strand) a, fold_left (fun a s => a + s_nv s) l a = a + total l.
Proof. induction l as [|s l IH]; intros a; simpl. lia. rewrite IH. simpl. lia. Qed.

Lemma total_nonneg : forall l, Forall (fun s : strand => 0 <= s_nv s) l -> 0 <= total l.
Proof. induction 1; simpl; lia. Qed.

Lemma total_split : forall l k s, nth_error l k = Some s ->
  total l = total (firstn k l) + s_nv s + total (skipn (S k) l).
Proof.
  induction l as [|a l IH]; intros [|k] s H; simpl in *; try discriminate.
  - inversion H; subst. lia.
  - rewrite (IH k s); auto. destruct l; lia.
Qed.

Lemma wrap_up_ok : forall fuel v nv, 1 <= nv -> 1 <= Z.of_nat fuel -> - v < Z.of_nat fuel ->
  exists w, wrap_up fuel v nv = Ok w /\ 0 <= w /\ w mod nv = v mod nv.
Proof.
  induction fuel as [|f IH]; intros v nv H1 H0 H2; [lia|]. simpl.
  destruct (v <? 0) eqn:E.
  - apply Z.ltb_lt in E. destruct (IH (v + nv) nv) as (w & A & B & C); auto; try lia.
    exists w. split; auto. split; auto. rewrite C.
    replace (v + nv) with (v + 1 * nv) by lia. apply Z.mod_add. lia.
  - apply Z.ltb_ge in E. eauto.
Qed.

(** where a vertex number lands: wrap on closed strands, clamp on open ones *)
Definition landed (s : strand) (vt : Z) : Z :=
  if s_open s then Z.max 0 (Z.min vt (s_nv s - 1)) else vt mod s_nv s.

Lemma vertex_num_ok : forall (L : plcurve) cp vt s,
  0 <= cp -> nth_error (strands L) (Z.to_nat cp) = Some s -> 1 <= s_nv s ->
  plc_vertex_num L cp vt = Ok (total (firstn (Z.to_nat cp) (strands L)) + landed s vt).
Proof.
  intros L cp vt s Hc Hs Hn. unfold plc_vertex_num.
  rewrite (proj2 (Z.ltb_ge cp 0)) by lia. rewrite Hs. unfold landed.
  destruct (s_open s) eqn:O.
  - cbn [bind]. rewrite fold_total. f_equal. rewrite Z.add_comm. f_equal.
    destruct (vt <? 0) eqn:E1; [apply Z.ltb_lt in E1; lia|apply Z.ltb_ge in E1].
    destruct (s_nv s - 1 <? vt) eqn:E2; [apply Z.ltb_lt in E2; lia|apply Z.ltb_ge in E2; lia].
  - destruct (wrap_up_ok (S (Z.to_nat (- vt))) vt (s_nv s)) as (w & A & B & C); try lia.
    rewrite A. cbn [bind]. rewrite (proj2 (Z.eqb_neq _ _)) by lia. cbn [bind].
    rewrite fold_total, Z.rem_mod_nonneg by lia. rewrite C. f_equal. lia.
Qed.

Lemma cp_loop_ok : forall l k s v i, Forall (fun s : strand => 0 <= s_nv s) l ->
  nth_error l k = Some s -> 0 <= v < s_nv s ->
  cp_loop l i (total (firstn k l) + v) = Ok (i + Z.of_nat k).
Proof.
  induction l as [|a l IH]; intros [|k] s v i F H Hv; cbn [firstn nth_error] in *; try discriminate.
  - inversion H; subst. cbn [total fold_right cp_loop].
    rewrite (proj2 (Z.ltb_lt _ _)) by lia. f_equal. lia.
  - inversion F; subst. cbn [cp_loop].
    pose proof (total_nonneg (firstn k l)) as T.
    assert (FT : Forall (fun s : strand => 0 <= s_nv s) (firstn k l)).
    { apply Forall_forall. intros x Hx. rewrite Forall_forall in H3. apply H3.
      rewrite <- (firstn_skipn k l). apply in_or_app; auto. }
    specialize (T FT).
    change (total (a :: firstn k l)) with (s_nv a + total (firstn k l)).
    rewrite (proj2 (Z.ltb_ge _ _)) by lia.
    replace (s_nv a + total (firstn k l) + v - s_nv a) with (total (firstn k l) + v) by lia.
    rewrite (IH k s v (i + 1)); auto. f_equal. lia.
Qed.

Lemma vt_loop_ok : forall l k s v, Forall (fun s : strand => 0 <= s_nv s) l ->
  nth_error l k = Some s -> 0 <= v < s_nv s ->
  vt_loop l (total (firstn k l) + v) = Ok v.
Proof.
  induction l as [|a l IH]; intros [|k] s v F H Hv; cbn [firstn nth_error] in *; try discriminate.
  - inversion H; subst. cbn [total fold_right vt_loop].
    rewrite (proj2 (Z.ltb_lt _ _)) by lia. f_equal.
  - inversion F; subst. cbn [vt_loop].
    pose proof (total_nonneg (firstn k l)) as T.
    assert (FT : Forall (fun s : strand => 0 <= s_nv s) (firstn k l)).
    { apply Forall_forall. intros x Hx. rewrite Forall_forall in H3. apply H3.
      rewrite <- (firstn_skipn k l). apply in_or_app; auto. }
    specialize (T FT).
    change (total (a :: firstn k l)) with (s_nv a + total (firstn k l)).
    rewrite (proj2 (Z.ltb_ge _ _)) by lia.
    replace (s_nv a + total (firstn k l) + v - s_nv a) with (total (firstn k l) + v) by lia.
    eauto.
Qed.

Lemma locate : forall l w, Forall (fun s : strand => 0 <= s_nv s) l -> 0 <= w < total l ->
  exists k s v, nth_error l k = Some s /\ 0 <= v < s_nv s /\ w = total (firstn k l) + v.
Proof.
  induction l as [|a l IH]; intros w F H; simpl in H; [lia|]. inversion F; subst.
  destruct (Z_lt_ge_dec w (s_nv a)).
  - exists 0%nat, a, w. cbn. split; auto. lia.
  - destruct (IH (w - s_nv a) H3 ltac:(lia)) as (k & s & v & A & B & C).
    exists (S k), s, v. cbn [nth_error firstn]. split; auto. split; auto.
    change (total (a :: firstn k l)) with (s_nv a + total (firstn k l)). lia.
Qed.

Lemma num_verts_total : forall L : plcurve, plc_num_verts L = total (strands L).
Proof. intros. unfold plc_num_verts. rewrite fold_total. lia. Qed.

Lemma firstn_nonneg : forall l k, Forall (fun s : strand => 0 <= s_nv s) l ->
  Forall (fun s : strand => 0 <= s_nv s) (firstn k l).
Proof.
  intros. apply Forall_forall. intros x Hx. rewrite Forall_forall in H. apply H.
  rewrite <- (firstn_skipn k l). apply in_or_app; auto.
Qed.

(** * Copying *)

Lemma copy_loop_ok : forall n i old new,
  length old = length new -> 0 <= i + 1 -> i + 1 + Z.of_nat n = Z.of_nat (length old) ->
  firstn (Z.to_nat (i + 1)) old = firstn (Z.to_nat (i + 1)) new ->
  copy_loop n i old new = @Ok (list V) old.
Proof.
  induction n as [|n IH]; intros i old new L H0 H1 H2; cbn [copy_loop].
  - rewrite !firstn_all2 in H2 by lia. congruence.
  - destruct (vget_ok old i ltac:(lia)) as (v & A1 & A2). rewrite A1. cbn [bind].
    rewrite vset_ok by lia. cbn [bind]. apply IH; try lia.
    + rewrite upd_length. auto.
    + replace (Z.to_nat (i + 1 + 1)) with (S (Z.to_nat (i + 1))) by lia.
      clear - H2 A2 L. revert H2 A2 L. generalize (Z.to_nat (i + 1)) as k. intros k. revert old new.
      induction k as [|k IHk]; intros [|x old] [|y new] H2 A2 L; simpl in *; try discriminate; auto.
      * congruence.
      * inversion H2. f_equal. apply IHk; auto.
Qed.

Lemma copy_strand_ok : forall z zc s, 1 <= s_nv s ->
  Z.of_nat (length (s_buf s)) = s_nv s + 2 -> Z.of_nat (length (s_clr s)) <= s_nv s ->
  copy_strand z zc s = @Ok strand s.
Proof.
  intros z zc s H1 H2 H3. unfold copy_strand.
  rewrite (proj2 (Z.leb_le _ _)) by lia. rewrite (proj2 (Z.leb_le _ _)) by lia.
  unfold new_strand. cbn [s_buf s_nv s_open].
  rewrite copy_loop_ok; cbn [bind]; try lia; auto.
  - destruct s; reflexivity.
  - rewrite repeat_length. lia.
Qed.

End P.
