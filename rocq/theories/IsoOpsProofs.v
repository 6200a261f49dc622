(** Lemmas for the group operations on isomorphisms. *)
From Coq Require Import List ZArith Lia Bool Arith Permutation.
From Verif Require Import Base Iterators PermData Perm PermProofs Pd PdCross PdHash HashSpec HashProofs PdIso IsoSpec.
Import ListNotations.
Open Scope nat_scope.

(** ** orientations *)
Lemma compose_or_ok : forall a b, sign_like a -> sign_like b -> pd_compose_or a b = Ok (times a b).
Proof. intros a b [->| ->] [->| ->]; reflexivity. Qed.
Lemma times_sign : forall a b, sign_like (times a b).
Proof. intros [| |] [| |]; cbv; auto. Qed.
Lemma times_assoc : forall a b c, sign_like a -> sign_like b -> sign_like c -> times (times a b) c = times a (times b c).
Proof. intros a b c [->| ->] [->| ->] [->| ->]; reflexivity. Qed.
Lemma times_comm : forall a b, times a b = times b a.
Proof. intros [| |] [| |]; reflexivity. Qed.
Lemma times_self : forall a, times a a = Pos.
Proof. intros [| |]; reflexivity. Qed.
Lemma times_pos : forall a, sign_like a -> times Pos a = a.
Proof. intros a [->| ->]; reflexivity. Qed.
Lemma is_pos_iff : forall o, is_pos o = true <-> o = Pos.
Proof. intros [| |]; cbv; intuition congruence. Qed.
Lemma or_ok_iff : forall o, pd_or_ok o = true <-> sign_like o.
Proof. intros [| |]; cbv; intuition congruence. Qed.

(** ** cyclic comparison *)
Lemma nth_mapseq : forall A (f : nat -> A) n i d, i < n -> nth i (map f (seq 0 n)) d = f i.
Proof.
  intros A f n i d H. rewrite nth_indep with (d' := f 0) by (rewrite map_length, seq_length; auto).
  rewrite map_nth with (f := f). rewrite seq_nth by auto. reflexivity.
Qed.

Lemma seq_copy : forall (b : list nat), map (fun i => nth i b 0) (seq 0 (length b)) = b.
Proof.
  intros b. apply list_ext0; rewrite map_length, seq_length; auto. intros i Hi. rewrite nth_mapseq by auto. reflexivity.
Qed.
Lemma rev_copy : forall (b : list nat), map (fun i => nth (length b - 1 - i) b 0) (seq 0 (length b)) = rev b.
Proof.
  intros b. apply list_ext0; rewrite map_length, seq_length; [rewrite rev_length; auto|]. intros i Hi.
  rewrite nth_mapseq by auto. rewrite rev_nth by auto. f_equal. lia.
Qed.
Lemma cycliceq_copy : forall a c, length a = length c ->
  existsb (fun ofs => forallb (fun i => nth i a 0 =? nth ((i + ofs) mod length a) c 0) (seq 0 (length a)))
    (seq 0 (length a)) = true <-> a <> [] /\ rotation c a.
Proof.
  intros a c L. rewrite existsb_exists. split.
  - intros (ofs & H1 & H2). apply in_seq in H1. split; [intros ->; cbn in H1; lia|].
    assert (E : a = rot ofs c).
    { apply list_ext0; [unfold rot; rewrite map_length, seq_length; auto|]. unfold rot. intros i Hi.
      rewrite forallb_forall in H2. specialize (H2 i). rewrite in_seq in H2. specialize (H2 ltac:(lia)).
      apply Nat.eqb_eq in H2. rewrite H2. rewrite nth_mapseq by lia.
      rewrite L. f_equal. f_equal. lia. }
    rewrite E. apply rot_rotation. lia.
  - intros (N & R). destruct (rotation_rot c a R) as (i & Hi & E).
    { intros ->. destruct a; cbn in L; congruence. }
    exists i. split; [apply in_seq; lia|]. apply forallb_forall. intros j Hj. apply in_seq in Hj. apply Nat.eqb_eq.
    rewrite E at 1. unfold rot. rewrite nth_mapseq by lia.
    rewrite L. f_equal. f_equal. lia.
Qed.

(** ** edge maps *)
Lemma map_ok_map : forall A B (f : A -> res B) (g : A -> B) l, (forall x, In x l -> f x = Ok (g x)) ->
  map_ok f l = Ok (map g l).
Proof.
  induction l as [|x l IH]; intros H; cbn [map_ok map]; auto. rewrite H by (left; auto). cbn [bind].
  rewrite IH by (intros; apply H; right; auto). reflexivity.
Qed.
Lemma get_nth : forall A (l : list A) i d, i < length l -> get l i = Ok (nth i l d).
Proof. intros A l i d H. unfold get. rewrite nth_error_nth' with (d := d) by auto. reflexivity. Qed.
Lemma perm_lt : forall p x, is_perm p -> x < pn p -> nth x (pmap p) 0 < pn p.
Proof.
  intros p x P H. pose proof (perm_entries p P) as F. rewrite Forall_forall in F. apply F. apply nth_In. exact H.
Qed.
Lemma or_at : forall n m e, good_edgemap n m -> e < n -> sign_like (nth e (em_or m) Pos).
Proof. intros n m e (_ & _ & L & F) H. rewrite Forall_forall in F. apply F. apply nth_In. lia. Qed.

Definition emul (n : nat) (A B : edgemap) : edgemap :=
  mkEM (mkPerm (map (fun e => nth (nth e (pmap (em_perm B)) 0) (pmap (em_perm A)) 0) (seq 0 n)) 0)
       (map (fun e => times (nth e (em_or B) Pos) (nth (nth e (pmap (em_perm B)) 0) (em_or A) Pos)) (seq 0 n)).

Lemma perm_comp : forall A B c, is_perm A -> is_perm B -> pn A = pn B ->
  is_perm (mkPerm (map (fun e => nth (nth e (pmap B) 0) (pmap A) 0) (seq 0 (pn A))) c).
Proof.
  intros A B c PA PB E. destruct (gather_perm A B PA PB E) as (m & G & Lm & P).
  replace (map _ _) with m; [apply P|]. apply gather_nth in G as (_ & G).
  apply list_ext0; rewrite ?map_length, ?seq_length; auto. intros i Hi. rewrite Lm in Hi. rewrite nth_mapseq by auto.
  apply G. unfold pn in *; lia.
Qed.

Lemma compose_edgemaps_ok : forall n A B, good_edgemap n A -> good_edgemap n B ->
  pd_compose_edgemaps A B = Ok (emul n A B) /\ good_edgemap n (emul n A B).
Proof.
  intros n A B GA GB. pose proof GA as (PA & NA & LA & FA). pose proof GB as (PB & NB & LB & FB). split.
  - unfold pd_compose_edgemaps. rewrite NA, NB, Nat.eqb_refl.
    rewrite map_ok_map with (g := fun e => (nth (nth e (pmap (em_perm B)) 0) (pmap (em_perm A)) 0,
      times (nth e (em_or B) Pos) (nth (nth e (pmap (em_perm B)) 0) (em_or A) Pos))).
    + cbn [bind]. rewrite !map_map. cbn [fst snd]. reflexivity.
    + intros e He. apply in_seq in He. unfold compose_edge.
      assert (X : nth e (pmap (em_perm B)) 0 < n) by (rewrite <- NB; apply perm_lt; auto; lia).
      rewrite get_nth with (d := 0) by (unfold pn in NB; lia). cbn [bind].
      rewrite get_nth with (d := Pos) by lia. cbn [bind].
      rewrite get_nth with (d := 0) by (unfold pn in NA; lia). cbn [bind].
      rewrite get_nth with (d := Pos) by lia. cbn [bind].
      rewrite compose_or_ok; [reflexivity|apply (or_at n)|apply (or_at n)]; auto; lia.
  - unfold emul, good_edgemap. cbn [em_perm em_or]. split; [|split; [|split]].
    + rewrite <- NA. apply perm_comp; auto. congruence.
    + unfold pn. cbn. rewrite map_length, seq_length. auto.
    + rewrite map_length, seq_length. auto.
    + apply Forall_forall. intros o Ho. apply in_map_iff in Ho as (e & <- & _). apply times_sign.
Qed.

Lemma emul_perm : forall n A B e, e < n ->
  nth e (pmap (em_perm (emul n A B))) 0 = nth (nth e (pmap (em_perm B)) 0) (pmap (em_perm A)) 0.
Proof. intros. unfold emul. cbn [em_perm pmap]. rewrite nth_mapseq by auto. reflexivity. Qed.
Lemma emul_or : forall n A B e, e < n ->
  nth e (em_or (emul n A B)) Pos = times (nth e (em_or B) Pos) (nth (nth e (pmap (em_perm B)) 0) (em_or A) Pos).
Proof. intros. unfold emul. cbn [em_or]. rewrite nth_mapseq by auto. reflexivity. Qed.

Lemma emul_assoc : forall n A B C, good_edgemap n A -> good_edgemap n B -> good_edgemap n C ->
  emul n (emul n A B) C = emul n A (emul n B C).
Proof.
  intros n A B C GA GB GC. pose proof GC as (PC & NC & LC & FC). pose proof GB as (PB & NB & LB & FB).
  assert (XC : forall e, e < n -> nth e (pmap (em_perm C)) 0 < n).
  { intros e He. rewrite <- NC. apply perm_lt; auto; lia. }
  assert (XB : forall e, e < n -> nth e (pmap (em_perm B)) 0 < n).
  { intros e He. rewrite <- NB. apply perm_lt; auto; lia. }
  unfold emul at 1 3. f_equal; [f_equal|]; apply map_ext_in; intros e He; apply in_seq in He.
  - rewrite !emul_perm by (try apply XC; lia). reflexivity.
  - rewrite !emul_or, emul_perm by (try apply XC; lia).
    symmetry. apply times_assoc; [apply (or_at n)|apply (or_at n)|apply (or_at n)]; auto; try lia.
    + apply XC; lia.
    + apply XB. apply XC. lia.
Qed.

Lemma new_edgemap_good : forall n, good_edgemap n (pd_new_edgemap n).
Proof.
  intros n. unfold pd_new_edgemap, good_edgemap, pd_new_perm, is_perm, pn. cbn. rewrite seq_length, repeat_length.
  repeat split; auto. apply Forall_forall. intros o Ho. apply repeat_spec in Ho. left; auto.
Qed.

(** ** crossing and face maps *)
Lemma compose_ormaps_ok : forall n A B, 1 <= n -> good_ormap n A -> good_ormap n B ->
  exists C, pd_compose_ormaps A B = Ok C /\ good_ormap n C /\ canonical (om_perm C) /\ (6 < n -> pc_idx (om_perm C) = 0) /\
    om_or C = times (om_or A) (om_or B) /\
    forall x, x < n -> nth x (pmap (om_perm C)) 0 = nth (nth x (pmap (om_perm B)) 0) (pmap (om_perm A)) 0.
Proof.
  intros n A B L (PA & NA & SA) (PB & NB & SB).
  destruct (compose_ok (om_perm A) (om_perm B) PA PB ltac:(congruence) ltac:(lia)) as (C & H1 & H2 & H3 & H4 & H5 & H6).
  unfold pd_compose_ormaps. rewrite H1. cbn [bind]. rewrite compose_or_ok by auto. cbn [bind].
  eexists. split; [reflexivity|]. unfold good_ormap. cbn [om_perm om_or]. split; [|split; [|split; [|split]]]; auto.
  - split; auto. split; [lia|]. apply times_sign.
  - intros K. apply H5. lia.
  - intros x Hx. apply H6. lia.
Qed.

Lemma perm_rec_eq : forall A B, canonical A -> canonical B -> (6 < pn A -> pc_idx A = 0) -> (6 < pn B -> pc_idx B = 0) ->
  1 <= pn A -> pmap A = pmap B -> A = B.
Proof.
  intros [a i] [b j] CA CB ZA ZB L E. cbn [pmap] in E. subst b. f_equal. unfold pn in *. cbn [pmap pc_idx] in *.
  destruct (Nat.lt_ge_cases 6 (length a)) as [K|K].
  - rewrite ZA, ZB by auto. reflexivity.
  - apply (canonical_unique a); auto.
Qed.

Lemma compose_perms_assoc : forall n A B C AB BC, 1 <= n -> is_perm A -> pn A = n -> is_perm B -> pn B = n -> is_perm C -> pn C = n ->
  pd_compose_perms A B = Ok AB -> pd_compose_perms B C = Ok BC -> pd_compose_perms AB C = pd_compose_perms A BC.
Proof.
  intros n A B C AB BC L PA NA PB NB PC NC HAB HBC.
  destruct (compose_ok A B PA PB ltac:(congruence) ltac:(lia)) as (X & X1 & X2 & X3 & _ & _ & X6).
  destruct (compose_ok B C PB PC ltac:(congruence) ltac:(lia)) as (Y & Y1 & Y2 & Y3 & _ & _ & Y6).
  rewrite HAB in X1. injection X1 as <-. rewrite HBC in Y1. injection Y1 as <-.
  destruct (compose_ok AB C X2 PC ltac:(congruence) ltac:(lia)) as (U & U1 & U2 & U3 & U4 & U5 & U6).
  destruct (compose_ok A BC PA Y2 ltac:(congruence) ltac:(lia)) as (V & V1 & V2 & V3 & V4 & V5 & V6).
  rewrite U1, V1. f_equal. apply perm_rec_eq; auto; try lia.
  apply list_ext0; [unfold pn in *; lia|]. intros i Hi. change (length (pmap U)) with (pn U) in Hi.
  rewrite U6, V6, Y6 by lia. rewrite X6; auto. rewrite NA, <- NC. apply perm_lt; auto. lia.
Qed.

(** ** isomorphisms *)
Section Counts.
Context (nc ne nx nf : nat) (Lc : 1 <= nc) (Lx : 1 <= nx) (Lf : 1 <= nf).
Notation good := (good_iso nc ne nx nf).
Notation things := (thing_of nc ne nx nf).

Lemma act_things : forall A t, good A -> things t -> things (act A t).
Proof.
  intros A t [P N (EP & EN & EL & EF) (m & Em & (XP & XN & XS)) (FP & FN & FS)] H. destruct t; cbn [act thing_of] in *.
  - rewrite <- N. apply perm_lt; auto. lia.
  - split; [|apply times_sign]. rewrite <- EN. apply perm_lt; auto. lia.
  - rewrite Em. cbn [thing_of]. rewrite <- XN. apply perm_lt; auto. lia.
  - rewrite <- FN. apply perm_lt; auto. lia.
  - rewrite Em. cbn [thing_of]. apply times_sign.
  - apply times_sign.
Qed.

Lemma compose_isos_ok : forall A B, good A -> good B ->
  exists C, pd_compose_isos A B = Ok C /\ good C /\ forall t, things t -> act C t = act A (act B t).
Proof.
  intros A B [P N E (m & Em & X) F] [P' N' E' (m' & Em' & X') F'].
  destruct (compose_ok (i_comp A) (i_comp B) P P' ltac:(congruence) ltac:(lia)) as (C & C1 & C2 & C3 & _ & _ & C6).
  destruct (compose_edgemaps_ok ne _ _ E E') as (D1 & D2).
  destruct (compose_ormaps_ok nx m m' Lx X X') as (Y & Y1 & Y2 & _ & _ & Y5 & Y6).
  destruct (compose_ormaps_ok nf _ _ Lf F F') as (Z & Z1 & Z2 & _ & _ & Z5 & Z6).
  unfold pd_compose_isos. rewrite C1. cbn [bind]. rewrite D1. cbn [bind]. rewrite Em, Em'. cbn [on_crossmaps bind].
  rewrite Y1. cbn [bind]. rewrite Z1. cbn [bind]. eexists. split; [reflexivity|]. split.
  - split; cbn [i_comp i_edge i_cross i_face]; auto; [lia|]. exists Y. auto.
  - intros t Ht. destruct t; cbn [act thing_of i_comp i_edge i_cross i_face] in *; rewrite ?Em, ?Em'; cbn [act]; rewrite ?Em.
    + rewrite C6 by lia. reflexivity.
    + destruct Ht as (H1 & H2). rewrite emul_perm, emul_or by auto. f_equal.
      rewrite (times_comm (nth e _ _) (nth _ _ _)). apply times_assoc; auto; apply (or_at ne); auto.
      destruct E' as (EP & EN & _). rewrite <- EN. apply perm_lt; auto. lia.
    + rewrite Y6 by lia. reflexivity.
    + rewrite Z6 by lia. reflexivity.
    + rewrite Y5. f_equal. apply times_assoc; auto; [apply X|apply X'].
    + rewrite Z5. f_equal. apply times_assoc; auto; [apply F|apply F'].
Qed.

Lemma compose_isos_assoc : forall A B C AB BC, good A -> good B -> good C ->
  pd_compose_isos A B = Ok AB -> pd_compose_isos B C = Ok BC -> pd_compose_isos AB C = pd_compose_isos A BC.
Proof.
  intros A B C AB BC [P N E (m & Em & X) F] [P' N' E' (m' & Em' & X') F'] [P'' N'' E'' (m'' & Em'' & X'') F''] H K.
  unfold pd_compose_isos in *. rewrite Em, Em' in H. rewrite Em', Em'' in K. cbn [on_crossmaps] in H, K.
  apply bind_ok in H as (c & H1 & H). apply bind_ok in H as (e & H2 & H). apply bind_ok in H as (x & H3 & H).
  apply bind_ok in H as (f & H4 & H). injection H as <-. apply bind_ok in H3 as (x' & H3 & H3'). injection H3' as <-.
  apply bind_ok in K as (c2 & K1 & K). apply bind_ok in K as (e2 & K2 & K). apply bind_ok in K as (x2 & K3 & K).
  apply bind_ok in K as (f2 & K4 & K). injection K as <-. apply bind_ok in K3 as (x2' & K3 & K3'). injection K3' as <-.
  cbn [i_comp i_edge i_cross i_face]. rewrite Em, Em''. cbn [on_crossmaps].
  rewrite (compose_perms_assoc nc (i_comp A) (i_comp B) (i_comp C) c c2) by auto.
  assert (OM : forall n a b d ab bd, 1 <= n -> good_ormap n a -> good_ormap n b -> good_ormap n d ->
    pd_compose_ormaps a b = Ok ab -> pd_compose_ormaps b d = Ok bd -> pd_compose_ormaps ab d = pd_compose_ormaps a bd).
  { clear -Lc. intros n a b d ab bd L Ga Gb Gd Hab Hbd. unfold pd_compose_ormaps in *.
    apply bind_ok in Hab as (p & Q1 & Hab). apply bind_ok in Hab as (o & Q2 & Hab). injection Hab as <-.
    apply bind_ok in Hbd as (q & R1 & Hbd). apply bind_ok in Hbd as (o2 & R2 & Hbd). injection Hbd as <-.
    cbn [om_perm om_or]. destruct Ga as (A1 & A2 & A3), Gb as (B1 & B2 & B3), Gd as (D1 & D2 & D3).
    rewrite (compose_perms_assoc n (om_perm a) (om_perm b) (om_perm d) p q) by auto.
    rewrite compose_or_ok in Q2, R2 by auto. injection Q2 as <-. injection R2 as <-.
    rewrite !compose_or_ok by (auto; apply times_sign). rewrite times_assoc by auto. reflexivity. }
  rewrite (OM nx m m' m'' x' x2') by auto. rewrite (OM nf _ _ _ f f2 Lf F F' F'') by auto.
  destruct (compose_edgemaps_ok ne _ _ E E') as (D1 & D2). rewrite D1 in H2. injection H2 as <-.
  destruct (compose_edgemaps_ok ne _ _ E' E'') as (D1' & D2'). rewrite D1' in K2. injection K2 as <-.
  destruct (compose_edgemaps_ok ne _ _ D2 E'') as (D3 & _). destruct (compose_edgemaps_ok ne _ _ E D2') as (D4 & _).
  rewrite D3, D4, emul_assoc by auto. reflexivity.
Qed.

(** the inverse *)
Definition einv (n : nat) (I : perm) (A : edgemap) : edgemap :=
  mkEM I (map (fun e => nth (nth e (pmap I) 0) (em_or A) Pos) (seq 0 n)).
Lemma inverse_exists : 1 <= ne -> forall A, good A -> exists B, good B /\
  (forall t, things t -> act A (act B t) = t) /\ (forall t, things t -> act B (act A t) = t).
Proof.
  intros Le A [P N E (m & Em & X) F].
  destruct (inverse_ok (i_comp A) P ltac:(lia)) as (c & _ & c2 & c3 & _ & _ & c6 & c7).
  destruct E as (EP & EN & EL & EF).
  destruct (inverse_ok _ EP ltac:(lia)) as (e & _ & e2 & e3 & _ & _ & e6 & e7).
  destruct X as (XP & XN & XS).
  destruct (inverse_ok _ XP ltac:(lia)) as (x & _ & x2 & x3 & _ & _ & x6 & x7).
  destruct F as (FP & FN & FS).
  destruct (inverse_ok _ FP ltac:(lia)) as (f & _ & f2 & f3 & _ & _ & f6 & f7).
  assert (OA : forall i, i < ne -> sign_like (nth i (em_or (i_edge A)) Pos)).
  { intros i Hi. rewrite Forall_forall in EF. apply EF. apply nth_In. lia. }
  exists (mkIso c (einv ne e (i_edge A)) (Some (mkOM x (om_or m))) (mkOM f (om_or (i_face A)))).
  split; [|split].
  - split; cbn [i_comp i_edge i_cross i_face]; auto; [lia| | |].
    + unfold einv, good_edgemap. cbn. rewrite map_length, seq_length. split; auto. split; [lia|]. split; auto.
      apply Forall_forall. intros o Ho. apply in_map_iff in Ho as (i & <- & Hi). apply in_seq in Hi.
      apply OA. rewrite <- EN, <- e3. apply perm_lt; auto. lia.
    + eexists. split; [reflexivity|]. split; auto. split; [cbn; lia|]. auto.
    + split; auto. split; [cbn; lia|]. auto.
  - intros t Ht. destruct t; cbn [act thing_of i_comp i_edge i_cross i_face om_perm om_or em_perm em_or einv] in *; rewrite ?Em; cbn [act om_perm om_or].
    + rewrite c7 by lia. reflexivity.
    + destruct Ht as (H1 & H2). rewrite e7 by lia. rewrite nth_mapseq by lia.
      set (q := nth (nth e0 (pmap e) 0) (em_or (i_edge A)) Pos).
      assert (sign_like q) by (apply OA; rewrite <- EN, <- e3; apply perm_lt; auto; lia).
      rewrite <- times_assoc by auto. rewrite times_self, times_pos by auto. reflexivity.
    + rewrite x7 by lia. reflexivity.
    + rewrite f7 by lia. reflexivity.
    + rewrite <- times_assoc by auto. rewrite times_self, times_pos by auto. reflexivity.
    + rewrite <- times_assoc by auto. rewrite times_self, times_pos by auto. reflexivity.
  - intros t Ht. destruct t; cbn [act thing_of i_comp i_edge i_cross i_face om_perm om_or em_perm em_or einv] in *; rewrite ?Em; cbn [act om_perm om_or i_cross].
    + rewrite c6 by lia. reflexivity.
    + destruct Ht as (H1 & H2). rewrite e6 by lia. rewrite nth_mapseq by (rewrite <- EN; apply perm_lt; auto; lia).
      rewrite e6 by lia. rewrite <- times_assoc by auto. rewrite times_self, times_pos by auto. reflexivity.
    + rewrite x6 by lia. reflexivity.
    + rewrite f6 by lia. reflexivity.
    + rewrite <- times_assoc by auto. rewrite times_self, times_pos by auto. reflexivity.
    + rewrite <- times_assoc by auto. rewrite times_self, times_pos by auto. reflexivity.
Qed.

(** in place *)
Lemma stareq_ormap_ok : forall n A B, good_ormap n A -> good_ormap n B ->
  exists C, pd_stareq_ormap A B = Ok C /\ good_ormap n C /\ om_or C = times (om_or A) (om_or B) /\
    forall x, x < n -> nth x (pmap (om_perm C)) 0 = nth (nth x (pmap (om_perm B)) 0) (pmap (om_perm A)) 0.
Proof.
  intros n A B (PA & NA & SA) (PB & NB & SB). unfold pd_stareq_ormap, pd_stareq_perm. rewrite NA, NB, Nat.eqb_refl.
  destruct (gather_perm (om_perm A) (om_perm B) PA PB ltac:(congruence)) as (p & G & Lp & P). rewrite G. cbn [bind].
  rewrite compose_or_ok by auto. cbn [bind]. eexists. split; [reflexivity|]. unfold good_ormap, pn. cbn [om_perm om_or pmap].
  split; [|split]; auto.
  - split; [apply P|]. split; [lia|]. apply times_sign.
  - intros x Hx. apply gather_nth in G as (_ & G). apply G. unfold pn in NB. lia.
Qed.

Lemma stareq_iso_ok : forall A B, good A -> good B ->
  exists C, pd_stareq_iso A B = Ok C /\ good C /\ forall t, things t -> act C t = act A (act B t).
Proof.
  intros A B GA GB. destruct (compose_isos_ok A B GA GB) as (D & D1 & D2 & D3).
  pose proof GA as [P N E (m & Em & X) F]. pose proof GB as [P' N' E' (m' & Em' & X') F'].
  unfold pd_stareq_iso, pd_stareq_perm. rewrite N, N', Nat.eqb_refl.
  destruct (gather_perm (i_comp A) (i_comp B) P P' ltac:(congruence)) as (p & G & Lp & Pp). rewrite G. cbn [bind].
  unfold pd_stareq_edgemap. destruct (compose_edgemaps_ok ne _ _ E E') as (M1 & M2). rewrite M1. cbn [bind].
  rewrite Em, Em'. cbn [on_crossmaps].
  destruct (stareq_ormap_ok nx m m' X X') as (Y & Y1 & Y2 & Y3 & Y4). rewrite Y1. cbn [bind].
  destruct (stareq_ormap_ok nf _ _ F F') as (Z & Z1 & Z2 & Z3 & Z4). rewrite Z1. cbn [bind].
  eexists. split; [reflexivity|]. split.
  - split; cbn [i_comp i_edge i_cross i_face]; auto; [unfold pn in *; cbn; lia|exists Y; auto].
  - intros t Ht. rewrite <- D3 by auto. unfold pd_compose_isos in D1. rewrite Em, Em' in D1. cbn [on_crossmaps] in D1.
    destruct (compose_ok (i_comp A) (i_comp B) P P' ltac:(congruence) ltac:(lia)) as (C & C1 & C2 & C3 & _ & _ & C6).
    destruct (compose_ormaps_ok nx m m' Lx X X') as (Y' & Y1' & Y2' & _ & _ & Y5' & Y6').
    destruct (compose_ormaps_ok nf _ _ Lf F F') as (Z' & Z1' & Z2' & _ & _ & Z5' & Z6').
    rewrite C1, M1 in D1. cbn [bind] in D1. rewrite Y1' in D1. cbn [bind] in D1. rewrite Z1' in D1. cbn [bind] in D1.
    injection D1 as <-. apply gather_nth in G as (_ & G).
    destruct t; cbn [act thing_of i_comp i_edge i_cross i_face pmap em_perm em_or] in *.
    + rewrite G, C6 by (unfold pn in *; lia). reflexivity.
    + reflexivity.
    + rewrite Y4, Y6' by lia. reflexivity.
    + rewrite Z4, Z6' by lia. reflexivity.
    + rewrite Y3, Y5'. reflexivity.
    + rewrite Z3, Z5'. reflexivity.
Qed.

(** identity and period *)
Lemma perm_id_iff : forall p, pd_perm_is_e p = true <-> forall x, x < pn p -> nth x (pmap p) 0 = x.
Proof.
  intros p. rewrite is_e_eq. split.
  - intros -> x Hx. rewrite seq_nth; auto.
  - intros H. apply list_ext0; [rewrite seq_length; reflexivity|]. intros i Hi.
    rewrite H by exact Hi. rewrite seq_nth; auto.
Qed.
Lemma iso_is_e_ok : 1 <= ne -> forall A, good A -> exists b, pd_iso_is_e A = Ok b /\
  (b = true <-> forall t, things t -> act A t = t).
Proof.
  intros Le A [P N (EP & EN & EL & EF) (m & Em & (XP & XN & XS)) (FP & FN & FS)]. unfold pd_iso_is_e. rewrite Em.
  assert (OA : forall i, i < ne -> sign_like (nth i (em_or (i_edge A)) Pos)).
  { intros i Hi. rewrite Forall_forall in EF. apply EF. apply nth_In. lia. }
  destruct (pd_perm_is_e (i_comp A)) eqn:E1; cbn [negb].
  2:{ exists false. split; auto. split; [discriminate|]. intros H. rewrite <- E1. apply perm_id_iff.
      intros x Hx. specialize (H (TComp x)). cbn in H. rewrite N in Hx. specialize (H Hx). congruence. }
  destruct (pd_perm_is_e (em_perm (i_edge A))) eqn:E2; cbn [negb].
  2:{ exists false. split; auto. split; [discriminate|]. intros H. rewrite <- E2. apply perm_id_iff.
      intros x Hx. specialize (H (TDart x Pos)). cbn in H. rewrite EN in Hx. specialize (H (conj Hx (or_introl eq_refl))). congruence. }
  eexists. split; [reflexivity|]. rewrite !andb_true_iff, !perm_id_iff, !is_pos_iff, forallb_forall.
  rewrite perm_id_iff in E1, E2. split.
  - intros ((((H1 & H2) & H3) & H4) & H5) t Ht. destruct t; cbn [act thing_of] in *; rewrite ?Em.
    + rewrite E1 by lia. auto.
    + destruct Ht as (K1 & K2). rewrite E2 by lia. f_equal.
      replace (nth e _ _) with Pos; [apply times_pos; auto|]. symmetry. apply is_pos_iff. apply H5. apply nth_In. lia.
    + rewrite H1 by lia. auto.
    + rewrite H2 by lia. auto.
    + rewrite H4, times_pos by auto. auto.
    + rewrite H3, times_pos by auto. auto.
  - intros H. split; [split; [split; [split|]|]|].
    + intros x Hx. specialize (H (TCross x)). cbn in H. rewrite Em in H. rewrite XN in Hx. specialize (H Hx). congruence.
    + intros x Hx. specialize (H (TFace x)). cbn in H. rewrite FN in Hx. specialize (H Hx). congruence.
    + specialize (H (TRound Pos) (or_introl eq_refl)). cbn in H. destruct FS as [->|Q]; auto. rewrite Q in H. discriminate.
    + specialize (H (TSpin Pos) (or_introl eq_refl)). cbn in H. rewrite Em in H. destruct XS as [->|Q]; auto. rewrite Q in H. discriminate.
    + intros o Ho. apply In_nth with (d := Pos) in Ho as (i & Hi & <-). apply is_pos_iff.
      assert (Hi' : i < ne) by lia.
      specialize (H (TDart i Pos) (conj Hi' (or_introl eq_refl))). cbn [act] in H.
      destruct (OA i ltac:(lia)) as [->|Q]; auto. rewrite Q in H. injection H as _ H. discriminate.
Qed.

Definition power_id (A : iso) (k : nat) : Prop := forall t, things t -> iter k (act A) t = t.

Lemma iso_period_spec : 1 <= ne -> forall A, good A -> forall left P period, good P ->
  (forall t, things t -> act P t = iter period (act A) t) ->
  match iso_period_loop A left P period with
  | Ok k => period <= k <= period + left /\ power_id A k /\ forall j, period <= j < k -> ~ power_id A j
  | Fail => forall j, period <= j <= period + left -> ~ power_id A j
  | _ => False
  end.
Proof.
  intros Le A GA. induction left as [|left IH]; intros P period GP H; cbn [iso_period_loop];
    destruct (iso_is_e_ok Le P GP) as (b & -> & Hb); cbn [bind]; destruct b.
  - assert (X : power_id A period) by (intros t Ht; rewrite <- H by auto; apply Hb; auto).
    split; [lia|]. split; auto. intros; lia.
  - intros j Hj I. assert (j = period) by lia. subst j. assert (false = true); [|discriminate].
    apply Hb. intros t Ht. rewrite H by auto. apply I; auto.
  - assert (X : power_id A period) by (intros t Ht; rewrite <- H by auto; apply Hb; auto).
    split; [lia|]. split; auto. intros; lia.
  - assert (NE : ~ power_id A period).
    { intros I. assert (false = true); [|discriminate]. apply Hb. intros t Ht. rewrite H by auto. apply I; auto. }
    destruct (stareq_iso_ok P A GP GA) as (Q & Q1 & Q2 & Q3). rewrite Q1. cbn [bind].
    specialize (IH Q (S period) Q2). 
    assert (HH : forall t, things t -> act Q t = iter (S period) (act A) t).
    { intros t Ht. rewrite Q3 by auto. rewrite H by (apply act_things; auto). rewrite iter_succ_r. reflexivity. }
    specialize (IH HH). destruct (iso_period_loop A left Q (S period)) as [k| | |]; try contradiction.
    + destruct IH as (I1 & I2 & I3). split; [lia|]. split; auto.
      intros j Hj. destruct (Nat.eq_dec j period) as [->|K]; auto. apply I3. lia.
    + intros j Hj. destruct (Nat.eq_dec j period) as [->|K]; auto. apply IH. lia.
Qed.
End Counts.
