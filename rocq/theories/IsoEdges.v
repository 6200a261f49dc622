(** The edge maps of the isomorphism search. *)
From Coq Require Import List ZArith Lia Bool Arith Permutation Factorial.
From Verif Require Import Base Iterators PermData Perm PermProofs Pd PdSpec PdCross PdIso IsoSpec Relabel HashSpec Strands DiagIso DartMap IsoSound IsoEnum.
From Verif Require Import ListAux.
From Verif Require IteratorsProofs Thm_Iterators PdProofs.
Import ListNotations.
Open Scope nat_scope.
Open Scope res_scope.

Notation dstates := (state_of dihedral pd_ndihedrals (fun o i => IteratorsProofs.dstate (length (dmap o)) i)).

Lemma blocks_disjoint : forall T (L : list (list T)) i j a b x, NoDup (concat L) -> nth_error L i = Some a -> nth_error L j = Some b -> In x a -> In x b -> i = j.
Proof.
  intros T L. induction L as [|c L IH]; intros i j a b x N Hi Hj Ia Ib; [destruct i; discriminate|]. cbn in N.
  destruct i as [|i], j as [|j]; cbn in Hi, Hj; auto.
  - injection Hi as <-. exfalso. apply (NoDup_app_disj _ _ _ N x); auto. apply in_concat. exists b. split; auto. eapply nth_error_In; eauto.
  - injection Hj as <-. exfalso. apply (NoDup_app_disj _ _ _ N x); auto. apply in_concat. exists a. split; auto. eapply nth_error_In; eauto.
  - f_equal. eapply IH; eauto. clear - N. induction c as [|y c IHc]; auto. cbn in N. inversion N; auto.
Qed.
Lemma comp_unique : forall d i j C C' e, sphere d -> nth_error (p_comp d) i = Some C -> nth_error (p_comp d) j = Some C' -> In e (cp_edge C) -> In e (cp_edge C') -> i = j.
Proof.
  intros d i j C C' e SD HC HC' I I'. destruct (sp_comps d SD) as (E & _). apply (blocks_disjoint _ (map cp_edge (p_comp d)) i j (cp_edge C) (cp_edge C') e); auto.
  - rewrite E. apply seq_NoDup.
  - apply map_nth_error; auto.
  - apply map_nth_error; auto.
Qed.
Lemma comp_nonempty : forall d i C, sphere d -> nth_error (p_comp d) i = Some C -> 1 <= length (cp_edge C).
Proof.
  intros d i C SD HC. destruct (sp_comps d SD) as (_ & K & _). destruct (K C (nth_error_In _ _ HC)) as (N & _). destruct (cp_edge C); [congruence|cbn; lia].
Qed.

Lemma edge_in_lt : forall d i C e, sphere d -> nth_error (p_comp d) i = Some C -> In e (cp_edge C) -> e < nedges d.
Proof. intros d. exact (comp_edges_lt d d eq_refl d). Qed.
Lemma edge_comp : forall d e, sphere d -> e < nedges d -> exists i C, nth_error (p_comp d) i = Some C /\ In e (cp_edge C).
Proof. intros d. exact (comp_of_edge d d eq_refl d). Qed.

Lemma map_nth_in : forall (f : nat -> nat) l k, k < length l -> nth k (map f l) 0 = f (nth k l 0).
Proof. intros f l k H. rewrite (nth_indep _ 0 (f 0)) by (rewrite map_length; auto). apply map_nth. Qed.
Lemma turned_nth : forall o (l : list nat) j, j < length l -> nth j (turned o l) 0 = nth (match o with Pos => j | _ => length l - 1 - j end) l 0.
Proof. intros o l j H. destruct o; cbn [turned]; auto; rewrite rev_nth by auto; f_equal; lia. Qed.
Lemma turned_length : forall T o (l : list T), length (turned o l) = length l.
Proof. intros T [] l; cbn; auto using rev_length. Qed.

Lemma in_combine_seq : forall T (l : list T) i x, In (i, x) (combine (seq 0 (length l)) l) <-> nth_error l i = Some x.
Proof.
  intros T l. assert (G : forall s i x, In (i, x) (combine (seq s (length l)) l) <-> s <= i /\ nth_error l (i - s) = Some x).
  { induction l as [|y l IH]; intros s i x; cbn [length seq combine].
    - split; [intros []|]. intros (_ & H). destruct (i - s); discriminate.
    - split.
      + intros [E|I]; [injection E as <- <-; rewrite Nat.sub_diag; auto|]. apply IH in I as (L & E). split; [lia|]. replace (i - s) with (S (i - S s)) by lia. auto.
      + intros (L & E). destruct (Nat.eq_dec i s) as [->|N].
        * rewrite Nat.sub_diag in E. injection E as <-. left. auto.
        * right. apply IH. split; [lia|]. replace (i - s) with (S (i - S s)) in E by lia. auto. }
  intros i x. rewrite G, Nat.sub_0_r. split; [intros (_ & H); auto|]. intros. split; [lia|auto].
Qed.
Lemma combine_seq_split : forall T (l : list T) pre i x post, combine (seq 0 (length l)) l = pre ++ (i, x) :: post -> i = length pre /\ forall j y, In (j, y) pre -> j < i.
Proof.
  intros T l. assert (G : forall s pre i x post, combine (seq s (length l)) l = pre ++ (i, x) :: post -> i = s + length pre /\ forall j y, In (j, y) pre -> j < i).
  { induction l as [|z l IH]; intros s pre i x post E; cbn [length seq combine] in E; [destruct pre; discriminate|].
    destruct pre as [|q pre].
    - injection E as <- <- <-. cbn. split; [lia|intros j y []].
    - injection E as <- E. apply IH in E as (-> & H). cbn [length]. split; [lia|]. intros j y [X|X]; [injection X as <- <-; lia|eauto]. }
  intros. apply (G 0) in H. auto.
Qed.

Section Edges.
Context (A B : pd) (SA : sphere A) (SB : sphere B) (NE : nedges B = nedges A) (NC : ncomps B = ncomps A).
Context (cp : perm) (GC : good_perm (ncomps A) cp).
Let to (i : nat) : nat := nth i (pmap cp) 0.
Context (SZ : forall i CA CB, nth_error (p_comp A) i = Some CA -> nth_error (p_comp B) (to i) = Some CB -> length (cp_edge CB) = length (cp_edge CA)).

Lemma target : forall i CA, nth_error (p_comp A) i = Some CA -> exists CB, nth_error (p_comp B) (to i) = Some CB /\ length (cp_edge CB) = length (cp_edge CA).
Proof.
  intros i CA HA. assert (Hi : i < ncomps A) by (apply nth_error_Some; congruence). destruct (good_perm_bij _ _ GC) as (_ & R & _). specialize (R i Hi). fold (to i) in R.
  destruct (nth_error (p_comp B) (to i)) as [CB|] eqn:HB; [|apply nth_error_None in HB; unfold ncomps in NC, R; lia]. exists CB. split; auto. eapply SZ; eauto.
Qed.

Definition placed (m : list nat) (r : list orient) (i : nat) (dh : dihedral) : Prop := forall CA CB, nth_error (p_comp A) i = Some CA -> nth_error (p_comp B) (to i) = Some CB ->
  forall k, k < length (cp_edge CA) -> nth (nth k (cp_edge CA) 0) m 0 = nth (nth k (dmap dh) 0) (cp_edge CB) 0 /\ nth_error r (nth k (cp_edge CA) 0) = Some (dor dh).

Lemma map_comp_spec : forall m r i dh CA, nth_error (p_comp A) i = Some CA -> length m = nedges A -> length r = nedges A ->
  Permutation (seq 0 (length (cp_edge CA))) (dmap dh) ->
  exists m' r', map_comp A B cp (m, r) (i, dh) = Ok (m', r') /\ length m' = nedges A /\ length r' = nedges A /\ placed m' r' i dh /\
    forall e, ~ In e (cp_edge CA) -> nth e m' 0 = nth e m 0 /\ nth_error r' e = nth_error r e.
Proof.
  intros m r i dh CA HA Lm Lr PD. destruct (target i CA HA) as (CB & HB & LB). assert (Hi : i < ncomps A) by (apply nth_error_Some; congruence).
  destruct (good_perm_bij _ _ GC) as (LC & _ & _).
  assert (LD : length (dmap dh) = length (cp_edge CA)) by (apply Permutation_length in PD; rewrite seq_length in PD; auto).
  assert (RD : forall k, k < length (cp_edge CA) -> nth k (dmap dh) 0 < length (cp_edge CA)).
  { intros k Hk. assert (In (nth k (dmap dh) 0) (seq 0 (length (cp_edge CA)))) as I; [|apply in_seq in I; lia]. eapply Permutation_in; [symmetry; exact PD|]. apply nth_In. lia. }
  pose proof (comp_nodup A i CA SA HA) as ND.
  unfold map_comp. unfold get at 1. rewrite HA. cbn [bind]. rewrite (get_lt _ (pmap cp) i 0) by lia. cbn [bind]. fold (to i). unfold get at 1. rewrite HB. cbn [bind].
  rewrite LB, Nat.eqb_refl.
  match goal with |- exists m' r', fold_ok ?F _ _ = _ /\ _ =>
    destruct (fold_seq _ F (fun j st => length (fst st) = nedges A /\ length (snd st) = nedges A /\
      (forall k, k < j -> nth (nth k (cp_edge CA) 0) (fst st) 0 = nth (nth k (dmap dh) 0) (cp_edge CB) 0 /\ nth_error (snd st) (nth k (cp_edge CA) 0) = Some (dor dh)) /\
      (forall e, (forall k, k < j -> e <> nth k (cp_edge CA) 0) -> nth e (fst st) 0 = nth e m 0 /\ nth_error (snd st) e = nth_error r e)) (length (cp_edge CA)) (m, r))
      as ((m', r') & E & L1 & L2 & K1 & K2) end.
  { cbn [fst snd]. split; auto. split; auto. split; [intros k Hk; lia|auto]. }
  { intros k (m1, r1) Hk (L1 & L2 & K1 & K2). cbn [fst snd] in *. unfold map_edge. rewrite (get_lt _ (cp_edge CA) k 0) by auto. cbn [bind].
    rewrite (get_lt _ (dmap dh) k 0) by lia. cbn [bind]. rewrite (get_lt _ (cp_edge CB) _ 0) by (rewrite LB; auto). cbn [bind fst snd].
    assert (BD : nth k (cp_edge CA) 0 < nedges A) by (apply (edge_in_lt A i CA _ SA HA); apply nth_In; auto).
    rewrite put_lt by lia. cbn [bind]. rewrite put_lt by lia. cbn [bind]. eexists. split; [reflexivity|]. cbn [fst snd]. rewrite !upd_length.
    split; auto. split; auto. split.
    - intros j Hj. destruct (Nat.eq_dec j k) as [->|N].
      + rewrite nth_upd_eq by lia. split; auto. rewrite nth_error_upd, Nat.eqb_refl. destruct (Nat.ltb_spec (nth k (cp_edge CA) 0) (length r1)); [auto|lia].
      + assert (X : nth j (cp_edge CA) 0 <> nth k (cp_edge CA) 0) by (intros X; apply N; apply (NoDup_nth (cp_edge CA) 0); auto; lia).
        rewrite nth_upd_neq by auto. rewrite nth_error_upd. destruct (Nat.eqb_spec (nth k (cp_edge CA) 0) (nth j (cp_edge CA) 0)); [congruence|]. apply K1. lia.
    - intros e He. assert (X : e <> nth k (cp_edge CA) 0) by (apply He; lia). rewrite nth_upd_neq by auto. rewrite nth_error_upd. destruct (Nat.eqb_spec (nth k (cp_edge CA) 0) e); [congruence|].
      apply K2. intros; apply He; lia. }
  exists m', r'. cbn [fst snd] in *. split; auto. split; auto. split; auto. split.
  - intros CA' CB' HA' HB' k Hk. rewrite HA in HA'. injection HA' as <-. rewrite HB in HB'. injection HB' as <-. auto.
  - intros e He. apply K2. intros k Hk ->. apply He, nth_In; auto.
Qed.

Definition good_dihedrals (dhs : list dihedral) : Prop := length dhs = ncomps A /\ forall i CA, nth_error (p_comp A) i = Some CA ->
  exists dh, nth_error dhs i = Some dh /\ dstates (pd_new_dihedral (length (cp_edge CA))) dh.
Lemma good_member : forall dhs i CA dh, good_dihedrals dhs -> nth_error (p_comp A) i = Some CA -> nth_error dhs i = Some dh ->
  dstates (pd_new_dihedral (length (cp_edge CA))) dh.
Proof. intros dhs i CA dh (_ & G) HA HD. destruct (G i CA HA) as (dh' & HD' & S). rewrite HD in HD'. injection HD' as <-. auto. Qed.

Definition of_dihedrals (dhs : list dihedral) (em : edgemap) : Prop :=
  good_perm (nedges A) (em_perm em) /\ length (em_or em) = nedges A /\ forall i dh, nth_error dhs i = Some dh -> placed (pmap (em_perm em)) (em_or em) i dh.

Lemma make_spec : forall dhs, good_dihedrals dhs -> exists em, make_edgemap A B cp dhs = Ok em /\ of_dihedrals dhs em.
Proof.
  intros dhs GD. unfold make_edgemap. cbn [em_perm em_or pd_new_edgemap pd_new_perm pmap].
  assert (IC : forall i dh, nth_error dhs i = Some dh -> exists CA, nth_error (p_comp A) i = Some CA).
  { intros i dh H. assert (L : i < length dhs) by (apply nth_error_Some; congruence). destruct GD as (L' & _). rewrite L' in L.
    destruct (nth_error (p_comp A) i) as [CA|] eqn:HA; eauto. apply nth_error_None in HA. unfold ncomps in L. lia. }
  destruct (fold_inv _ _ (map_comp A B cp) (fun pre st => length (fst st) = nedges A /\ length (snd st) = nedges A /\
     forall i dh, In (i, dh) pre -> placed (fst st) (snd st) i dh) (combine (seq 0 (length dhs)) dhs) (seq 0 (nedges A), repeat Pos (nedges A))) as ((m, r) & E & L1 & L2 & K).
  - cbn [fst snd]. rewrite seq_length, repeat_length. split; auto. split; auto. intros i dh [].
  - intros pre (i, dh) post (m, r) E (L1 & L2 & K). cbn [fst snd] in *.
    assert (I : nth_error dhs i = Some dh) by (apply in_combine_seq; rewrite E; apply in_or_app; cbn; auto).
    destruct (combine_seq_split _ _ _ _ _ _ E) as (_ & LT). destruct (IC i dh I) as (CA & HA).
    pose proof (good_member dhs i CA dh GD HA I) as S. destruct (dihedral_member _ _ (comp_nonempty A i CA SA HA) S) as (_ & PD & _).
    destruct (map_comp_spec m r i dh CA HA L1 L2 PD) as (m' & r' & E' & L1' & L2' & P' & Q'). exists (m', r'). cbn [fst snd].
    split; auto. split; auto. split; auto. intros j dj J. apply in_app_or in J as [J|[J|[]]]; [|injection J as <- <-; auto].
    intros CA' CB' HA' HB' k Hk. destruct (Q' (nth k (cp_edge CA') 0)) as (-> & ->).
    + intros X. assert (j = i); [|specialize (LT j dj J); lia]. eapply (comp_unique A); eauto. apply nth_In; auto.
    + apply (K j dj J CA' CB' HA' HB' k Hk).
  - cbn [fst snd] in *. rewrite E. cbn [bind fst snd].
    assert (K' : forall i dh, nth_error dhs i = Some dh -> placed m r i dh) by (intros i dh H; apply K, in_combine_seq; auto).
    assert (LOC : forall e, e < nedges A -> exists i CA CB dh k, nth_error (p_comp A) i = Some CA /\ nth_error (p_comp B) (to i) = Some CB /\ length (cp_edge CB) = length (cp_edge CA) /\ nth_error dhs i = Some dh /\
      k < length (cp_edge CA) /\ e = nth k (cp_edge CA) 0 /\ nth k (dmap dh) 0 < length (cp_edge CB) /\ length (dmap dh) = length (cp_edge CA) /\ NoDup (dmap dh) /\ nth e m 0 = nth (nth k (dmap dh) 0) (cp_edge CB) 0).
    { intros e He. destruct (edge_comp A e SA He) as (i & CA & HA & I). destruct (target i CA HA) as (CB & HB & LB). destruct (proj2 GD i CA HA) as (dh & HD & S).
      apply In_nth with (d := 0) in I as (k & Hk & <-). destruct (dihedral_member _ _ (comp_nonempty A i CA SA HA) S) as (LD & PD & _).
      exists i, CA, CB, dh, k. repeat split; auto.
      - assert (In (nth k (dmap dh) 0) (seq 0 (length (cp_edge CA)))) as J; [|apply in_seq in J; lia]. eapply Permutation_in; [symmetry; exact PD|]. apply nth_In. lia.
      - eapply Permutation_NoDup; [exact PD|apply seq_NoDup].
      - apply (K' i dh HD CA CB HA HB k Hk). }
    assert (PM : is_perm (mkPerm m 0)).
    { apply is_perm_intro.
      - apply (NoDup_nth m 0). rewrite L1. intros e e' He He' X.
        destruct (LOC e He) as (i & CA & CB & dh & k & HA & HB & LB & HD & Hk & -> & Rk & LD & ND & Ek). destruct (LOC e' He') as (i' & CA' & CB' & dh' & k' & HA' & HB' & LB' & HD' & Hk' & -> & Rk' & LD' & ND' & Ek').
        assert (EI : to i = to i').
        { apply (comp_unique B _ _ CB CB' (nth (nth k (dmap dh) 0) (cp_edge CB) 0)); auto; [apply nth_In; auto|]. rewrite <- Ek, X, Ek'. apply nth_In; auto. }
        apply (good_perm_bij _ _ GC) in EI; [|apply nth_error_Some; congruence|apply nth_error_Some; congruence]. subst i'.
        rewrite HA in HA'. injection HA' as <-. rewrite HB in HB'. injection HB' as <-. rewrite HD in HD'. injection HD' as <-.
        rewrite Ek, Ek' in X. apply (NoDup_nth (cp_edge CB) 0) in X; auto; [|eapply (comp_nodup B); eauto]. apply (NoDup_nth (dmap dh) 0) in X; try lia; auto. congruence.
      - apply Forall_forall. intros v V. rewrite L1. apply In_nth with (d := 0) in V as (e & He & <-). rewrite L1 in He.
        destruct (LOC e He) as (i & CA & CB & dh & k & HA & HB & LB & HD & Hk & -> & Rk & LD & ND & ->). rewrite <- NE. eapply (edge_in_lt B); eauto. apply nth_In; auto. }
    assert (PE : 1 <= length m).
    { rewrite L1. pose proof (sp_some A SA) as S0.
      destruct (nth_error (p_cross A) 0) as [x|] eqn:X; [|apply nth_error_None in X; unfold ncross in S0; lia].
      assert (slot A 0 0 (cedge x 0)) as SL by (split; [lia|eauto]). apply (edges_lt A SA) in SL. lia. }
    destruct (regen_ok m 0 PM PE) as (i & E2 & C & Z). cbn [pc_idx em_perm pd_new_edgemap pd_new_perm]. rewrite E2. cbn [bind]. exists (mkEM (mkPerm m i) r). split; auto.
    split; [constructor; auto|]. split; auto.
Qed.

(** what such an edge map says *)
Definition moves_comps (m : nat -> nat) (r : list orient) (dir : nat -> orient) : Prop := forall i CA, nth_error (p_comp A) i = Some CA ->
  sign_like (dir i) /\ (exists CB, nth_error (p_comp B) (to i) = Some CB /\ rotation (turned (dir i) (cp_edge CB)) (map m (cp_edge CA))) /\
  forall e, In e (cp_edge CA) -> nth_error r e = Some (dir i).

Lemma dihedral_moves : forall dhs em, good_dihedrals dhs -> of_dihedrals dhs em -> exists dir, moves_comps (fun e => nth e (pmap (em_perm em)) 0) (em_or em) dir.
Proof.
  intros dhs em GD (_ & _ & P). exists (fun i => match nth_error dhs i with Some dh => dor dh | None => Pos end). intros i CA HA.
  destruct (proj2 GD i CA HA) as (dh & HD & S). rewrite HD. pose proof (comp_nonempty A i CA SA HA) as NC0.
  destruct (dihedral_member _ _ NC0 S) as (LD & _ & SO & r & Hr & R). destruct (target i CA HA) as (CB & HB & LB). specialize (P i dh HD CA CB HA HB).
  split; auto. split.
  - exists CB. split; auto. apply (rotation_by _ _ _ r 0).
    + intros X. apply (f_equal (@length nat)) in X. rewrite turned_length in X. cbn in X. lia.
    + rewrite map_length, turned_length. auto.
    + rewrite turned_length. lia.
    + rewrite turned_length, LB. intros k Hk. rewrite map_nth_in by auto. destruct (P k Hk) as (-> & _). rewrite R by auto.
      rewrite turned_nth by (rewrite LB; apply Nat.mod_upper_bound; lia). rewrite LB. reflexivity.
  - intros e I. apply In_nth with (d := 0) in I as (k & Hk & <-). apply (P k Hk).
Qed.

Lemma em_same : forall dhs dhs' em em', good_dihedrals dhs -> good_dihedrals dhs' -> of_dihedrals dhs em -> of_dihedrals dhs' em' -> em_key em = em_key em' -> dhs = dhs'.
Proof.
  intros dhs dhs' em em' GD GD' (G & L & P) (G' & L' & P') K.
  destruct (good_perm_bij _ _ G) as (LM & _). destruct (good_perm_bij _ _ G') as (LM' & _).
  unfold em_key in K. assert (K1 : pmap (em_perm em) = pmap (em_perm em') /\ map or_key (em_or em) = map or_key (em_or em')).
  { clear - K LM LM'. revert K LM'. rewrite <- LM. generalize (pmap (em_perm em)) as a, (pmap (em_perm em')) as b. induction a as [|x a IH]; intros [|y b] K L; try discriminate; auto.
    cbn in K. injection K as -> K. destruct (IH b K) as (-> & ->); auto. }
  destruct K1 as (KM & KO). apply nth_error_ext. intros i. destruct (Nat.lt_ge_cases i (ncomps A)) as [Hi|Hi].
  2:{ rewrite (proj2 (nth_error_None dhs i)), (proj2 (nth_error_None dhs' i)); auto; [rewrite (proj1 GD'); auto|rewrite (proj1 GD); auto]. }
  destruct (nth_error (p_comp A) i) as [CA|] eqn:HA; [|apply nth_error_None in HA; unfold ncomps in Hi; lia].
  destruct (proj2 GD i CA HA) as (dh & HD & S). destruct (proj2 GD' i CA HA) as (dh' & HD' & S'). rewrite HD, HD'. f_equal.
  pose proof (comp_nonempty A i CA SA HA) as NC0. destruct (target i CA HA) as (CB & HB & LB). specialize (P i dh HD CA CB HA HB). specialize (P' i dh' HD' CA CB HA HB).
  destruct (dihedral_member _ _ NC0 S) as (LD & PD & SO & _). destruct (dihedral_member _ _ NC0 S') as (LD' & PD' & SO' & _).
  assert (EM : dmap dh = dmap dh').
  { apply nth_ext with (d := 0) (d' := 0); [lia|]. rewrite LD. intros k Hk. destruct (P k Hk) as (E1 & _). destruct (P' k Hk) as (E2 & _). rewrite KM, E2 in E1.
    assert (R : forall m, Permutation (seq 0 (length (cp_edge CA))) m -> length m = length (cp_edge CA) -> nth k m 0 < length (cp_edge CB)).
    { intros m PM L0. assert (In (nth k m 0) (seq 0 (length (cp_edge CA)))) as I; [|apply in_seq in I; lia]. eapply Permutation_in; [symmetry; exact PM|]. apply nth_In. lia. }
    apply (NoDup_nth (cp_edge CB) 0) in E1; auto. eapply (comp_nodup B); eauto. }
  assert (EO : dor dh = dor dh').
  { destruct (P 0 NC0) as (_ & E1). destruct (P' 0 NC0) as (_ & E2). apply (map_nth_error or_key) in E1, E2. rewrite KO, E2 in E1. injection E1 as E1.
    destruct SO as [X|X], SO' as [X'|X']; rewrite X, X' in *; auto; discriminate. }
  destruct dh, dh'. cbn in EM, EO. congruence.
Qed.

Lemma em_all : forall m dir, (forall i CA, nth_error (p_comp A) i = Some CA -> sign_like (dir i) /\
    exists CB, nth_error (p_comp B) (to i) = Some CB /\ rotation (turned (dir i) (cp_edge CB)) (map m (cp_edge CA))) ->
  exists dhs, good_dihedrals dhs /\ forall em, of_dihedrals dhs em -> (forall e, e < nedges A -> nth e (pmap (em_perm em)) 0 = m e) /\
    forall i CA e, nth_error (p_comp A) i = Some CA -> In e (cp_edge CA) -> nth_error (em_or em) e = Some (dir i).
Proof.
  intros m dir H.
  assert (ONE : forall i, i < ncomps A -> exists dh, forall CA CB, nth_error (p_comp A) i = Some CA -> nth_error (p_comp B) (to i) = Some CB ->
    dstates (pd_new_dihedral (length (cp_edge CA))) dh /\ dor dh = dir i /\ forall k, k < length (cp_edge CA) -> m (nth k (cp_edge CA) 0) = nth (nth k (dmap dh) 0) (cp_edge CB) 0).
  { intros i Hi. destruct (nth_error (p_comp A) i) as [CA|] eqn:HA; [|apply nth_error_None in HA; unfold ncomps in Hi; lia].
    destruct (H i CA HA) as (SO & CB & HB & Ro). destruct (target i CA HA) as (CB' & HB' & LB). rewrite HB in HB'. injection HB' as <-.
    pose proof (comp_nonempty A i CA SA HA) as NC0.
    destruct (rotation_nth _ _ _ 0 Ro) as (_ & r & Hr & R); [intros X; apply (f_equal (@length nat)) in X; rewrite turned_length in X; cbn in X; lia|].
    rewrite turned_length, LB in Hr, R. destruct (dihedral_all (length (cp_edge CA)) r (dir i) Hr SO) as (dh & S & EO & LD & K).
    exists dh. intros CA' CB' E1 E2. injection E1 as <-. rewrite HB in E2. injection E2 as <-. split; auto. split; auto.
    intros k Hk. rewrite <- map_nth_in by auto. rewrite R, K by auto. rewrite turned_nth by (rewrite LB; apply Nat.mod_upper_bound; lia). rewrite LB. reflexivity. }
  assert (exists dhs, length dhs = ncomps A /\ forall i, i < ncomps A -> exists dh, nth_error dhs i = Some dh /\ forall CA CB, nth_error (p_comp A) i = Some CA -> nth_error (p_comp B) (to i) = Some CB ->
    dstates (pd_new_dihedral (length (cp_edge CA))) dh /\ dor dh = dir i /\ forall k, k < length (cp_edge CA) -> m (nth k (cp_edge CA) 0) = nth (nth k (dmap dh) 0) (cp_edge CB) 0) as (dhs & LD & K).
  { revert ONE. generalize (ncomps A) as n. induction n as [|n IH]; intros ONE; [exists []; split; auto; intros; lia|].
    destruct IH as (dhs & L & K); [intros; apply ONE; lia|]. destruct (ONE n) as (dh & Kn); [lia|]. exists (dhs ++ [dh]). rewrite app_length. cbn [length]. split; [lia|].
    intros i Hi. destruct (Nat.eq_dec i n) as [->|N].
    - exists dh. rewrite nth_error_app2 by lia. rewrite L, Nat.sub_diag. auto.
    - destruct (K i) as (d & Hd & Kd); [lia|]. exists d. rewrite nth_error_app1 by lia. auto. }
  assert (GD : good_dihedrals dhs).
  { split; auto. intros i CA HA. destruct (target i CA HA) as (CB & HB & _). destruct (K i) as (dh & HD & Kd); [apply nth_error_Some; congruence|]. exists dh. split; auto. eapply Kd; eauto. }
  exists dhs. split; auto. intros em (_ & _ & P). split.
  - intros e He. destruct (edge_comp A e SA He) as (i & CA & HA & I). destruct (target i CA HA) as (CB & HB & _).
    destruct (K i) as (dh & HD & Kd); [apply nth_error_Some; congruence|]. destruct (Kd CA CB HA HB) as (_ & _ & Km).
    apply In_nth with (d := 0) in I as (k & Hk & <-). rewrite Km by auto. apply (P i dh HD CA CB HA HB k Hk).
  - intros i CA e HA I. destruct (target i CA HA) as (CB & HB & _).
    destruct (K i) as (dh & HD & Kd); [apply nth_error_Some; congruence|]. destruct (Kd CA CB HA HB) as (_ & <- & _).
    apply In_nth with (d := 0) in I as (k & Hk & <-). apply (P i dh HD CA CB HA HB k Hk).
Qed.

(** ** All edge maps for one component permutation *)
Context (WE : (Z.of_nat (Thm_Iterators.product (map (fun n : nat => (2 * n)%nat) (comp_sizes A))) < 2 ^ 32)%Z).

Record good_em (em : edgemap) : Prop := {
  ge_perm : good_perm (nedges A) (em_perm em);
  ge_or : length (em_or em) = nedges A;
  ge_moves : exists dir, moves_comps (fun e => nth e (pmap (em_perm em)) 0) (em_or em) dir }.

Theorem edgemaps_spec : exists l, pd_build_edgemaps A B cp = Ok l /\ pd_edgemaps_ok l = Ok true /\ NoDup (map em_key l) /\
  (forall em, In em l -> good_em em) /\
  (forall m dir, (forall i CA, nth_error (p_comp A) i = Some CA -> sign_like (dir i) /\
      exists CB, nth_error (p_comp B) (to i) = Some CB /\ rotation (turned (dir i) (cp_edge CB)) (map m (cp_edge CA))) ->
    exists em, In em l /\ (forall e, e < nedges A -> nth e (pmap (em_perm em)) 0 = m e) /\
      forall i CA e, nth_error (p_comp A) i = Some CA -> In e (cp_edge CA) -> nth_error (em_or em) e = Some (dir i)).
Proof.
  assert (NV : forall n, pd_ndihedrals (pd_new_dihedral n) = 2 * n) by (intros n; unfold pd_ndihedrals; cbn; rewrite seq_length; lia).
  destruct (all_states_spec dihedral pd_increment_dihedral pd_ndihedrals (fun o i => IteratorsProofs.dstate (length (dmap o)) i) (map pd_new_dihedral (comp_sizes A))) as (sts & E & ND & NEm & ALL).
  - apply Forall_forall. intros o I. apply in_map_iff in I as (n & <- & I). apply in_map_iff in I as (C & <- & I). apply In_nth_error in I as (i & Hi).
    apply dihedral_turns. eapply (comp_nonempty A); eauto.
  - rewrite map_map. erewrite map_ext; [exact WE|]. auto.
  - assert (ALL' : forall v, In v sts <-> good_dihedrals v).
    { intros v. rewrite ALL. unfold comp_sizes. rewrite map_map, forall2_map. unfold good_dihedrals, ncomps. clear.
      revert v. induction (p_comp A) as [|C cs IH]; intros v; split.
      - intros H. inversion H; subst. split; auto. intros i CA X. destruct i; discriminate.
      - intros (L & _). destruct v; [constructor|discriminate].
      - intros H. inversion H as [|? dh ? w S F]; subst. apply IH in F as (L & K). split; [cbn; auto|]. intros i CA X. destruct i as [|i]; cbn in *; [injection X as <-; eauto|eauto].
      - intros (L & K). destruct v as [|dh v]; [discriminate|]. constructor.
        + destruct (K 0 C eq_refl) as (dh' & X & S). injection X as <-. auto.
        + apply IH. split; [cbn in L; lia|]. intros i CA X. apply (K (S i) CA X). }
    destruct (map_ok_ex _ _ (make_edgemap A B cp) of_dihedrals sts) as (l & EL & F).
    { intros dhs I. apply make_spec, ALL'; auto. }
    assert (ND' : NoDup (map em_key l)).
    { eapply forall2_nodup; eauto. intros x y u v Ix Iy Hx Hy Ek. eapply em_same; eauto; apply ALL'; auto. }
    assert (NL : l <> []) by (intros ->; inversion F; subst; congruence).
    assert (GD : forall em, In em l -> good_em em).
    { intros em I. destruct (forall2_in_r _ _ _ _ _ _ F I) as (dhs & Id & H). constructor; [apply H|apply H|]. eapply dihedral_moves; eauto. apply ALL'; auto. }
    exists l. split; [|split; [|split; [auto|split; [exact GD|]]]].
    + unfold pd_build_edgemaps. rewrite NC, NE, (gp_n _ _ GC), !Nat.eqb_refl. cbn [andb]. rewrite E. cbn [bind]. auto.
    + unfold pd_edgemaps_ok. apply PdProofs.and_ok_true. split; [|apply unique_true; auto]. apply PdProofs.all_ok_spec. intros em I. destruct (GD em I) as [G L (dir & M)].
      unfold pd_edgemap_ok. rewrite (good_perm_ok (nedges A)); auto.
      * cbn [bind andb]. f_equal. apply forallb_forall. intros o Io. apply In_nth_error in Io as (e & He). assert (e < nedges A) as Le by (rewrite <- L; apply nth_error_Some; congruence).
        destruct (edge_comp A e SA Le) as (i & CA & HA & Ie). destruct (M i CA HA) as (SO & _ & K). rewrite (K e Ie) in He. injection He as <-. destruct SO as [->| ->]; reflexivity.
      * pose proof (sp_some A SA) as S0. destruct (nth_error (p_cross A) 0) as [x|] eqn:X; [|apply nth_error_None in X; unfold ncross in S0; lia].
        assert (slot A 0 0 (cedge x 0)) as SL by (split; [lia|eauto]). apply (edges_lt A SA) in SL. lia.
    + intros m dir H. destruct (em_all m dir H) as (dhs & G & K). destruct (forall2_in_l _ _ _ _ _ dhs F) as (em & I & P); [apply ALL'; auto|]. exists em. split; auto.
Qed.
End Edges.
