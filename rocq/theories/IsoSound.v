(** Lemmas for the soundness of the isomorphism search: what pd_iso_consistent checks. *)
From Coq Require Import List ZArith Lia Bool Arith Permutation.
From Verif Require Import Base Iterators PermData Perm PermProofs Pd PdSpec PdProofs PdCompsProofs Cycles Relabel HashSpec OverUnder PdIso IsoSpec IsoOpsProofs DiagIso Thm_IsoOps Thm_Pd.
Import ListNotations.
Open Scope nat_scope.

Lemma assert_ok : forall A (b : bool) (r : res A) x, (if b then r else Fail) = Ok x -> b = true /\ r = Ok x.
Proof. intros A [] r x H; [auto|discriminate]. Qed.

Lemma perm_ok_sound : forall p, pd_perm_ok p = Ok true -> is_perm p.
Proof.
  intros p H. unfold pd_perm_ok in H.
  assert (S : forallb (fun x => x <? pn p) (pmap p) && nodupb (pmap p) = true).
  { destruct (pn p <=? max_pc_perm); [|congruence]. destruct (n_pc_perms (pn p) <? pc_idx p); [discriminate|].
    destruct (pn p =? 0); [congruence|]. destruct (nth_error _ _) as [row|]; [|discriminate]. destruct (list_eqb _ _); congruence. }
  apply andb_true_iff in S as (F & N).
  assert (ND : forall l, nodupb l = true -> NoDup l).
  { induction l as [|x l IH]; cbn; intros K; constructor; apply andb_true_iff in K as (K1 & K2); auto.
    intros I. apply negb_true_iff in K1. assert (existsb (Nat.eqb x) l = true); [|congruence].
    apply existsb_exists. exists x. split; auto. apply Nat.eqb_refl. }
  destruct p as (m, c). apply is_perm_intro; auto. apply Forall_forall. intros x Hx.
  rewrite forallb_forall in F. apply F in Hx. apply Nat.ltb_lt in Hx. exact Hx.
Qed.
Lemma perm_bij : forall p n, is_perm p -> pn p = n -> bij_on n (fun i => nth i (pmap p) 0).
Proof.
  intros p n P E. assert (L : length (pmap p) = n) by (unfold is_perm in P; apply Permutation_length in P; rewrite seq_length in P; lia).
  split.
  - intros i Hi. assert (I : In (nth i (pmap p) 0) (pmap p)) by (apply nth_In; lia).
    apply (Permutation_in _ (Permutation_sym P)) in I. apply in_seq in I. lia.
  - intros i j Hi Hj H. pose proof (is_perm_NoDup p P) as N. rewrite NoDup_nth in N. apply N in H; lia.
Qed.
Lemma gather_map : forall a b m, gather a b = Ok m -> m = map (fun x => nth x a 0) b.
Proof.
  intros a b m H. apply gather_nth in H as (L & H). apply nth_ext with (d := 0) (d' := 0); [rewrite map_length; auto|].
  intros i Hi. rewrite L in Hi. rewrite H by auto. symmetry. rewrite (nth_indep (map _ b) 0 ((fun x => nth x a 0) 0)) by (rewrite map_length; auto).
  apply (map_nth (fun x => nth x a 0)).
Qed.
Lemma get_nth : forall l i x, get l i = Ok x -> i < length l /\ nth i l 0 = x.
Proof.
  intros l i x H. apply get_ok in H. split; [apply nth_error_Some; congruence|apply nth_error_nth; auto].
Qed.
Lemma pos_in_some : forall e l p, pos_in e l = Some p -> nth_error l p = Some e.
Proof.
  induction l as [|x l IH]; intros p H; [discriminate|]. cbn in H. destruct (Nat.eqb_spec x e) as [->|N].
  - injection H as <-. auto.
  - destruct (pos_in e l); [|discriminate]. injection H as <-. cbn. auto.
Qed.
Lemma comp_search_sound : forall e cs k i p, comp_search e k cs = Ok (i, p) ->
  exists j C, i = k + j /\ nth_error cs j = Some C /\ nth_error (cp_edge C) p = Some e.
Proof.
  induction cs as [|c cs IH]; intros k i p H; [discriminate|]. cbn in H. destruct (pos_in e (cp_edge c)) as [q|] eqn:E.
  - injection H as <- <-. exists 0, c. split; [lia|]. split; auto. apply pos_in_some; auto.
  - destruct (IH _ _ _ H) as (j & C & -> & H1 & H2). exists (S j), C. split; [lia|]. auto.
Qed.
Lemma comp_pos_sound : forall d e i p, pd_component_and_pos d e = Ok (i, p) ->
  exists C, nth_error (p_comp d) i = Some C /\ nth_error (cp_edge C) p = Some e.
Proof.
  intros d e i p H. unfold pd_component_and_pos in H. apply assert_ok in H as (_ & H).
  apply comp_search_sound in H as (j & C & -> & H). exists C. auto.
Qed.

(** lists visited in steps of one *)
Lemma rotation_by : forall A (l m : list A) r d, l <> [] -> length m = length l -> r < length l ->
  (forall k, k < length l -> nth k m d = nth ((k + r) mod length l) l d) -> rotation l m.
Proof.
  intros A l m r d NE L Hr H. exists (firstn r l), (skipn r l). split; [symmetry; apply firstn_skipn|].
  assert (NL : length l <> 0) by (destruct l; cbn; congruence).
  assert (FS : forall j, nth j l d = nth j (firstn r l ++ skipn r l) d) by (intros; rewrite firstn_skipn; auto).
  apply nth_ext with (d := d) (d' := d).
  - rewrite app_length, firstn_length, skipn_length. lia.
  - intros k Hk. rewrite L in Hk. rewrite H by auto.
    destruct (le_lt_dec (length l) (k + r)) as [K|K].
    + rewrite app_nth2 by (rewrite skipn_length; lia). rewrite skipn_length.
      replace (k + r) with (k + r - length l + 1 * length l) by lia. rewrite Nat.mod_add, Nat.mod_small by lia.
      replace (k + r - length l) with (k - (length l - r)) by lia.
      rewrite FS. rewrite app_nth1; auto. rewrite firstn_length. lia.
    + rewrite Nat.mod_small by lia. rewrite app_nth1 by (rewrite skipn_length; lia).
      rewrite FS. rewrite (app_nth2 (firstn r l)) by (rewrite firstn_length; lia). f_equal. rewrite firstn_length. lia.
Qed.

Lemma rotation_nth : forall A (l m : list A) d, rotation l m -> l <> [] ->
  length m = length l /\ exists r, r < length l /\ forall k, k < length l -> nth k m d = nth ((k + r) mod length l) l d.
Proof.
  intros A l m d (x & y & -> & ->) NE. rewrite !app_length. split; [lia|].
  assert (NL : length x + length y <> 0) by (destruct x, y; cbn in *; congruence).
  destruct y as [|b y].
  - exists 0. cbn in *. split; [lia|]. intros k Hk. rewrite Nat.add_0_r, app_nil_r, Nat.mod_small by lia. auto.
  - set (Y := b :: y) in *. assert (length Y <> 0) by (cbn; lia). exists (length x). split; [lia|]. intros k Hk.
    destruct (le_lt_dec (length Y) k) as [K|K].
    + rewrite (app_nth2 Y) by lia. replace (k + length x) with (k - length Y + 1 * (length x + length Y)) by lia.
      rewrite Nat.mod_add, Nat.mod_small by lia. rewrite app_nth1 by lia. auto.
    + rewrite app_nth1, Nat.mod_small, app_nth2 by lia. f_equal. lia.
Qed.

Definition cross_fun (i : iso) : nat -> nat := match i_cross i with Some x => fun c => nth c (pmap (om_perm x)) 0 | None => fun c => c end.
Definition edge_fun (i : iso) (e : nat) : nat := nth e (pmap (em_perm (i_edge i))) 0.
Definition comp_fun (i : iso) (c : nat) : nat := nth c (pmap (i_comp i)) 0.
Definition face_fun (i : iso) (f : nat) : nat := nth f (pmap (om_perm (i_face i))) 0.
Definition spin_of (i : iso) : orient := match i_cross i with Some x => om_or x | None => Pos end.
Definition dir_of (A : pd) (i : iso) (c : nat) : orient :=
  match nth_error (p_comp A) c with Some C => nth (hd 0 (cp_edge C)) (em_or (i_edge i)) Pos | None => Pos end.

Lemma cyc_in : forall n (f : nat -> nat) q, 0 < n -> (forall k, k < n -> q k < n) ->
  (forall k, k < n -> q ((k + 1) mod n) = (q k + 1) mod n) -> forall k, k < n -> q k = (k + q 0) mod n.
Proof.
  intros n _ q Hn Hq H. induction k as [|k IH]; intros Hk.
  - cbn [Nat.add]. rewrite Nat.mod_small; auto.
  - pose proof (H k ltac:(lia)) as E. rewrite Nat.mod_small in E by lia. rewrite Nat.add_1_r in E. rewrite E, IH by lia.
    rewrite Nat.add_mod_idemp_l by lia. f_equal. lia.
Qed.
Lemma cyc_back : forall n q, 0 < n -> (forall k, k < n -> q k < n) ->
  (forall k, k < n -> q k = (q ((k + 1) mod n) + 1) mod n) -> forall k, k < n -> n - 1 - q k = (k + (n - 1 - q 0)) mod n.
Proof.
  intros n q Hn Hq H. apply (cyc_in n (fun x => x) (fun k => n - 1 - q k)); auto.
  - intros k Hk. specialize (Hq k Hk). lia.
  - intros k Hk. assert (L : (k + 1) mod n < n) by (apply Nat.mod_upper_bound; lia). pose proof (Hq _ L) as L'.
    rewrite (H k Hk). set (x := q ((k + 1) mod n)) in *. clearbody x. destruct (Nat.eq_dec x (n - 1)) as [E|E].
    + rewrite E. replace (n - 1 + 1) with n by lia. rewrite Nat.mod_same by lia.
      replace (n - 1 - 0 + 1) with n by lia. rewrite Nat.mod_same by lia. lia.
    + rewrite (Nat.mod_small (x + 1)) by lia. rewrite Nat.mod_small by lia. lia.
Qed.

Lemma comp_rotation : forall A B i c CA CB,
  nth_error (p_comp A) c = Some CA -> nth_error (p_comp B) (comp_fun i c) = Some CB ->
  length (cp_edge CA) = length (cp_edge CB) -> (Z.of_nat (length (cp_edge CB)) <= 2 ^ 32)%Z ->
  (forall e, In e (cp_edge CA) -> forall q, pd_component_and_pos B (edge_fun i e) = Ok q -> fst q = comp_fun i c) ->
  comp_order_ok A B (pmap (em_perm (i_edge i))) (em_or (i_edge i)) c = Ok true ->
  sign_like (dir_of A i c) ->
  rotation (turned (dir_of A i c) (cp_edge CB)) (map (edge_fun i) (cp_edge CA)).
Proof.
  intros A B i c CA CB HA HB L W FC H SL. unfold comp_order_ok in H.
  apply bind_ok in H as (CA' & H1 & H). apply get_ok in H1. rewrite HA in H1. injection H1 as <-.
  apply bind_ok in H as (e0 & H1 & H). apply get_ok in H1. apply bind_ok in H as (o & Ho & H). apply get_ok in Ho.
  set (n := length (cp_edge CA)) in *. assert (Hn : 0 < n) by (unfold n; destruct (cp_edge CA); [discriminate|cbn; lia]).
  assert (Eo : dir_of A i c = o).
  { unfold dir_of. rewrite HA. destruct (cp_edge CA) as [|x l]; [discriminate|]. cbn in *. injection H1 as ->.
    apply nth_error_nth; auto. }
  rewrite Eo in *. clear Eo. rewrite all_ok_spec in H.
  set (q := fun k => match pos_in (edge_fun i (nth k (cp_edge CA) 0)) (cp_edge CB) with Some p => p | None => 0 end).
  assert (P : forall k, k < n -> exists p, pd_component_and_pos B (edge_fun i (nth k (cp_edge CA) 0)) = Ok (comp_fun i c, p) /\
    nth_error (cp_edge CB) p = Some (edge_fun i (nth k (cp_edge CA) 0)) /\ p = q k /\ p < n).
  { intros k Hk. specialize (H k ltac:(apply in_seq; lia)).
    apply bind_ok in H as (e1 & G1 & H). apply bind_ok in H as (e2 & G2 & H). apply bind_ok in H as (a1 & G3 & H).
    apply bind_ok in H as (a2 & G4 & H). apply bind_ok in H as (q1 & G5 & H).
    apply get_nth in G1 as (_ & G1). apply get_nth in G3 as (_ & G3). rewrite <- G1 in G3. fold (edge_fun i (nth k (cp_edge CA) 0)) in G3.
    rewrite <- G3 in G5. assert (F : fst q1 = comp_fun i c) by (apply (FC (nth k (cp_edge CA) 0)); auto; apply nth_In; auto).
    destruct q1 as (j, p). cbn in F. subst j. exists p. split; auto. pose proof G5 as G6. apply comp_pos_sound in G6 as (C & HC & K).
    rewrite HB in HC. injection HC as <-. split; auto. split; [|unfold n in *; rewrite L; apply nth_error_Some; congruence].
    unfold pd_component_and_pos in G5. apply assert_ok in G5 as (_ & G5).
    assert (forall cs k0, comp_search (edge_fun i (nth k (cp_edge CA) 0)) k0 cs = Ok (comp_fun i c, p) -> nth_error cs (comp_fun i c - k0) = Some CB -> 
       k0 <= comp_fun i c -> pos_in (edge_fun i (nth k (cp_edge CA) 0)) (cp_edge CB) = Some p) as Z.
    { clear. induction cs as [|x cs IH]; intros k0 H N Le; [discriminate|]. cbn in H. destruct (pos_in _ (cp_edge x)) as [p'|] eqn:E.
      - injection H as E1 <-. rewrite E1, Nat.sub_diag in N. cbn in N. injection N as <-. auto.
      - pose proof (comp_search_sound _ _ _ _ _ H) as (j & C & E1 & _). apply (IH (S k0)); auto; [|lia].
        replace (comp_fun i c - k0) with (S (comp_fun i c - S k0)) in N by lia. exact N. }
    unfold q. rewrite (Z _ 0 G5); [auto| |lia]. rewrite Nat.sub_0_r. auto. }
  assert (ST : forall k, k < n -> match o with Pos => q ((k + 1) mod n) = (q k + 1) mod n | _ => q k = (q ((k + 1) mod n) + 1) mod n end).
  { intros k Hk. assert (Hk' : (k + 1) mod n < n) by (apply Nat.mod_upper_bound; lia).
    destruct (P k Hk) as (p1 & P1 & P2 & P3 & P4). destruct (P _ Hk') as (p2 & Q1 & Q2 & Q3 & Q4).
    specialize (H k ltac:(apply in_seq; lia)).
    apply bind_ok in H as (e1 & G1 & H). apply bind_ok in H as (e2 & G2 & H). apply bind_ok in H as (a1 & G3 & H).
    apply bind_ok in H as (a2 & G4 & H). apply bind_ok in H as (q1 & G5 & H). apply bind_ok in H as (q2 & G6 & H).
    apply assert_ok in H as (_ & H). apply bind_ok in H as (C & G7 & H). apply get_ok in G7.
    apply get_nth in G1 as (_ & G1). apply get_nth in G3 as (_ & G3). apply get_nth in G2 as (_ & G2). apply get_nth in G4 as (_ & G4).
    rewrite <- G1 in G3. rewrite <- G2 in G4. unfold edge_fun in P1, Q1. rewrite <- G3, P1 in G5. rewrite <- G4, Q1 in G6.
    injection G5 as <-. injection G6 as <-. cbn [fst snd] in *. rewrite HB in G7. injection G7 as <-.
    destruct (cyclic_order p1 p2 (length (cp_edge CB)) o) as (r & R1 & R2); auto; try lia.
    rewrite H in R1. injection R1 as <-. rewrite <- P3, <- Q3. rewrite <- L in R2. apply R2; auto. }
  assert (NB : cp_edge CB <> []) by (intros E; rewrite E in L; cbn in L; lia).
  assert (E : forall k, k < n -> nth k (map (edge_fun i) (cp_edge CA)) 0 = nth (q k) (cp_edge CB) 0).
  { intros k Hk. rewrite (nth_indep _ 0 (edge_fun i 0)) by (rewrite map_length; auto). rewrite map_nth.
    destruct (P k Hk) as (p & _ & P2 & -> & _). symmetry. apply nth_error_nth; auto. }
  destruct SL as [->| ->]; cbn [turned].
  - apply (rotation_by _ _ _ (q 0) 0); auto; [rewrite map_length; auto| |].
    + rewrite <- L. destruct (P 0 Hn) as (p & _ & _ & -> & K). auto.
    + intros k Hk. rewrite <- L in *. rewrite E by auto. f_equal. apply (cyc_in n (fun x => x)); auto.
      intros j Hj. destruct (P j Hj) as (p & _ & _ & -> & K). auto.
  - apply (rotation_by _ _ _ (n - 1 - q 0) 0).
    + intros X. apply NB. rewrite <- (rev_involutive (cp_edge CB)), X. auto.
    + rewrite map_length, rev_length. auto.
    + rewrite rev_length, <- L. destruct (P 0 Hn) as (p & _ & _ & -> & K). lia.
    + intros k Hk. rewrite rev_length, <- L in *. rewrite E by auto.
      rewrite <- (cyc_back n q Hn); auto; [|intros j Hj; destruct (P j Hj) as (p & _ & _ & -> & K); auto].
      destruct (P k Hk) as (p & _ & _ & -> & K). rewrite rev_nth by lia. f_equal. lia.
Qed.

Lemma comps_disjoint : forall d i j C C' e, pd_ok d = Ok true -> nth_error (p_comp d) i = Some C -> nth_error (p_comp d) j = Some C' ->
  In e (cp_edge C) -> In e (cp_edge C') -> i = j.
Proof.
  intros d i j C C' e H HC HC' Ie Ie'. assert (ND : NoDup (concat (map cp_edge (p_comp d)))).
  { unfold pd_ok in H. rewrite !and_ok_true in H. destruct H as (H1 & H2 & H3 & H4). destruct (Nat.eqb_spec (ncross d) 0) as [Z|Z].
    - unfold pd_comps_ok in H4. destruct (_ <? _); [discriminate|]. rewrite Z in H4. cbn [Nat.eqb] in H4.
      destruct (p_comp d) as [|c [|]]; try discriminate. destruct (cp_edge c) as [|[|] [|]] eqn:E; try discriminate.
      cbn. rewrite E. repeat constructor; cbn; tauto.
    - apply edges_ok_spec in H2 as (R & _); [|lia]. apply comps_ok_spec in H4; auto; [|lia]. destruct H4 as (_ & -> & _). apply seq_NoDup. }
  apply (blocks_disjoint (map cp_edge (p_comp d)) i j (cp_edge C) (cp_edge C') e); auto; apply map_nth_error; auto.
Qed.
Lemma edgefun_get : forall i e x, get (pmap (em_perm (i_edge i))) e = Ok x -> x = edge_fun i e.
Proof. intros i e x H. apply get_nth in H as (_ & <-). reflexivity. Qed.

Record valid_iso (A B : pd) (i : iso) : Prop := {
  vi_iso : isomorphism A B (cross_fun i) (edge_fun i) (comp_fun i) (face_fun i) (spin_of i) (om_or (i_face i)) (dir_of A i);
  vi_dir : forall c C e, nth_error (p_comp A) c = Some C -> In e (cp_edge C) -> nth_error (em_or (i_edge i)) e = Some (dir_of A i c);
  vi_sign : forall c, c < ncomps A -> sign_like (dir_of A i c) }.

Lemma consistent_sound : forall A B i, pd_iso_consistent A B i = Ok true ->
  (forall C, In C (p_comp B) -> Z.of_nat (length (cp_edge C)) <= 2 ^ 32)%Z -> valid_iso A B i.
Proof.
  intros A B i H W. unfold pd_iso_consistent in H.
  apply bind_ok in H as (a & HA & H). apply assert_ok in H as (-> & H).
  apply bind_ok in H as (b & HB & H). apply assert_ok in H as (-> & H).
  apply bind_ok in H as (k & HI & H). destruct k; [|discriminate]. cbn [negb] in H.
  apply assert_ok in H as (E1 & H). apply Nat.eqb_eq in E1.
  apply bind_ok in H as (n & HN & H). destruct n; [|discriminate]. cbn [negb] in H.
  apply assert_ok in H as (E2 & H). apply Nat.eqb_eq in E2.
  destruct (Nat.eqb_spec (nedges A) (pn (em_perm (i_edge i)))) as [E3|]; [|discriminate]. cbn [negb] in H.
  apply assert_ok in H as (E4 & H). apply Nat.eqb_eq in E4.
  destruct (Nat.eqb_spec (nfaces A) (pn (om_perm (i_face i)))) as [E5|]; [|discriminate]. cbn [negb] in H.
  apply assert_ok in H as (E6 & H). apply Nat.eqb_eq in E6.
  destruct (Nat.eqb_spec (ncomps A) (pn (i_comp i))) as [E7|]; [|discriminate]. cbn [negb] in H.
  cbv zeta in H. rewrite !and_ok_true in H. destruct H as (H1 & H2 & H3 & H4 & H5 & H6 & H7).
  unfold pd_iso_ok in HI. rewrite !and_ok_true in HI. destruct HI as (I1 & I2 & I3 & I4).
  apply perm_ok_sound in I1. unfold pd_edgemap_ok in I2. apply bind_ok in I2 as (b & I2 & I2'). injection I2' as I2'.
  apply andb_true_iff in I2' as (-> & I5). apply perm_ok_sound in I2. unfold pd_ormap_ok in I4. apply perm_ok_sound in I4.
  rewrite all_ok_spec in *.
  assert (OR : forall e o, nth_error (em_or (i_edge i)) e = Some o -> sign_like o).
  { intros e o Ho. apply nth_error_In in Ho. rewrite forallb_forall in I5. apply I5 in Ho. unfold sign_like. destruct o; auto; discriminate. }
  assert (DIR : forall c C, nth_error (p_comp A) c = Some C ->
    (forall e, In e (cp_edge C) -> nth_error (em_or (i_edge i)) e = Some (dir_of A i c)) /\ sign_like (dir_of A i c)).
  { intros c C HC. assert (Hc : c < ncomps A) by (apply nth_error_Some; congruence).
    specialize (H3 c ltac:(apply in_seq; lia)). unfold comp_or_ok in H3.
    apply bind_ok in H3 as (C' & G1 & H3). apply get_ok in G1. rewrite HC in G1. injection G1 as <-.
    apply bind_ok in H3 as (e0 & G1 & H3). apply get_ok in G1. apply bind_ok in H3 as (o & G2 & H3). apply get_ok in G2.
    assert (ED : dir_of A i c = o).
    { unfold dir_of. rewrite HC. destruct (cp_edge C) as [|x l]; [discriminate|]. cbn in *. injection G1 as ->. apply nth_error_nth; auto. }
    rewrite ED. split; [|eapply OR; eauto]. intros e Ie. apply In_nth_error in Ie as (k & Hk).
    destruct k as [|k]; [congruence|]. rewrite all_ok_spec in H3. specialize (H3 (S k)).
    rewrite in_seq in H3. assert (S k < length (cp_edge C)) by (apply nth_error_Some; congruence).
    specialize (H3 ltac:(lia)). apply bind_ok in H3 as (e' & G3 & H3). apply get_ok in G3. rewrite Hk in G3. injection G3 as <-.
    apply bind_ok in H3 as (o' & G4 & H3). apply get_ok in G4. rewrite G4. injection H3 as H3. f_equal.
    destruct o, o'; auto; discriminate. }
  constructor.
  - constructor; auto.
    + constructor; auto.
      * unfold cross_fun. destruct (i_cross i) as [x|] eqn:EX; [|split; auto].
        destruct (Nat.eqb_spec (ncross A) 0) as [Z|Z]; [rewrite Z; split; intros; lia|]. injection HN as HN. apply Nat.eqb_eq in HN.
        unfold pd_crossmap_ok, pd_ormap_ok in I3. apply perm_ok_sound in I3. apply perm_bij; auto.
      * apply perm_bij; auto.
      * intros c x Hx. assert (Hc : c < ncross A) by (apply nth_error_Some; congruence).
        unfold cross_fun, spin_of. destruct (i_cross i) as [m|]; [|destruct (Nat.eqb_spec (ncross A) 0); [lia|discriminate]].
        rewrite all_ok_spec in H5. specialize (H5 c ltac:(apply in_seq; lia)). unfold cross_pair_ok in H5.
        apply bind_ok in H5 as (x' & G1 & H5). apply get_ok in G1. rewrite Hx in G1. injection G1 as <-.
        apply bind_ok in H5 as (es & G2 & H5). apply gather_map in G2. fold (edge_fun i) in G2.
        apply bind_ok in H5 as (c' & G3 & H5). apply get_nth in G3 as (_ & G3).
        apply bind_ok in H5 as (y & G4 & H5). apply get_ok in G4. rewrite G3. exists y. split; auto. injection H5 as H5.
        subst es. change 4 with (length (map (fun x => nth x (pmap (em_perm (i_edge i))) 0) (cross_edges x))) in H5.
        assert (Q : rotation (match om_or m with Pos => cross_edges y | _ => rev (cross_edges y) end) (map (fun x => nth x (pmap (em_perm (i_edge i))) 0) (cross_edges x))).
        { destruct (om_or m) eqn:EO; [apply cyclic_comparison in H5; auto; [apply H5|left; auto]|apply cyclic_comparison in H5; auto; [apply H5|right; auto]|].
          apply (cyclic_comparison _ _ Neg) in H5; auto; [apply H5|right; auto]. }
        unfold turned. destruct (om_or m); exact Q.
    + apply perm_bij; auto.
    + intros c C HC. assert (Hc : c < ncomps A) by (apply nth_error_Some; congruence).
      specialize (H1 c ltac:(apply in_seq; lia)). unfold comp_size_ok in H1.
      apply bind_ok in H1 as (C0 & G1 & H1). apply get_ok in G1. rewrite HC in G1. injection G1 as <-.
      apply bind_ok in H1 as (tc & G1 & H1). apply get_nth in G1 as (_ & G1).
      apply bind_ok in H1 as (C' & G2 & H1). apply get_ok in G2. injection H1 as H1. apply Nat.eqb_eq in H1.
      unfold comp_fun at 1. rewrite G1. exists C'. split; auto. apply (comp_rotation A B i c); auto.
      * unfold comp_fun. congruence.
      * apply W. eapply nth_error_In; eauto.
      * intros e Ie q Hq. assert (Le : e < nedges A).
        { specialize (H4 c ltac:(apply in_seq; lia)). unfold comp_order_ok in H4.
          apply bind_ok in H4 as (C0 & G3 & H4). apply get_ok in G3. rewrite HC in G3. injection G3 as <-.
          apply bind_ok in H4 as (e0 & _ & H4). apply bind_ok in H4 as (o & _ & H4). rewrite all_ok_spec in H4.
          apply In_nth_error in Ie as (k & Hk). assert (k < length (cp_edge C)) by (apply nth_error_Some; congruence).
          specialize (H4 k ltac:(apply in_seq; lia)). apply bind_ok in H4 as (e1 & G3 & H4). apply get_ok in G3. rewrite Hk in G3. injection G3 as <-.
          apply bind_ok in H4 as (e2 & _ & H4). apply bind_ok in H4 as (a1 & G4 & _). apply get_nth in G4 as (G4 & _). rewrite E3. exact G4. }
        specialize (H2 e ltac:(apply in_seq; lia)). unfold edge_comp_ok in H2.
        apply bind_ok in H2 as ((ca, pa) & G3 & H2). apply bind_ok in H2 as (e' & G4 & H2). apply edgefun_get in G4. subst e'.
        rewrite Hq in H2. cbn [bind] in H2. apply bind_ok in H2 as (tc' & G5 & H2). injection H2 as H2. apply Nat.eqb_eq in H2.
        apply comp_pos_sound in G3 as (C2 & HC2 & G3). cbn [fst] in G5. apply get_nth in G5 as (_ & G5).
        assert (ca = c) by (eapply (comps_disjoint A ca c C2 C e); eauto; eapply nth_error_In; eauto). subst ca.
        rewrite H2, <- G5. reflexivity.
      * apply H4. apply in_seq. lia.
      * eapply DIR; eauto.
    + apply perm_bij; auto.
    + intros f F HF. assert (Hf : f < nfaces A) by (apply nth_error_Some; congruence).
      specialize (H6 f ltac:(apply in_seq; lia)). specialize (H7 f ltac:(apply in_seq; lia)).
      unfold face_pair_ok in H7. apply bind_ok in H7 as (F0 & G1 & H7). apply get_ok in G1. rewrite HF in G1. injection G1 as <-.
      apply bind_ok in H7 as (es & G2 & H7). apply gather_map in G2.
      apply bind_ok in H7 as (f' & G3 & H7). apply get_nth in G3 as (_ & G3).
      apply bind_ok in H7 as (F' & G4 & H7). apply get_ok in G4. apply assert_ok in H7 as (L & H7). apply Nat.eqb_eq in L.
      unfold face_fun. rewrite G3. exists F'. split; auto. injection H7 as H7. subst es.
      rewrite <- L in H7. replace (length F) with (length (map (fun x => nth x (pmap (em_perm (i_edge i))) 0) (map fst F))) in H7 by (rewrite !map_length; auto).
      assert (LL : length (map (fun x => nth x (pmap (em_perm (i_edge i))) 0) (map fst F)) = length (map fst F')) by (rewrite !map_length; auto).
      assert (Q : rotation (match om_or (i_face i) with Pos => map fst F' | _ => rev (map fst F') end) (map (fun x => nth x (pmap (em_perm (i_edge i))) 0) (map fst F))).
      { destruct (om_or (i_face i)) eqn:EO; [apply cyclic_comparison in H7; auto; [apply H7|left; auto]|apply cyclic_comparison in H7; auto; [apply H7|right; auto]|].
        apply (cyclic_comparison _ _ Neg) in H7; auto; [apply H7|right; auto]. }
      unfold turned. destruct (om_or (i_face i)); exact Q.
  - intros c C e HC Ie. apply (proj1 (DIR c C HC)); auto.
  - intros c Hc. destruct (nth_error (p_comp A) c) as [C|] eqn:HC; [|apply nth_error_None in HC; unfold ncomps in Hc; lia].
    apply (DIR c C HC).
Qed.

Lemma add_isos_in : forall A B early cp em l r i, add_isos A B early cp em l = Ok r -> In i r -> pd_iso_consistent A B i = Ok true.
Proof.
  induction l as [|(x, f) l IH]; intros r i H I; cbn [add_isos] in H; [injection H as <-; destruct I|].
  apply bind_ok in H as (b & H1 & H). apply assert_ok in H as (-> & H). destruct early.
  - injection H as <-. destruct I as [<-|[]]. auto.
  - apply bind_ok in H as (r' & H2 & H). injection H as <-. destruct I as [<-|I]; auto. eapply IH; eauto.
Qed.
Lemma search_in : forall T early (f : T -> res (list iso)) l r i, search early f l = Ok r -> In i r ->
  exists x a, In x l /\ f x = Ok a /\ In i a.
Proof.
  induction l as [|x l IH]; intros r i H I; cbn [search] in H; [injection H as <-; destruct I|].
  apply bind_ok in H as (a & H1 & H). destruct (early && _).
  - injection H as <-. exists x, a. cbn. auto.
  - apply bind_ok in H as (r' & H2 & H). injection H as <-. apply in_app_or in I as [I|I].
    + exists x, a. cbn. auto.
    + destruct (IH _ _ H2 I) as (y & b & Y & Hy & Ib). exists y, b. cbn. auto.
Qed.
Lemma build_isos_in : forall keep early A B l i, build_isos keep early A B = Ok l -> In i l -> pd_iso_consistent A B i = Ok true.
Proof.
  intros keep early A B l i H I. unfold build_isos in H. destruct (negb _); [injection H as <-; destruct I|].
  apply bind_ok in H as ([grps|] & _ & H); [|injection H as <-; destruct I].
  apply bind_ok in H as (cps & _ & H). apply bind_ok in H as (cps' & _ & H). apply bind_ok in H as (r & H & HC).
  assert (I' : In i r).
  { unfold collect in HC. destruct r; [injection HC as <-; auto|]. apply bind_ok in HC as (u & _ & HC). apply assert_ok in HC as (_ & HC).
    injection HC as <-. apply in_rev; auto. }
  apply search_in with (i := i) in H as (cp & a & _ & H & Ia); auto. unfold from_compperm in H.
  apply bind_ok in H as (ems & _ & H). apply bind_ok in H as (b & _ & H). apply assert_ok in H as (_ & H).
  apply search_in with (i := i) in H as (em & a' & _ & H & Ia'); auto. unfold from_edgemap in H.
  apply bind_ok in H as (xs & _ & H). apply bind_ok in H as (fs & _ & H). apply assert_ok in H as (_ & H).
  apply bind_ok in H as (ks & _ & H). eapply add_isos_in; eauto.
Qed.
