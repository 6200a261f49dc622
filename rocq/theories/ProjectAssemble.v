(** From lists of crossings to diagrams: the whole assembly. *)
From Coq Require Import List NArith ZArith QArith Qabs Lia Lqa Bool Arith Permutation Sorted.
From Verif Require Import Base ListAux Iterators Sorting Pd PdSpec PdProofs Relabel RelabelProofs RelabelSym Strands OverUnderSpec SlotCount PdCross PdCrossProofs PdEdges PdComps PdFaces PdHash HashSpec PdRegen RegenSpec RegenProofs
  Thm_Pd Thm_Cross Thm_Edges Thm_Comps Thm_Faces Thm_Hash Thm_Regen Build Nearest Thm_Nearest Project ProjectSpec ProjectProofs ProjectDraw.
Import ListNotations.
Open Scope nat_scope.
Open Scope res_scope.

Lemma regenerate_back : forall d d', 0 < ncross d -> ncross d <= p_maxv d ->
  pd_edges_ok d = Ok true -> two_ended d -> signed d -> pd_regenerate d = Ok d' ->
  exists sigma rho pi L, relabelled d d' sigma rho pi /\ regular d' /\ strand_partition d L /\ ncomps d' = length L /\ planar d /\ length L <= MAXCOMPONENTS d.
Proof.
  intros d d' Hn Hm HE T Sg E. pose proof (proj1 (edges_ok_spec d Hn) HE) as (R & G).
  destruct (regenerate_spec d (recorded_in_range d R)) as (d1 & num & E1 & Ed & _ & _ & _ & RL & S1).
  pose proof (rl_ncross _ _ _ _ _ RL) as N1. pose proof (rl_ends_recorded _ _ _ _ _ RL R) as R1.
  pose proof (rl_two_ended _ _ _ _ _ RL R T) as T1. pose proof (rl_goes_through _ _ _ _ _ RL R G) as G1.
  assert (HE1 : pd_edges_ok d1 = Ok true) by (apply edges_ok_spec; auto; lia).
  assert (M1 : p_maxv d1 = p_maxv d) by (rewrite Ed; reflexivity).
  assert (Sg1 : signed d1) by (eapply relabelled_signed; eauto).
  pose proof E as E0. unfold pd_regenerate in E. rewrite E1 in E. cbn [bind] in E. unfold regenerate_edges_if_needed in E.
  rewrite signed_not_unset, HE1 in E by auto. cbn [bind] in E. change (regenerate_rest d1 = Ok d') in E.
  destruct (rest_inv d1 d') as (P & L & HL & LL); auto; try lia.
  destruct (rl_sym _ _ _ _ _ R T RL) as (s' & r' & q' & RS).
  assert (PD : planar d) by (eapply (relabelled_planar d1 d); eauto).
  assert (SP : strand_partition d (map (map q') L)) by (eapply relabelled_strand_partition; eauto).
  destruct (regenerate_signed d (map (map q') L)) as (x & sigma & rho & pi & Ex & RLx & Rg & Nc & _); auto.
  { rewrite map_length. unfold MAXCOMPONENTS in *. rewrite <- M1. auto. }
  rewrite E0 in Ex. apply ok_inj in Ex. subst x. exists sigma, rho, pi, (map (map q') L). split; [auto|]. split; [auto|]. split; [auto|]. split; [auto|]. split; [auto|]. rewrite map_length. unfold MAXCOMPONENTS in *. rewrite <- M1. auto.
Qed.

Lemma filter_length_map : forall {A B} (f : B -> A) (p : A -> bool) (l : list B), length (filter p (map f l)) = length (filter (fun x => p (f x)) l).
Proof. intros A B f p. induction l as [|a l IH]; cbn; auto. destruct (p (f a)); cbn; auto. Qed.
Lemma refs_length : forall cs c, length (refs_of cs c) = refs_size cs c.
Proof.
  intros cs c. unfold refs_of, refs_size.
  assert (K : forall i, length (flat_map (fun ix => (if lower_cmp (snd ix) =? c then [(fst ix, lower_s (snd ix))] else []) ++ (if upper_cmp (snd ix) =? c then [(fst ix, upper_s (snd ix))] else [])) (numbered i cs)) =
    length (filter (fun x => lower_cmp x =? c) cs) + length (filter (fun x => upper_cmp x =? c) cs)); [|exact (K 0)].
  induction cs as [|x cs IH]; intros i; [reflexivity|]. cbn [numbered flat_map filter fst snd]. rewrite app_length, IH. destruct (lower_cmp x =? c), (upper_cmp x =? c); cbn [app length]; lia.
Qed.
Lemma refs_none : forall cs c, refs_size cs c = 0 <-> ~ exists v, passage cs v /\ xs_cmp v = c.
Proof.
  intros cs c. rewrite <- refs_length, refs_strands, map_length. split.
  - intros H (v & P & E). apply length_zero_iff_nil in H. assert (I : In v (filter (on c) (strands_of cs))) by (apply filter_In; split; [apply in_strands; auto|unfold on; apply Nat.eqb_eq; auto]). rewrite H in I. destruct I.
  - intros H. destruct (filter (on c) (strands_of cs)) as [|v l] eqn:Q; auto. exfalso. apply H. exists v. assert (I : In v (filter (on c) (strands_of cs))) by (rewrite Q; left; auto). apply filter_In in I as (I1 & I2). apply in_strands in I1. unfold on in I2. apply Nat.eqb_eq in I2. auto.
Qed.
Lemma sizes_agree : forall cs l, forallb (fun p => fst p =? snd p) (combine (map (@length _) (map (refs_of cs) l)) (map (refs_size cs) l)) = true.
Proof. intros cs. induction l as [|c l IH]; auto. cbn [map combine forallb fst snd]. rewrite refs_length, Nat.eqb_refl, IH. reflexivity. Qed.
Lemma within_ok : forall nc cs, within nc cs -> forallb (fun x => (lower_cmp x <? nc) && (upper_cmp x <? nc)) cs = true.
Proof. intros nc cs W. apply forallb_forall. intros x Hx. destruct (W x Hx). apply andb_true_iff. split; apply Nat.ltb_lt; auto. Qed.
Lemma divided : forall srt nc cs cs', within nc cs -> completed nc cs cs' ->
  divide_crossings_by_component srt nc cs = Ok (cs', map (srt (nat * Q)%type reference_compare) (map (refs_of cs') (seq 0 nc))) /\ within nc cs' /\ all_visited nc cs'.
Proof.
  intros srt nc cs cs' W [(-> & AV)|(-> & -> & ->)].
  - split; [|auto]. unfold divide_crossings_by_component. rewrite (within_ok _ _ W). assert (EX : existsb (Nat.eqb 0) (map (refs_size cs) (seq 0 nc)) = false).
    { apply not_true_is_false. intros H. apply existsb_exists in H as (n & Hn & E). apply Nat.eqb_eq in E. subst n. apply in_map_iff in Hn as (c & E & Hc). apply in_seq in Hc. apply refs_none in E. apply E. apply AV. lia. }
    rewrite EX. cbn [bind fst snd]. rewrite sizes_agree. reflexivity.
  - split; [reflexivity|]. split.
    + intros x [<-|[]]. cbn. lia.
    + intros c Hc. exists (mkXs 0 0 (33 # 100) false). split; [exists virtual_crossing; cbn; auto|cbn; lia].
Qed.
Lemma apart_virtual : apart [virtual_crossing].
Proof.
  intros v w (x & Hx & Hv) (y & Hy & Hw) _ N. destruct v as [i c s u], w as [i' c' s' u']. cbn in *. destruct i; [|destruct i; discriminate Hx]. destruct i'; [|destruct i'; discriminate Hy]. cbn in *. injection Hx as <-. injection Hy as <-.
  destruct u, u'; cbn in *; destruct Hv as (-> & ->), Hw as (-> & ->); try congruence; vm_compute; discriminate.
Qed.
Lemma all_nth : forall {A} (P : nat -> A -> Prop) n, (forall c, c < n -> exists y, P c y) -> exists l, length l = n /\ forall c y, nth_error l c = Some y -> P c y.
Proof.
  intros A P n. induction n as [|n IH]; intros H; [exists []; split; auto; intros [|c] y; discriminate|]. destruct IH as (l & L & Hl); [intros; apply H; lia|]. destruct (H n ltac:(lia)) as (y & Hy). exists (l ++ [y]). split; [rewrite app_length; cbn; lia|].
  intros c z Hz. destruct (Nat.ltb_spec c (length l)) as [Lt|Ge]; [rewrite nth_error_app1 in Hz by auto; auto|]. rewrite nth_error_app2 in Hz by auto. destruct (c - length l) as [|k] eqn:Q; [cbn in Hz; injection Hz as <-; replace c with n by lia; auto|destruct k; discriminate Hz].
Qed.
Section Assemble.
Context (srt : sorter) (SR : sorts_all srt) (nc : nat) (Hnc : 0 < nc) (cs cs' : list xrec) (W : within nc cs) (CP : completed nc cs cs') (AP : apart cs).
Lemma apart' : apart cs'.
Proof. destruct CP as [(-> & _)|(_ & _ & ->)]; [auto|apply apart_virtual]. Qed.
Lemma assembles : exists d0, drawing nc cs' d0 /\ p_maxv d0 = (if 1 <? length cs' then length cs' else 2) /\ 0 < ncross d0 /\ signed d0 /\ (exists L, strand_partition d0 L /\ length L = nc) /\
  build_diagram srt nc cs = (do d <- pd_regenerate d0; assert (ncomps d =? nc); do b <- pd_ok d; assert b; Ok (Some d)).
Proof.
  pose proof apart' as AP'. destruct (divided srt nc cs cs' W CP) as (DV & W' & AV).
  destruct (all_nth (fun c Y => srt (nat * Q)%type reference_compare (refs_of cs' c) = map ref Y /\ route cs' c Y) nc) as (Ys & LY & HY).
  { intros c Hc. exact (refs_sorted cs' srt SR AP' c). }
  assert (RY : forall c Y, nth_error Ys c = Some Y -> route cs' c Y) by (intros c Y H; apply (HY c Y H)).
  assert (CR : map (srt (nat * Q)%type reference_compare) (map (refs_of cs') (seq 0 nc)) = map (map ref) Ys).
  { apply nth_error_ext. intros c. rewrite !nth_error_map. destruct (Nat.ltb_spec c nc) as [Lt|Ge].
    - assert (Q : nth_error (seq 0 nc) c = Some c) by (rewrite (nth_error_nth' _ 0) by (rewrite seq_length; auto); rewrite seq_nth by auto; reflexivity). rewrite Q. cbn [option_map].
      destruct (nth_error Ys c) as [Y|] eqn:QY; [|apply nth_error_None in QY; lia]. cbn [option_map]. rewrite (proj1 (HY c Y QY)). reflexivity.
    - rewrite (proj2 (nth_error_None (seq 0 nc) c)) by (rewrite seq_length; auto). rewrite (proj2 (nth_error_None Ys c)) by lia. reflexivity. }
  destruct (placed cs' nc W' Ys LY RY) as (xs' & PE & LX & SGX & WR).
  assert (TE : all_temp_edges (srt xstrand strand_compare (strands_of cs')) 0 (map (map ref) Ys) = Ok (linked Ys)).
  { apply (all_temp_is cs' srt SR AP'). intros k Y Hk. split; [eapply (Ys_nonempty cs' nc); eauto|]. intros v Hv. cbn [Nat.add]. apply (RY k Y Hk). auto. }
  assert (n0 : 0 < length cs').
  { destruct (AV 0 Hnc) as (v & (x & Hx & _) & _). destruct cs'; [destruct (xs_num v); discriminate Hx|cbn; lia]. }
  set (mv := if 1 <? length cs' then length cs' else 2).
  assert (MV : length cs' <= mv /\ 2 <= mv) by (unfold mv; destruct (Nat.ltb_spec 1 (length cs')); lia).
  set (d0 := mkPd mv 0 [32] (map (edge_for (sg cs')) (linked Ys)) xs' [] []).
  destruct (dr_drawing cs' nc W' AV Ys LY RY d0 xs' eq_refl eq_refl LX SGX WR) as (DR & SP).
  exists d0. split; auto. split; auto. split; [cbn; unfold ncross; cbn; lia|]. split; [|split; [exists (blocks 0 Ys); rewrite blocks_length; auto|]].
  - destruct DR as (_ & _ & _ & _ & SGN & _). destruct cs' as [|x l] eqn:Q; [cbn in n0; lia|]. exists 0, (if (0 <? x_sign x)%Z then Pos else Neg). split; [apply (SGN 0 x eq_refl)|]. destruct (0 <? x_sign x)%Z; discriminate.
  - unfold build_diagram. rewrite DV. cbn [bind fst snd]. unfold assemble_pdcode. rewrite (no_double cs' srt SR AP'). rewrite CR, TE. cbn [bind]. fold mv. unfold pd_code_new.
    assert (M0 : (mv =? 0) = false) by (apply Nat.eqb_neq; lia). assert (M1 : (mv =? 1) = false) by (apply Nat.eqb_neq; lia). rewrite M0, M1. cbn [negb bind].
    rewrite (linked_count cs' nc W' Ys LY RY), Nat.eqb_refl. change (map (fun x => mkCross 0 0 0 0 (if (0 <? x_sign x)%Z then Pos else Neg)) cs') with (blank cs'). rewrite PE. reflexivity.
Qed.
(** the diagram that results from the crossings, if the program returns one *)
Lemma assembled_back : forall d0, p_maxv d0 = (if 1 <? length cs' then length cs' else 2) -> drawing nc cs' d0 -> 0 < ncross d0 -> signed d0 ->
  forall d', (do d <- pd_regenerate d0; assert (ncomps d =? nc); do b <- pd_ok d; assert b; Ok (Some d)) = Ok (Some d') ->
  exists sigma rho pi, relabelled d0 d' sigma rho pi /\ regular d' /\ ncomps d' = nc /\ pd_ok d' = Ok true.
Proof.
  intros d0 MV (R & G & T & NC & _) Hn Sg d' E. apply bind_ok in E as (d & RG & E). destruct (Nat.eqb_spec (ncomps d) nc) as [EN|]; [|discriminate E]. apply bind_ok in E as (b & OKB & E). destruct b; [|discriminate E]. apply ok_inj in E. injection E as <-.
  destruct (regenerate_back d0 d) as (sigma & rho & pi & L & RL & RGL & _); auto.
  - rewrite MV, NC. destruct (Nat.ltb_spec 1 (length cs')); lia.
  - apply edges_ok_spec; auto.
  - exists sigma, rho, pi. auto.
Qed.
Lemma assembled_total : forall d0, p_maxv d0 = (if 1 <? length cs' then length cs' else 2) -> drawing nc cs' d0 -> 0 < ncross d0 -> signed d0 -> (exists L, strand_partition d0 L /\ length L = nc) ->
  planar d0 -> nc <= MAXCOMPONENTS d0 -> nc <= 64 ->
  exists d', (do d <- pd_regenerate d0; assert (ncomps d =? nc); do b <- pd_ok d; assert b; Ok (Some d)) = Ok (Some d').
Proof.
  intros d0 MV (R & G & T & NC & _) Hn Sg (L & SP & LL) P MC M64.
  destruct (regenerate_signed d0 L) as (d' & s & r & p & E & _ & _ & Nc & _ & _ & OKB); auto.
  - rewrite MV, NC. destruct (Nat.ltb_spec 1 (length cs')); lia.
  - apply edges_ok_spec; auto.
  - lia.
  - exists d'. rewrite E. cbn [bind]. rewrite Nc, LL, Nat.eqb_refl. rewrite OKB by lia. reflexivity.
Qed.
End Assemble.
