(** Diagrams built from a table that gives the edge at each place of each crossing. *)
From Coq Require Import List ZArith Lia Bool Arith Permutation Relations Sorted.
From Verif Require Import Base ListAux Iterators Pd PdSpec PdProofs Relabel RelabelProofs Planar RegenSpec PdRegen Thm_Edges
  PdOps Build BuildSpec Layout.
Import ListNotations.
Open Scope nat_scope.

(** * Writing the table *)
Lemma put_all_ok : forall ws cs, (forall w, In w ws -> fst w < length cs) -> exists r, put_all ws cs = Ok r /\ length r = length cs /\
  (forall c, ~ In c (map fst ws) -> nth_error r c = nth_error cs c) /\
  (forall c X, In (c, X) ws -> (forall X', In (c, X') ws -> X' = X) -> nth_error r c = Some X).
Proof.
  induction ws as [|(i, x) ws IH]; intros cs L.
  - exists cs. split; auto. split; auto. split; auto. intros c X [].
  - cbn [put_all]. pose proof (L _ (or_introl eq_refl)) as Li. cbn [fst] in Li. destruct (Nat.ltb_spec i (length cs)); [|lia].
    destruct (IH (upd i x cs)) as (r & E & Lr & K1 & K2); [intros w I; rewrite upd_length; apply L; right; auto|].
    exists r. split; auto. rewrite upd_length in Lr. split; auto. split.
    + intros c N. cbn [map fst In] in N. rewrite K1 by tauto. rewrite nth_error_upd. destruct (Nat.eqb_spec i c); [subst; exfalso; tauto|reflexivity].
    + intros c X I U. destruct (in_dec Nat.eq_dec c (map fst ws)) as [J|J].
      * apply in_map_iff in J as ((c', X') & Q & J). cbn [fst] in Q. subst c'. assert (X' = X) by (apply U; right; auto). subst X'. apply K2; auto. intros X' I'. apply U. right. auto.
      * rewrite K1 by auto. destruct I as [I|I]; [|exfalso; apply J, in_map_iff; exists (c, X); auto]. injection I as -> ->. rewrite nth_error_upd, Nat.eqb_refl. destruct (Nat.ltb_spec c (length cs)); [reflexivity|lia].
Qed.
Lemma put_all_app : forall a b cs, put_all (a ++ b) cs = bind (put_all a cs) (put_all b).
Proof. induction a as [|(i, x) a IH]; intros b cs; auto. cbn [app put_all]. destruct (i <? length cs); auto. Qed.
(** the writes [b] come last, and each of them gives the final content *)
Lemma with_crossings_ok : forall n a b (X : nat -> crossing), 2 <= n -> (forall w, In w (a ++ b) -> fst w < n) ->
  (forall c, c < n -> ~ In c (map fst b) -> In (c, X c) a) -> (forall c x, In (c, x) a -> ~ In c (map fst b) -> x = X c) ->
  (forall c x, In (c, x) b -> x = X c) ->
  with_crossings n (a ++ b) = Ok (with_cross (mkPd n 0 [32] [] [] [] []) (map X (seq 0 n))).
Proof.
  intros n a b X Hn L HA UA UB. unfold with_crossings, pd_code_new. destruct (Nat.eqb_spec n 0); [lia|]. cbn [negb bind].
  destruct (Nat.eqb_spec n 1); [lia|]. cbn [p_maxv]. rewrite put_all_app. set (z := repeat (mkCross 0 0 0 0 Neg) n). assert (Lz : length z = n) by apply repeat_length.
  destruct (put_all_ok a z) as (r1 & E1 & L1 & _ & A2); [intros w I; rewrite Lz; apply L; apply in_or_app; auto|].
  rewrite E1. cbn [bind]. destruct (put_all_ok b r1) as (r2 & E2 & L2 & B1 & B2); [intros w I; rewrite L1, Lz; apply L; apply in_or_app; auto|].
  rewrite E2. cbn [bind]. do 2 f_equal. rewrite firstn_all2 by lia.
  apply nth_ext with (d := mkCross 0 0 0 0 Neg) (d' := mkCross 0 0 0 0 Neg); [rewrite map_length, seq_length; lia|].
  intros c Hc. assert (Hc' : c < n) by lia.
  assert (Q : nth_error r2 c = Some (X c)).
  { destruct (in_dec Nat.eq_dec c (map fst b)) as [J|J].
    - apply in_map_iff in J as ((c', x) & Q & J). cbn [fst] in Q. subst c'. rewrite <- (UB c x J). apply B2; [auto|]. intros x2 I. rewrite (UB c x J). eauto.
    - rewrite B1 by auto. apply A2; [auto|]. intros x2 I. apply UA; auto. }
  rewrite (nth_error_nth r2 c _ Q). symmetry. apply nth_error_nth. rewrite nth_error_map. rewrite (nth_error_nth' _ 0) by (rewrite seq_length; auto). rewrite seq_nth by auto. reflexivity.
Qed.

(** * Tables *)
Section Table.
Context (n : nat) (V : nat -> nat -> nat).
Definition tplace (s : nat * nat) : Prop := fst s < n /\ snd s < 4.
Definition twire (s t : nat * nat) : Prop := s <> t /\ tplace s /\ tplace t /\ V (fst s) (snd s) = V (fst t) (snd t).
Definition tacross (e e' : nat) : Prop := exists c p, c < n /\ p < 4 /\ V c p = e /\ V c ((p + 2) mod 4) = e'.

Record table (k : nat) (FS : list (list (nat * nat))) (col : nat -> nat) : Prop := {
  tb_size : 2 <= n;
  tb_range : forall c p, c < n -> p < 4 -> V c p < 2 * n;
  tb_two : forall e, e < 2 * n -> exists s t, s <> t /\ tplace s /\ tplace t /\ V (fst s) (snd s) = e /\ V (fst t) (snd t) = e;
  tb_across : forall c, c < n -> V c 0 <> V c 2 /\ V c 1 <> V c 3;
  tb_faces : forall f, In f FS -> f <> [] /\ cyclically (fun s t => twire (turn s) t) f;
  tb_total : length (concat FS) <= 4 * n;
  tb_cover : forall c p, c < n -> p < 4 -> In (c, p) (concat FS);
  tb_places : forall s, In s (concat FS) -> tplace s;
  tb_nfaces : length FS = n + 2;
  tb_short : forall f, In f FS -> length f <= 2 * n;
  tb_col : forall c, c < n -> col (V c 0) = col (V c 2) /\ col (V c 1) = col (V c 3);
  tb_col_lt : forall e, e < 2 * n -> col e < k;
  tb_col_ex : forall i, i < k -> exists e, e < 2 * n /\ col e = i;
  tb_col_conn : forall e e', e < 2 * n -> e' < 2 * n -> col e = col e' -> clos_refl_sym_trans nat tacross e e';
  tb_conn : forall c, 0 < c < n -> exists c' p p', c' < c /\ p < 4 /\ p' < 4 /\ V c p = V c' p';
  tb_few : k <= n / 2 + 2 }.

(** the table is written into crossings renamed by [sg] and turned by [r], with the edges renamed by [pi] *)
Context (sg r pi pi' : nat -> nat) (SG : bij_on n sg) (RR : forall c, c < n -> r c < 4).
Context (P1 : forall e, e < 2 * n -> pi e < 2 * n /\ pi' (pi e) = e) (P2 : forall e, e < 2 * n -> pi' e < 2 * n /\ pi (pi' e) = e).
Definition tmove (s : nat * nat) : nat * nat := (sg (fst s), (snd s + r (fst s)) mod 4).
Context (X : nat -> crossing) (HX : forall c p, c < n -> p < 4 -> cedge (X (sg c)) ((p + r c) mod 4) = pi (V c p)).
Notation d := (with_cross (mkPd n 0 [32] [] [] [] []) (map X (seq 0 n))).

Lemma tb_ncross : ncross d = n.
Proof. unfold ncross. cbn [with_cross p_cross]. rewrite map_length, seq_length. auto. Qed.
Lemma tb_slot : forall s, tplace s -> slot d (fst (tmove s)) (snd (tmove s)) (pi (V (fst s) (snd s))).
Proof.
  intros (c, p) (Hc & Hp). cbn [fst snd tmove] in *. split; [apply Nat.mod_upper_bound; lia|]. exists (X (sg c)). split; [|apply HX; auto].
  cbn [with_cross p_cross]. rewrite nth_error_map, (nth_error_nth' _ 0) by (rewrite seq_length; apply SG; auto). rewrite seq_nth by (apply SG; auto). reflexivity.
Qed.
Lemma tmove_inj : forall s t, tplace s -> tplace t -> tmove s = tmove t -> s = t.
Proof.
  intros (c, p) (c', p') (Hc & Hp) (Hc' & Hp') Q. cbn [fst snd tmove] in *. apply pair_equal_spec in Q as (Q1 & Q2). apply (proj2 SG c c' Hc Hc') in Q1. subst c'. f_equal.
  cbn [fst snd] in Q2. specialize (RR c Hc). destruct (small4 p Hp) as [->|[->|[->| ->]]], (small4 p' Hp') as [->|[->|[->| ->]]], (small4 _ RR) as [Z|[Z|[Z|Z]]]; rewrite Z in *; cbn in Q2; lia.
Qed.
Lemma tmove_ex : forall c p, c < n -> p < 4 -> exists s, tplace s /\ tmove s = (c, p).
Proof.
  intros c p Hc Hp. assert (I : In c (map sg (seq 0 n))).
  { assert (ND : NoDup (map sg (seq 0 n))) by (apply NoDup_map_inj; [intros x y Ix Iy Q; apply in_seq in Ix, Iy; apply SG; auto; lia|apply seq_NoDup]).
    apply (NoDup_length_incl ND (l' := seq 0 n)); [rewrite map_length; lia| |apply in_seq; lia].
    intros x Ix. apply in_map_iff in Ix as (y & <- & Iy). apply in_seq in Iy. apply in_seq. pose proof (proj1 SG y ltac:(lia)). lia. }
  apply in_map_iff in I as (c0 & <- & I). apply in_seq in I. pose proof (RR c0 ltac:(lia)) as Hr.
  exists (c0, (p + 4 - r c0) mod 4). split; [split; cbn [fst snd]; [lia|apply Nat.mod_upper_bound; lia]|]. unfold tmove. cbn [fst snd]. f_equal.
  destruct (small4 p Hp) as [->|[->|[->| ->]]], (small4 _ Hr) as [Z|[Z|[Z|Z]]]; rewrite Z; reflexivity.
Qed.
Lemma tb_wire : forall s t, twire s t -> wire d (tmove s) (tmove t).
Proof.
  intros s t (N & Ps & Pt & Q). split; [intros E; apply N, tmove_inj; auto|]. exists (pi (V (fst s) (snd s))). split; [apply tb_slot; auto|rewrite Q; apply tb_slot; auto].
Qed.
Lemma tb_turn : forall s, tplace s -> tmove (turn s) = turn (tmove s).
Proof.
  intros (c, p) (Hc & Hp). cbn [fst snd] in *. unfold tmove, turn. cbn [fst snd]. f_equal. specialize (RR c Hc).
  destruct (small4 p Hp) as [->|[->|[->| ->]]], (small4 _ RR) as [Z|[Z|[Z|Z]]]; rewrite Z; reflexivity.
Qed.
Context (k : nat) (FS : list (list (nat * nat))) (col : nat -> nat) (TB : table k FS col).
Lemma tb_layout : layout d k (map (map tmove) FS) (fun e => col (pi' e)).
Proof.
  destruct TB as [Hn VL TW NA F1 F2 F3 F4 F5 F6 C1 C2 C3 C4 CN FEW]. pose proof tb_ncross as Nx.
  assert (FP : forall f s, In f FS -> In s f -> tplace s) by (intros f s I J; apply F4, in_concat; eauto).
  assert (INJ : forall a b, a < 2 * n -> b < 2 * n -> pi a = pi b -> a = b) by (intros a b Ha Hb E; rewrite <- (proj2 (P1 a Ha)), <- (proj2 (P1 b Hb)); congruence).
  assert (AC : forall c p e e', slot d c p e -> slot d c ((p + 2) mod 4) e' -> exists c0 p0, c0 < n /\ p0 < 4 /\ e = pi (V c0 p0) /\ e' = pi (V c0 ((p0 + 2) mod 4))).
  { intros c p e e' Sl Sl'. pose proof (slot_lt _ _ _ _ Sl) as (Hc & Hp). rewrite Nx in Hc. destruct (tmove_ex c p Hc Hp) as ((c0, p0) & (Hc0 & Hp0) & Q). cbn [fst snd] in *.
    pose proof (tb_slot (c0, p0) (conj Hc0 Hp0)) as S1. rewrite Q in S1. cbn [fst snd] in S1. pose proof (slot_fun _ _ _ _ _ Sl S1) as Z1.
    assert (Hp2 : (p0 + 2) mod 4 < 4) by (apply Nat.mod_upper_bound; lia).
    pose proof (tb_slot (c0, (p0 + 2) mod 4) (conj Hc0 Hp2)) as S2. unfold tmove in S2, Q. cbn [fst snd] in S2, Q. apply pair_equal_spec in Q as (Q1 & Q2). rewrite Q1 in S2.
    assert (Q3 : ((p0 + 2) mod 4 + r c0) mod 4 = (p + 2) mod 4).
    { rewrite <- Q2. specialize (RR c0 Hc0). destruct (small4 p0 Hp0) as [->|[->|[->| ->]]], (small4 _ RR) as [Z|[Z|[Z|Z]]]; rewrite Z; reflexivity. }
    rewrite Q3 in S2. pose proof (slot_fun _ _ _ _ _ Sl' S2) as Z2. exists c0, p0. auto. }
  constructor; try rewrite Nx.
  - lia.
  - cbn [with_cross p_maxv]. lia.
  - reflexivity.
  - intros e He. destruct (P2 e He) as (L & Q). destruct (TW (pi' e) L) as (s & t & N & Ps & Pt & Vs & Vt). exists (tmove s), (tmove t).
    split; [intros E; apply N, tmove_inj; auto|]. split.
    + pose proof (tb_slot s Ps) as H. rewrite Vs, Q in H. exact H.
    + pose proof (tb_slot t Pt) as H. rewrite Vt, Q in H. exact H.
  - intros c p e Sl Sl'. destruct (AC c p e e Sl Sl') as (c0 & p0 & Hc0 & Hp0 & Z1 & Z2).
    assert (Z : V c0 p0 = V c0 ((p0 + 2) mod 4)) by (apply INJ; [apply VL; auto|apply VL; auto using mod4_lt|congruence]).
    destruct (NA c0 Hc0) as (N1 & N2). destruct (small4 p0 Hp0) as [->|[->|[->| ->]]]; cbn in Z; congruence.
  - intros f I. apply in_map_iff in I as (g & <- & I). destruct (F1 g I) as (NE & CY). split; [destruct g; [congruence|discriminate]|].
    eapply (DartMap.cyclically_map _ _ (fun s t => twire (turn s) t)); [|exact CY]. intros s t Is It W. cbn beta in *. rewrite <- tb_turn by eauto. apply tb_wire; auto.
  - rewrite <- concat_map, map_length. auto.
  - intros c p Hc Hp. destruct (tmove_ex c p Hc Hp) as ((c0, p0) & (Hc0 & Hp0) & <-). rewrite <- concat_map. apply in_map. apply F3; auto.
  - intros c p I. rewrite <- concat_map in I. apply in_map_iff in I as (s & Q & I). apply F4 in I as (Hc & Hp). unfold tmove in Q. apply pair_equal_spec in Q as (<- & <-).
    split; [apply SG; auto|apply Nat.mod_upper_bound; lia].
  - rewrite map_length. auto.
  - intros f I. apply in_map_iff in I as (g & <- & I). rewrite map_length. auto.
  - intros e e' (c & p & S1 & S2). destruct (AC c p e e' S1 S2) as (c0 & p0 & Hc0 & Hp0 & -> & ->).
    rewrite !(fun a Ha => proj2 (P1 a Ha)) by (apply VL; auto using mod4_lt). destruct (C1 c0 Hc0) as (K1 & K2).
    destruct (small4 p0 Hp0) as [->|[->|[->| ->]]]; cbn; congruence.
  - intros e He. apply C2. apply P2; auto.
  - intros i Hi. destruct (C3 i Hi) as (e & He & Q). exists (pi e). rewrite (proj2 (P1 e He)). split; auto. apply P1; auto.
  - assert (ST : forall a b, clos_refl_sym_trans nat tacross a b -> clos_refl_sym_trans nat (across d) (pi a) (pi b)).
    { intros a b H. induction H as [a b (c & p & Hc & Hp & <- & <-)| | |]; [apply rst_step|apply rst_refl|apply rst_sym; auto|eapply rst_trans; eauto].
      assert (Hp2 : (p + 2) mod 4 < 4) by (apply Nat.mod_upper_bound; lia).
      pose proof (tb_slot (c, p) (conj Hc Hp)) as S1. pose proof (tb_slot (c, (p + 2) mod 4) (conj Hc Hp2)) as S2. unfold tmove in S1, S2. cbn [fst snd] in S1, S2.
      exists (sg c), ((p + r c) mod 4). split; auto.
      assert (Q : ((p + 2) mod 4 + r c) mod 4 = ((p + r c) mod 4 + 2) mod 4).
      { specialize (RR c Hc). destruct (small4 p Hp) as [->|[->|[->| ->]]], (small4 _ RR) as [Z|[Z|[Z|Z]]]; rewrite Z; reflexivity. }
      rewrite <- Q. exact S2. }
    intros e e' He He' Q. destruct (P2 e He) as (L1 & Q1). destruct (P2 e' He') as (L2 & Q2). rewrite <- Q1, <- Q2. apply ST. apply C4; auto.
  - exact FEW.
Qed.

Theorem table_built : forall w, k <= 64 -> (forall s t, In (s, t) w -> twire s t) -> built_as (make_positive d) n k w.
Proof.
  intros w K64 W. destruct (layout_built d k _ _ tb_layout K64) as (d' & E & Rg & OK & NC & PS & _ & Nx & s & r0 & q & B1 & B2 & B3 & SL). rewrite tb_ncross in *.
  exists d'. split; auto. split; auto. split.
  { assert (J : forall c c' p p', c < n -> c' < n -> p < 4 -> p' < 4 -> V c p = V c' p' -> joined d' (s (sg c)) (s (sg c'))).
    { intros c c' p p' Hc Hc' Hp Hp' Q. pose proof (tb_slot (c, p) (conj Hc Hp)) as S1. pose proof (tb_slot (c', p') (conj Hc' Hp')) as S2. cbn [fst snd] in S1, S2. rewrite Q in S1.
      apply SL in S1. apply SL in S2. do 3 eexists. split; [exact S1|exact S2]. }
    assert (A : forall c, c < n -> clos_refl_trans nat (joined d') (s (sg 0)) (s (sg c)) /\ clos_refl_trans nat (joined d') (s (sg c)) (s (sg 0))).
    { intros c. induction c as [c IH] using lt_wf_ind. intros Hc. destruct (Nat.eq_dec c 0) as [->|Z]; [split; apply rt_refl|].
      destruct (tb_conn _ _ _ TB c ltac:(lia)) as (c' & p & p' & L & Hp & Hp' & Q). destruct (IH c' L ltac:(lia)) as (I1 & I2).
      split; [eapply rt_trans; [exact I1|]|eapply rt_trans; [|exact I2]]; apply rt_step; [apply (J c' c p' p)|apply (J c c' p p')]; auto; lia. }
    assert (SU : forall c, c < n -> exists c0, c0 < n /\ s (sg c0) = c).
    { intros c Hc. assert (I : In c (map (fun c => s (sg c)) (seq 0 n))).
      { assert (ND : NoDup (map (fun c => s (sg c)) (seq 0 n))) by (apply NoDup_map_inj; [intros x y Ix Iy Q; apply in_seq in Ix, Iy; apply SG; try lia; apply B1; auto; apply SG; lia|apply seq_NoDup]).
        apply (NoDup_length_incl ND (l' := seq 0 n)); [rewrite map_length; lia| |apply in_seq; lia].
        intros x Ix. apply in_map_iff in Ix as (y & <- & Iy). apply in_seq in Iy. apply in_seq. pose proof (proj1 B1 (sg y) ltac:(apply SG; lia)). lia. }
      apply in_map_iff in I as (c0 & <- & I). apply in_seq in I. exists c0. split; [lia|auto]. }
    intros c c' Hc Hc'. rewrite Nx in Hc, Hc'. destruct (SU c Hc) as (a & Ha & <-). destruct (SU c' Hc') as (b & Hb & <-). eapply rt_trans; [apply (A a Ha)|apply (A b Hb)]. }
  split; auto. split; auto. split; auto. split; auto.
  exists (fun c => s (sg c)), (fun c => (r0 (sg c) + 4 - r c) mod 4).
  split; [|split; [intros; apply mod4_lt|]].
  - split; [intros i Hi; apply B1, SG; auto|]. intros i j Hi Hj Q. apply SG; auto. apply B1; auto; apply SG; auto.
  - intros (c, p) (c', p') I. specialize (W _ _ I). pose proof W as (_ & (Hc & Hp) & (Hc' & Hp') & _).
    destruct (tb_wire _ _ W) as (N & e & S1 & S2). cbn [fst snd] in *.
    assert (MV : forall c p, c < n -> p < 4 -> moved (fun c => s (sg c)) (fun c => (r0 (sg c) + 4 - r c) mod 4) c p = moved s r0 (sg c) ((p + r c) mod 4)).
    { clear - RR SG B2. intros c p Hc Hp. unfold moved. f_equal. pose proof (RR c Hc) as Hr. pose proof (B2 (sg c) (proj1 SG c Hc)) as Hr0.
      destruct (small4 p Hp) as [->|[->|[->| ->]]], (small4 _ Hr) as [Z|[Z|[Z|Z]]], (small4 _ Hr0) as [Y|[Y|[Y|Y]]]; rewrite Z, Y; reflexivity. }
    rewrite !MV by auto. unfold tmove in *. cbn [fst snd] in *. apply SL in S1. apply SL in S2. split; [|exists (q e); auto].
    intros Q. unfold moved in Q. apply pair_equal_spec in Q as (Q1 & Q2). apply (proj2 B1) in Q1; try (apply SG; auto). apply N. rewrite Q1 in *. f_equal.
    pose proof (B2 (sg c') (proj1 SG c' Hc')) as Hr0. pose proof (mod4_lt (p + r c)) as M1. pose proof (mod4_lt (p' + r c')) as M2.
    revert Q2 M1 M2. generalize ((p + r c) mod 4), ((p' + r c') mod 4). intros a b Q2 M1 M2.
    destruct (small4 a M1) as [->|[->|[->| ->]]], (small4 b M2) as [->|[->|[->| ->]]], (small4 _ Hr0) as [Z|[Z|[Z|Z]]]; rewrite Z in *; cbn in Q2; auto; discriminate.
Qed.
Theorem table_refused : 65 <= k -> forall d', make_positive d <> Ok d'.
Proof. intros K. exact (layout_refused d k _ _ tb_layout K). Qed.
End Table.

(** * Lists of linked members *)
Fixpoint linked {A} (R : A -> A -> Prop) (l : list A) : Prop :=
  match l with
  | a :: m => match m with [] => True | b :: _ => R a b end /\ linked R m
  | [] => True
  end.
Lemma linked_app : forall A (R : A -> A -> Prop) (l m : list A) x, linked R l -> linked R m ->
  (l = [] \/ match m with [] => True | b :: _ => R (last l x) b end) -> linked R (l ++ m).
Proof.
  intros A R. induction l as [|a l IH]; intros m x L M K; auto. cbn [app linked] in *. destruct L as (L1 & L2). destruct l as [|a' l].
  - cbn [app] in *. split; auto. destruct m; auto. destruct K as [K|K]; [discriminate|exact K].
  - split; auto. apply (IH m x); auto. right. destruct K as [K|K]; [discriminate|]. exact K.
Qed.
Lemma linked_nth : forall A (R : A -> A -> Prop) l i a b, linked R l -> nth_error l i = Some a -> nth_error l (S i) = Some b -> R a b.
Proof.
  intros A R. induction l as [|x l IH]; intros [|i] a b L Ha Hb; try discriminate; destruct L as (L1 & L2).
  - cbn in *. injection Ha as <-. destruct l; [discriminate|]. cbn in Hb. injection Hb as <-. auto.
  - eapply IH; eauto.
Qed.
Lemma linked_cyclic : forall A (R : A -> A -> Prop) a l, linked R (a :: l) -> R (last (a :: l) a) a -> cyclically R (a :: l).
Proof.
  intros A R a l L K i x y Hx Hy. assert (Li : i < length (a :: l)) by (apply nth_error_Some; congruence).
  destruct (Nat.eq_dec (i + 1) (length (a :: l))) as [Q|Q].
  - rewrite Q, Nat.mod_same in Hy by (cbn; lia). cbn in Hy. injection Hy as <-.
    assert (Z : last (a :: l) a = x); [|rewrite <- Z; auto]. rewrite <- (nth_error_nth _ _ a Hx). replace i with (length l) by (cbn in Q; lia).
    clear. revert a. assert (G : forall l (a x : A), last (a :: l) x = nth (length l) (a :: l) x); [|intros; apply G].
    clear. induction l as [|b l IH]; intros a x; auto. change (last (b :: l) x = nth (length l) (b :: l) x). apply IH.
  - rewrite Nat.mod_small, Nat.add_1_r in Hy by lia. eapply linked_nth; eauto.
Qed.
Lemma linked_seq : forall A (R : A -> A -> Prop) (f : nat -> A) k a, (forall i, a <= i -> i + 1 < a + k -> R (f i) (f (i + 1))) -> linked R (map f (seq a k)).
Proof.
  intros A R f. induction k as [|k IH]; intros a H; cbn [seq map linked]; auto. split; [|apply IH; intros i L1 L2; apply H; lia].
  destruct k; cbn [seq map]; auto. rewrite <- Nat.add_1_r. apply H; lia.
Qed.
Lemma last_seq : forall A (f : nat -> A) k a x, last (map f (seq a (S k))) x = f (a + k).
Proof.
  intros A f. induction k as [|k IH]; intros a x; [cbn; f_equal; lia|]. change (last (map f (seq (S a) (S k))) x = f (a + S k)). rewrite IH. f_equal. lia.
Qed.
Lemma last_app : forall A (l m : list A) x, m <> [] -> last (l ++ m) x = last m x.
Proof.
  intros A. induction l as [|a l IH]; intros m x N; auto. rewrite <- (IH m x N). cbn [app]. destruct (l ++ m) eqn:E; [apply app_eq_nil in E; tauto|reflexivity].
Qed.
Lemma cyclic_seq : forall A (R : A -> A -> Prop) (f : nat -> A) k, 0 < k -> (forall i, i + 1 < k -> R (f i) (f (i + 1))) -> R (f (k - 1)) (f 0) -> cyclically R (map f (seq 0 k)).
Proof.
  intros A R f k Hk H1 H2. destruct k as [|k]; [lia|]. cbn [seq map]. apply linked_cyclic.
  - change (linked R (map f (seq 0 (S k)))). apply linked_seq. intros i _ Hi. apply H1. lia.
  - change (R (last (map f (seq 0 (S k))) (f 0)) (f 0)). rewrite last_seq. replace (0 + k) with (S k - 1) by lia. auto.
Qed.
Lemma cyclic1 : forall A (R : A -> A -> Prop) a, R a a -> cyclically R [a].
Proof. intros A R a H. apply linked_cyclic; cbn; auto. Qed.
Lemma cyclic2 : forall A (R : A -> A -> Prop) a b, R a b -> R b a -> cyclically R [a; b].
Proof. intros A R a b H K. apply linked_cyclic; cbn; auto. Qed.
Lemma cyclic3 : forall A (R : A -> A -> Prop) a b c, R a b -> R b c -> R c a -> cyclically R [a; b; c].
Proof. intros A R a b c H K L. apply linked_cyclic; cbn; auto. Qed.
Lemma cyclic4 : forall A (R : A -> A -> Prop) a b c d, R a b -> R b c -> R c d -> R d a -> cyclically R [a; b; c; d].
Proof. intros A R a b c d H K L M. apply linked_cyclic; cbn; auto. Qed.
Lemma length_flat2 : forall (A : Type) (f : nat -> list A) m l, (forall i, In i l -> length (f i) = m) -> length (concat (map f l)) = m * length l.
Proof. intros A f m l. induction l as [|i l IH]; intros H; cbn; [lia|]. rewrite app_length, IH, (H i); [lia|left; auto|intros; apply H; right; auto]. Qed.
