(** The flood fill finds the pieces. *)
From Coq Require Import List ZArith Lia Bool Arith Permutation Sorted Relations.
From Verif Require Import Base Iterators Sorting ListAux Pd PdSpec PdProofs Relabel RelabelProofs RelabelSym
  Strands SlotCount PdCross PdCrossProofs PdEdges PdComps PdCompsProofs PdFaces PdHash PdIso RegenSpec Planar OverUnder
  ApplyProofs DeloopSpec DeloopProofs Split SplitSpec.
From Verif Require MoveProofs.
Import ListNotations.
Open Scope nat_scope.

Lemma filter_le : forall A (f : A -> bool) l, length (filter f l) <= length l.
Proof. induction l as [|x l IH]; cbn [filter]; auto. destruct (f x); cbn [length]; lia. Qed.

(** ** the flood fill on an abstract graph *)
Section Flood.
Context (d : pd) (n : nat) (nb : nat -> list nat) (cls : nat -> nat).
Context (HW : forall f code e, e < n -> split_worker (S f) d code e =
  fold_ok (fun code x => bind (get code x) (fun k => match k with Some _ => Ok code | None => bind (get code e) (fun k => split_worker f d (upd x k code) x) end)) (nb e) code).
Context (NB : forall e f, e < n -> In f (nb e) -> f < n /\ cls f = cls e).

Definition is_set (code : list (option nat)) (e : nat) : Prop := exists k, nth_error code e = Some (Some k).
Definition unset_count (code : list (option nat)) : nat := length (filter (fun k => match k with None => true | _ => false end) code).

(** [code'] extends [code]: entries that are set stay, new ones are [k], lie in the class [c], and all their neighbours are set *)
Definition extends (k c : nat) (code code' : list (option nat)) : Prop :=
  length code' = length code /\
  (forall e j, nth_error code e = Some (Some j) -> nth_error code' e = Some (Some j)) /\
  (forall e, nth_error code e = Some None -> is_set code' e -> nth_error code' e = Some (Some k) /\ cls e = c /\ forall f, In f (nb e) -> is_set code' f).

Lemma extends_refl : forall k c code, extends k c code code.
Proof. intros. split; auto. split; auto. intros e H (j & K). congruence. Qed.
Lemma extends_trans : forall k c a b e, extends k c a b -> extends k c b e -> extends k c a e.
Proof.
  intros k c a b e (L1 & K1 & N1) (L2 & K2 & N2). split; [congruence|]. split; [auto|]. intros x H S.
  destruct (nth_error b x) as [[j|]|] eqn:B.
  - assert (SB : is_set b x) by (exists j; auto). destruct (N1 x H SB) as (Q1 & Q2 & Q3). split; [auto|]. split; auto.
    intros f Hf. destruct (Q3 f Hf) as (i & Hi). exists i. auto.
  - destruct (N2 x B S) as (Q1 & Q2 & Q3). auto.
  - exfalso. apply nth_error_None in B. assert (nth_error a x <> None) as Z by congruence. apply nth_error_Some in Z. lia.
Qed.
Lemma unset_le : forall a b, length b = length a -> (forall e j, nth_error a e = Some (Some j) -> nth_error b e = Some (Some j)) -> unset_count b <= unset_count a.
Proof.
  unfold unset_count. induction a as [|x a IH]; intros [|y b] L H; try discriminate; auto. cbn [filter length] in *.
  assert (IHb : length (filter (fun k => match k with None => true | _ => false end) b) <= length (filter (fun k => match k with None => true | _ => false end) a)).
  { apply IH; [lia|]. intros e j K. apply (H (S e) j K). }
  destruct x as [j|].
  - pose proof (H 0 j eq_refl) as Z. cbn in Z. injection Z as ->. exact IHb.
  - destruct y; cbn [length]; lia.
Qed.
Lemma unset_upd : forall code x k, nth_error code x = Some None -> S (unset_count (upd x (Some k) code)) = unset_count code.
Proof.
  unfold unset_count. induction code as [|y code IH]; intros [|x] k H; cbn in H; try discriminate.
  - injection H as ->. reflexivity.
  - cbn [upd filter]. destruct y; cbn [length]; rewrite <- (IH x k H); reflexivity.
Qed.

Lemma worker_ok : forall fuel code e k, unset_count code < fuel -> length code = n -> e < n -> nth_error code e = Some (Some k) ->
  exists code', split_worker fuel d code e = Ok code' /\ extends k (cls e) code code' /\ forall f, In f (nb e) -> is_set code' f.
Proof.
  induction fuel as [|fuel IH]; intros code e k HF HL He Hk; [lia|]. rewrite HW by auto.
  pose proof (NB e) as HN. revert HN. generalize (nb e) as l. intro l. revert code HF HL Hk.
  induction l as [|x l IHl]; intros code HF HL Hk HN.
  - exists code. split; [reflexivity|]. split; [apply extends_refl|]. intros f [].
  - cbn [fold_ok]. destruct (HN x He (or_introl eq_refl)) as (Lx & Cx).
    destruct (nth_error code x) as [o|] eqn:X; [|apply nth_error_None in X; lia].
    rewrite (proj2 (get_ok _ _ _ _) X). cbn [bind].
    assert (STEP : exists c1, match o with Some _ => Ok code | None => bind (get code e) (fun k => split_worker fuel d (upd x k code) x) end = Ok c1 /\
      extends k (cls e) code c1 /\ is_set c1 x).
    { destruct o as [j|].
      - exists code. split; auto. split; [apply extends_refl|]. exists j. auto.
      - rewrite (proj2 (get_ok _ _ _ _) Hk). cbn [bind]. pose proof (unset_upd code x k X) as U.
        destruct (IH (upd x (Some k) code) x k) as (c1 & E1 & (L1 & K1 & N1) & S1); auto; [lia|rewrite upd_length; auto| |].
        { rewrite nth_error_upd, Nat.eqb_refl. destruct (Nat.ltb_spec x (length code)); [reflexivity|lia]. }
        assert (Sx : nth_error c1 x = Some (Some k)).
        { apply K1. rewrite nth_error_upd, Nat.eqb_refl. destruct (Nat.ltb_spec x (length code)); [reflexivity|lia]. }
        exists c1. split; auto. rewrite upd_length in L1. split; [|exists k; auto].
        split; auto. split.
        + intros y j Hy. apply K1. rewrite nth_error_upd. destruct (Nat.eqb_spec x y) as [->|]; [congruence|auto].
        + intros y Hy Sy. destruct (Nat.eq_dec x y) as [->|Nxy].
          * split; auto.
          * destruct (N1 y) as (Q1 & Q2 & Q3); auto.
            { rewrite nth_error_upd. destruct (Nat.eqb_spec x y); [congruence|auto]. }
            split; auto. split; [congruence|auto]. }
    destruct STEP as (c1 & E1 & X1 & S1). rewrite E1. cbn [bind]. pose proof X1 as (L1 & K1 & _).
    destruct (IHl c1) as (c2 & E2 & X2 & S2).
    { pose proof (unset_le code c1 L1 K1). lia. }
    { lia. }
    { apply K1. auto. }
    { intros f _ Hf. apply HN; auto. simpl. auto. }
    exists c2. split; auto. split; [eapply extends_trans; eauto|]. intros f [<-|Hf]; [|auto].
    destruct S1 as (j & Hj). exists j. apply X2. auto.
Qed.

(** ** the loop over the edges *)
Context (whole : forall (S : nat -> Prop) e, e < n -> S e -> (forall f g, f < n -> cls f = cls e -> S f -> In g (nb f) -> S g) -> forall f, f < n -> cls f = cls e -> S f).

Definition step (fuel : nat) (s : list (option nat) * nat) (i : nat) : res (list (option nat) * nat) :=
  bind (get (fst s) i) (fun k => match k with Some _ => Ok s
    | None => bind (split_worker fuel d (upd i (Some (snd s)) (fst s)) i) (fun code => Ok (code, S (snd s))) end).

Definition coded (order : list nat) (code : list (option nat)) : Prop :=
  length code = n /\ forall e, e < n -> forall j, nth_error code e = Some (Some j) <-> nth_error order j = Some (cls e).

Lemma codes_loop : forall fuel m i order code, n < fuel -> i + m = n -> NoDup order -> (forall c, In c order -> exists e, e < n /\ cls e = c) -> coded order code ->
  (forall e, e < i -> is_set code e) ->
  exists order' code', fold_ok (step fuel) (seq i m) (code, length order) = Ok (code', length order') /\ NoDup order' /\
    (forall c, In c order' -> exists e, e < n /\ cls e = c) /\ coded order' code' /\ (forall e, e < n -> is_set code' e).
Proof.
  intros fuel. induction m as [|m IH]; intros i order code HF Him ND HO HC HS.
  - exists order, code. split; [reflexivity|]. split; auto. split; auto. split; auto. intros e He. apply HS. lia.
  - cbn [seq fold_ok]. destruct HC as (HL & HC). destruct (nth_error code i) as [o|] eqn:X; [|apply nth_error_None in X; lia].
    unfold step at 1. cbn [fst snd]. rewrite (proj2 (get_ok _ _ _ _) X). cbn [bind]. destruct o as [j|].
    + cbn [bind]. apply IH; auto; [lia|split; auto|]. intros e He. destruct (Nat.eq_dec e i) as [->|]; [exists j; auto|]. apply HS. lia.
    + set (k := length order).
      assert (NI : ~ In (cls i) order).
      { intro I. apply In_nth_error in I as (j & Hj). apply HC in Hj; [congruence|lia]. }
      assert (Hu : forall e, nth_error (upd i (Some k) code) e = if i =? e then Some (Some k) else nth_error code e).
      { intro e. rewrite nth_error_upd. destruct (Nat.ltb_spec i (length code)); [reflexivity|lia]. }
      destruct (worker_ok fuel (upd i (Some k) code) i k) as (c1 & E1 & (L1 & K1 & N1) & S1).
      { assert (U : S (unset_count (upd i (Some k) code)) = unset_count code) by (apply unset_upd; auto).
        assert (unset_count code <= length code) by (unfold unset_count; apply filter_le). lia. }
      { rewrite upd_length. auto. } { lia. } { rewrite Hu, Nat.eqb_refl. auto. }
      rewrite E1. cbn [bind]. rewrite upd_length in L1.
      assert (KI : nth_error c1 i = Some (Some k)) by (apply K1; rewrite Hu, Nat.eqb_refl; auto).
      assert (ALL : forall f, f < n -> cls f = cls i -> nth_error c1 f = Some (Some k)).
      { apply (whole (fun f => nth_error c1 f = Some (Some k)) i); [lia|auto|].
        intros f g Lf Cf Sf Hg.
        assert (SG : is_set c1 g).
        { destruct (Nat.eq_dec f i) as [->|Nf]; [auto|].
          destruct (nth_error code f) as [[j|]|] eqn:F.
          - exfalso. apply (proj1 (HC f Lf j)) in F. apply NI. rewrite <- Cf. eapply nth_error_In; eauto.
          - apply (N1 f); auto.
            + rewrite Hu. destruct (Nat.eqb_spec i f); [congruence|auto].
            + exists k. auto.
          - apply nth_error_None in F. lia. }
        destruct (NB f g Lf Hg) as (Lg & Cg). destruct (Nat.eq_dec g i) as [->|Ng]; [auto|].
        destruct (nth_error code g) as [[j|]|] eqn:F.
        - exfalso. apply (proj1 (HC g Lg j)) in F. apply NI. rewrite <- Cf, <- Cg. eapply nth_error_In; eauto.
        - apply (N1 g); auto. rewrite Hu. destruct (Nat.eqb_spec i g); [congruence|auto].
        - apply nth_error_None in F. lia. }
      replace (S k) with (length (order ++ [cls i])) by (rewrite app_length; cbn; unfold k; lia).
      apply IH; auto; try lia.
      * apply NoDup_app_intro; auto; [repeat constructor; simpl; tauto|]. intros x Hx [<-|[]]. auto.
      * intros c Hc. apply in_app_iff in Hc as [Hc|[<-|[]]]; auto. exists i. split; auto. lia.
      * split; [lia|]. intros e He j. destruct (Nat.eq_dec (cls e) (cls i)) as [Q|Q].
        -- rewrite (ALL e He Q). split.
           ++ intro Z. injection Z as <-. unfold k. rewrite nth_error_app2, Nat.sub_diag by lia. cbn. congruence.
           ++ intro Z. do 2 f_equal. destruct (Nat.lt_ge_cases j (length order)) as [Lj|Lj].
              ** rewrite nth_error_app1 in Z by auto. exfalso. apply NI. rewrite <- Q. eapply nth_error_In; eauto.
              ** assert (j < length (order ++ [cls i])) by (apply nth_error_Some; congruence). rewrite app_length in *. cbn in *. unfold k. lia.
        -- assert (EQ : nth_error c1 e = Some (Some j) <-> nth_error code e = Some (Some j)).
           { destruct (nth_error code e) as [[j'|]|] eqn:F.
             - assert (nth_error c1 e = Some (Some j')) as -> ; [|reflexivity]. apply K1. rewrite Hu. destruct (Nat.eqb_spec i e) as [->|]; [congruence|auto].
             - split; [|congruence]. intro Z. exfalso. apply Q. apply (N1 e).
               + rewrite Hu. destruct (Nat.eqb_spec i e) as [->|]; [congruence|auto].
               + exists j. auto.
             - apply nth_error_None in F. lia. }
           rewrite EQ, HC by auto. split; intro Z.
           ++ rewrite nth_error_app1; auto. apply nth_error_Some. congruence.
           ++ destruct (Nat.lt_ge_cases j (length order)) as [Lj|Lj]; [rewrite nth_error_app1 in Z; auto|].
              rewrite nth_error_app2 in Z by auto. destruct (j - length order) as [|[|?]]; cbn in Z; try discriminate. congruence.
      * intros e He. destruct (Nat.eq_dec e i) as [->|]; [exists k; auto|]. destruct (HS e ltac:(lia)) as (j & Hj). exists j. apply K1.
        rewrite Hu. destruct (Nat.eqb_spec i e) as [->|]; [congruence|auto].
Qed.
End Flood.

(** ** the pieces of a union *)
Lemma NoDup_app_inv : forall A (a b : list A), NoDup (a ++ b) -> NoDup a /\ NoDup b /\ forall x, In x a -> ~ In x b.
Proof.
  induction a as [|x a IH]; intros b N; cbn [app] in N.
  - split; [constructor|]. split; auto.
  - inversion N as [|? ? N1 N2]; subst. destruct (IH b N2) as (A1 & A2 & A3). rewrite in_app_iff in N1. split; [constructor; tauto|]. split; auto.
    intros y [<-|Hy]; [tauto|auto].
Qed.
Fixpoint owner (ps : list piece) (e : nat) : nat :=
  match ps with
  | [] => 0
  | p :: ps' => if in_dec Nat.eq_dec e (edges_of p) then 0 else S (owner ps' e)
  end.
Lemma owner_in : forall ps e, In e (flat_map edges_of ps) -> exists p, nth_error ps (owner ps e) = Some p /\ In e (edges_of p).
Proof.
  induction ps as [|p ps IH]; intros e H; [destruct H|]. cbn [owner flat_map] in *. destruct (in_dec Nat.eq_dec e (edges_of p)) as [I|I].
  - exists p. split; auto.
  - apply in_app_iff in H as [H|H]; [tauto|]. exact (IH e H).
Qed.
Lemma owner_eq : forall ps e i p, NoDup (flat_map edges_of ps) -> nth_error ps i = Some p -> In e (edges_of p) -> owner ps e = i.
Proof.
  induction ps as [|q ps IH]; intros e i p ND H I; [destruct i; discriminate|]. cbn [owner flat_map] in *.
  apply NoDup_app_inv in ND as (N1 & N2 & N3). destruct i as [|i]; cbn in H.
  - injection H as ->. destruct (in_dec Nat.eq_dec e (edges_of p)); tauto.
  - destruct (in_dec Nat.eq_dec e (edges_of q)) as [J|J].
    + exfalso. apply (N3 e J). apply in_flat_map. exists p. split; auto. eapply nth_error_In; eauto.
    + f_equal. eapply IH; eauto.
Qed.

Section Union.
Context (d : pd) (ps : list piece) (U : union_of d ps) (SP : forall p, In p ps -> simple_piece (pc p)).

Lemma edges_nodup : NoDup (flat_map edges_of ps).
Proof. eapply Permutation_NoDup; [symmetry; apply (un_edge _ _ U)|apply seq_NoDup]. Qed.
Lemma edge_owned : forall e, e < nedges d <-> In e (flat_map edges_of ps).
Proof.
  intros e. split; intro H.
  - apply (Permutation_in _ (Permutation_sym (un_edge _ _ U))), in_seq. lia.
  - apply (Permutation_in _ (un_edge _ _ U)), in_seq in H. lia.
Qed.
Lemma edge_inj : forall p x y, In p ps -> x < nedges (pc p) -> y < nedges (pc p) -> at_edge p x = at_edge p y -> x = y.
Proof.
  intros p x y Hp Lx Ly E. pose proof edges_nodup as ND. apply in_split in Hp as (l1 & l2 & EQ). rewrite EQ, flat_map_app in ND. cbn [flat_map] in ND.
  apply NoDup_app_inv in ND as (_ & ND & _). apply NoDup_app_inv in ND as (ND & _ & _). unfold edges_of in ND.
  assert (nth x (map (at_edge p) (seq 0 (nedges (pc p)))) (at_edge p 0) = nth y (map (at_edge p) (seq 0 (nedges (pc p)))) (at_edge p 0)) as Q.
  { rewrite !map_nth, !seq_nth by auto. exact E. }
  eapply (proj1 (NoDup_nth _ _) ND) in Q; auto; rewrite map_length, seq_length; auto.
Qed.
Lemma cross_inj : forall p x y, In p ps -> x < ncross (pc p) -> y < ncross (pc p) -> at_cross p x = at_cross p y -> x = y.
Proof.
  intros p x y Hp Lx Ly E. assert (ND : NoDup (flat_map crossings_of ps)) by (eapply Permutation_NoDup; [symmetry; apply (un_cross _ _ U)|apply seq_NoDup]).
  apply in_split in Hp as (l1 & l2 & EQ). rewrite EQ, flat_map_app in ND. cbn [flat_map] in ND.
  apply NoDup_app_inv in ND as (_ & ND & _). apply NoDup_app_inv in ND as (ND & _ & _). unfold crossings_of in ND.
  assert (nth x (map (at_cross p) (seq 0 (ncross (pc p)))) (at_cross p 0) = nth y (map (at_cross p) (seq 0 (ncross (pc p)))) (at_cross p 0)) as Q.
  { rewrite !map_nth, !seq_nth by auto. exact E. }
  eapply (proj1 (NoDup_nth _ _) ND) in Q; auto; rewrite map_length, seq_length; auto.
Qed.

Definition nbs (e : nat) : list nat :=
  match nth_error (p_edge d) e with
  | Some E => if unset_edge E then [] else
      [edge_in (p_cross d) (e_head E, (e_headpos E + 1) mod 4); edge_in (p_cross d) (e_head E, (e_headpos E + 3) mod 4);
       edge_in (p_cross d) (e_tail E, (e_tailpos E + 1) mod 4); edge_in (p_cross d) (e_tail E, (e_tailpos E + 3) mod 4)]
  | None => []
  end.

Lemma drawn_live : forall c e E, drawn c -> edge_at c e E -> unset_edge E = false.
Proof.
  intros c e E D HE. destruct (dr_recorded c D) as (_ & R). destruct (R e E HE) as (S1 & _). apply slot_lt in S1 as (_ & L).
  unfold unset_edge. destruct (Nat.eqb_spec (e_headpos E) 4); [lia|reflexivity].
Qed.
Lemma slot_in : forall p v q y k, In p ps -> slot (pc p) v ((q + k) mod 4) y -> q < 4 ->
  slot d (at_cross p v) ((snd (moved (at_cross p) (at_turn p) v q) + k) mod 4) (at_edge p y).
Proof.
  intros p v q y k Hp S Hq. pose proof (un_inside _ _ U p Hp) as I. pose proof (slot_lt _ _ _ _ S) as (Lv & _).
  apply (in_slot _ _ I) in S. cbn [moved snd] in *. rewrite moved_shift in S; auto. apply (in_turn _ _ I); auto.
Qed.
Lemma slot_ex : forall c v q, v < ncross c -> q < 4 -> exists y, slot c v q y.
Proof.
  intros c v q Hv Hq. destruct (nth_error (p_cross c) v) as [x|] eqn:X; [|apply nth_error_None in X; unfold ncross in Hv; lia].
  exists (cedge x q). split; eauto.
Qed.

Lemma nbs_spec : forall p x, In p ps -> drawn (pc p) -> x < nedges (pc p) -> forall f,
  In f (nbs (at_edge p x)) <-> exists v q y, slot (pc p) v q x /\ (slot (pc p) v ((q + 1) mod 4) y \/ slot (pc p) v ((q + 3) mod 4) y) /\ f = at_edge p y.
Proof.
  intros p x Hp D Lx f. pose proof (un_inside _ _ U p Hp) as I. destruct (edge_at_ex (pc p) x Lx) as (E & HE).
  destruct (in_edge _ _ I x E HE) as (E' & HE' & Q). rewrite (drawn_live _ _ _ D HE) in Q. destruct Q as (Q1 & Q2).
  pose proof (dr_recorded _ D) as R. pose proof R as (_ & Rr). destruct (Rr x E HE) as (S1 & S2).
  pose proof (slot_lt _ _ _ _ S1) as (L1 & P1). pose proof (slot_lt _ _ _ _ S2) as (L2 & P2).
  unfold head_slot, tail_slot in Q1, Q2. apply MoveProofs.pair_eq in Q1 as (A1 & B1). apply MoveProofs.pair_eq in Q2 as (A2 & B2).
  assert (LV : unset_edge E' = false).
  { unfold unset_edge. assert (e_headpos E' < 4) by (rewrite B1; apply mod4_lt). destruct (Nat.eqb_spec (e_headpos E') 4); [lia|reflexivity]. }
  assert (SL : forall v q k, v < ncross (pc p) -> q < 4 -> exists y, slot (pc p) v ((q + k) mod 4) y /\
    edge_in (p_cross d) (at_cross p v, ((q + 4 - at_turn p v) mod 4 + k) mod 4) = at_edge p y).
  { intros v q k Hv Hq. destruct (slot_ex (pc p) v ((q + k) mod 4) Hv (mod4_lt _)) as (y & Sy). exists y. split; auto.
    apply slot_edge_in. exact (slot_in p v q y k Hp Sy Hq). }
  unfold nbs. unfold edge_at in HE'. rewrite HE', LV, A1, B1, A2, B2.
  destruct (SL (e_head E) (e_headpos E) 1 L1 P1) as (y1 & T1 & F1). destruct (SL (e_head E) (e_headpos E) 3 L1 P1) as (y2 & T2 & F2).
  destruct (SL (e_tail E) (e_tailpos E) 1 L2 P2) as (y3 & T3 & F3). destruct (SL (e_tail E) (e_tailpos E) 3 L2 P2) as (y4 & T4 & F4).
  rewrite F1, F2, F3, F4. split.
  - intros [<-|[<-|[<-|[<-|[]]]]].
    + exists (e_head E), (e_headpos E), y1. auto.
    + exists (e_head E), (e_headpos E), y2. auto.
    + exists (e_tail E), (e_tailpos E), y3. auto.
    + exists (e_tail E), (e_tailpos E), y4. auto.
  - intros (v & q & y & Sx & [Sy|Sy] & ->); (destruct (slot_end _ _ _ _ _ R (dr_ends _ D) Sx HE) as [Z|Z]; unfold head_slot, tail_slot in Z; apply MoveProofs.pair_eq in Z as (-> & ->)).
    + rewrite (slot_fun _ _ _ _ _ Sy T1). simpl. auto.
    + rewrite (slot_fun _ _ _ _ _ Sy T3). simpl. auto.
    + rewrite (slot_fun _ _ _ _ _ Sy T2). simpl. auto.
    + rewrite (slot_fun _ _ _ _ _ Sy T4). simpl. auto.
Qed.
Lemma nbs_circle : forall p x tag, In p ps -> circle (pc p) tag -> x < nedges (pc p) -> nbs (at_edge p x) = [].
Proof.
  intros p x tag Hp (C1 & (E & C2 & UE) & C3) Lx. pose proof (un_inside _ _ U p Hp) as I. unfold nedges in Lx. rewrite C2 in Lx. cbn in Lx. assert (x = 0) as -> by lia.
  destruct (in_edge _ _ I 0 E) as (E' & HE' & Q); [unfold edge_at; rewrite C2; reflexivity|]. rewrite UE in Q.
  unfold nbs. unfold edge_at in HE'. rewrite HE', Q. reflexivity.
Qed.

Lemma local_edge : forall e, e < nedges d -> exists p x, nth_error ps (owner ps e) = Some p /\ In p ps /\ x < nedges (pc p) /\ e = at_edge p x.
Proof.
  intros e He. apply edge_owned in He. destruct (owner_in ps e He) as (p & Hp & I). unfold edges_of in I. apply in_map_iff in I as (x & <- & Hx). apply in_seq in Hx.
  exists p, x. split; auto. split; [eapply nth_error_In; eauto|]. split; [lia|auto].
Qed.
Lemma owner_at : forall p i x, nth_error ps i = Some p -> x < nedges (pc p) -> owner ps (at_edge p x) = i.
Proof.
  intros p i x Hp Lx. eapply owner_eq; eauto using edges_nodup. unfold edges_of. apply in_map, in_seq. lia.
Qed.
Lemma at_edge_lt : forall p x, In p ps -> x < nedges (pc p) -> at_edge p x < nedges d.
Proof.
  intros p x Hp Lx. apply edge_owned, in_flat_map. exists p. split; auto. unfold edges_of. apply in_map, in_seq. lia.
Qed.

Lemma nbs_class : forall e f, e < nedges d -> In f (nbs e) -> f < nedges d /\ owner ps f = owner ps e.
Proof.
  intros e f He Hf. destruct (local_edge e He) as (p & x & Hn & Hp & Lx & ->). destruct (SP p Hp) as [(tag & C)|D].
  - rewrite (nbs_circle p x tag Hp C Lx) in Hf. destruct Hf.
  - apply (nbs_spec p x Hp D Lx) in Hf as (v & q & y & Sx & Sy & ->).
    assert (Ly : y < nedges (pc p)) by (destruct Sy as [Sy|Sy]; eapply consistent_bound; eauto; apply D).
    split; [apply at_edge_lt; auto|]. rewrite (owner_at p _ y Hn Ly). reflexivity.
Qed.

Lemma worker_unfold : forall f code e, e < nedges d -> split_worker (S f) d code e =
  fold_ok (fun code x => bind (get code x) (fun k => match k with Some _ => Ok code | None => bind (get code e) (fun k => split_worker f d (upd x k code) x) end)) (nbs e) code.
Proof.
  intros f code e He. cbn [split_worker]. destruct (edge_at_ex d e He) as (E & HE). unfold nbs. unfold edge_at in HE. rewrite (proj2 (get_ok _ _ _ _) HE), HE. cbn [bind].
  destruct (unset_edge E) eqn:UE; [reflexivity|].
  assert (L : e_head E < ncross d /\ e_tail E < ncross d).
  { destruct (local_edge e He) as (p & x & Hn & Hp & Lx & ->). pose proof (un_inside _ _ U p Hp) as I. destruct (edge_at_ex (pc p) x Lx) as (X & HX).
    destruct (in_edge _ _ I x X HX) as (E' & HE' & Q). unfold edge_at in HE'. rewrite HE in HE'. injection HE' as <-. destruct (unset_edge X) eqn:UX; [congruence|].
    destruct (SP p Hp) as [(tag & C1 & (X' & C2 & UX') & _)|D].
    - unfold edge_at in HX. rewrite C2 in HX. destruct x as [|[|x]]; cbn in HX; congruence.
    - destruct (dr_recorded _ D) as (_ & Rr). destruct (Rr x X HX) as (S1 & S2). apply (in_slot _ _ I) in S1, S2.
      destruct Q as (Q1 & Q2). unfold head_slot, tail_slot, moved in Q1, Q2. apply MoveProofs.pair_eq in Q1 as (-> & _). apply MoveProofs.pair_eq in Q2 as (-> & _).
      apply slot_lt in S1, S2. tauto. }
  destruct L as (L1 & L2). unfold ncross in L1, L2.
  destruct (nth_error (p_cross d) (e_head E)) as [H|] eqn:XH; [|apply nth_error_None in XH; lia].
  destruct (nth_error (p_cross d) (e_tail E)) as [T|] eqn:XT; [|apply nth_error_None in XT; lia].
  rewrite (proj2 (get_ok _ _ _ _) XH), (proj2 (get_ok _ _ _ _) XT). cbn [bind]. unfold edge_in. cbn [fst snd]. rewrite XH, XT. reflexivity.
Qed.

(** a set of edges that is closed under neighbours contains the whole piece of each member *)
Lemma piece_whole : forall (S : nat -> Prop) e, e < nedges d -> S e ->
  (forall f g, f < nedges d -> owner ps f = owner ps e -> S f -> In g (nbs f) -> S g) -> forall f, f < nedges d -> owner ps f = owner ps e -> S f.
Proof.
  intros S e He Se CL f Hf OF. destruct (local_edge e He) as (p & x & Hn & Hp & Lx & ->). destruct (local_edge f Hf) as (p' & y & Hn' & _ & Ly & ->).
  rewrite OF, Hn in Hn'. injection Hn' as <-. destruct (SP p Hp) as [(tag & C1 & (X & C2 & _) & _)|D].
  { unfold nedges in Lx, Ly. rewrite C2 in Lx, Ly. cbn in Lx, Ly. assert (y = x) as -> by lia. auto. }
  pose proof (dr_recorded _ D) as R. pose proof (dr_ends _ D) as T.
  assert (STEP : forall v q a b, slot (pc p) v q a -> slot (pc p) v ((q + 1) mod 4) b -> S (at_edge p a) -> S (at_edge p b)).
  { intros v q a b Sa Sb HS. assert (La : a < nedges (pc p)) by (eapply consistent_bound; eauto).
    apply (CL (at_edge p a)); auto; [apply at_edge_lt; auto|rewrite !(owner_at p _ _ Hn) by auto; reflexivity|]. apply nbs_spec; auto. exists v, q, b. auto. }
  assert (ARND : forall v q a r b, slot (pc p) v q a -> slot (pc p) v r b -> S (at_edge p a) -> S (at_edge p b)).
  { intros v q a r b Sa Sb HS. pose proof (slot_lt _ _ _ _ Sa) as (Lv & Lq). pose proof (slot_lt _ _ _ _ Sb) as (_ & Lr).
    destruct (slot_ex (pc p) v ((q + 1) mod 4) Lv (mod4_lt _)) as (b1 & S1).
    destruct (slot_ex (pc p) v (((q + 1) mod 4 + 1) mod 4) Lv (mod4_lt _)) as (b2 & S2).
    destruct (slot_ex (pc p) v ((((q + 1) mod 4 + 1) mod 4 + 1) mod 4) Lv (mod4_lt _)) as (b3 & S3).
    pose proof (STEP _ _ _ _ Sa S1 HS) as H1. pose proof (STEP _ _ _ _ S1 S2 H1) as H2. pose proof (STEP _ _ _ _ S2 S3 H2) as H3.
    assert (r = q \/ r = (q + 1) mod 4 \/ r = ((q + 1) mod 4 + 1) mod 4 \/ r = (((q + 1) mod 4 + 1) mod 4 + 1) mod 4) as [Z|[Z|[Z|Z]]].
    { clear -Lq Lr. destruct q as [|[|[|[|?]]]], r as [|[|[|[|?]]]]; cbn; lia. }
    - rewrite Z in Sb. rewrite (slot_fun _ _ _ _ _ Sb Sa). auto.
    - rewrite Z in Sb. rewrite (slot_fun _ _ _ _ _ Sb S1). auto.
    - rewrite Z in Sb. rewrite (slot_fun _ _ _ _ _ Sb S2). auto.
    - rewrite Z in Sb. rewrite (slot_fun _ _ _ _ _ Sb S3). auto. }
  assert (CR : forall v w, clos_refl_trans nat (joined (pc p)) v w -> (forall q a, slot (pc p) v q a -> S (at_edge p a)) -> forall q a, slot (pc p) w q a -> S (at_edge p a)).
  { intros v w K. induction K as [v w (a & q & r & S1 & S2)|v|v w z _ IH1 _ IH2].
    - intros H r' b Sb. eapply (ARND w r a); eauto.
    - auto.
    - intros H. apply IH2. apply IH1. exact H. }
  destruct (edge_at_ex (pc p) x Lx) as (X & HX). destruct (edge_at_ex (pc p) y Ly) as (Y & HY). destruct R as (R1 & Rr).
  destruct (Rr x X HX) as (Sx & _). destruct (Rr y Y HY) as (Sy & _). pose proof (slot_lt _ _ _ _ Sx) as (Lv & _). pose proof (slot_lt _ _ _ _ Sy) as (Lw & _).
  apply (CR (e_head X) (e_head Y) (dr_connected _ D _ _ Lv Lw)) with (q := e_headpos Y); auto.
  intros q a Sa. eapply (ARND _ _ x); eauto.
Qed.

Lemma piece_some : forall p, In p ps -> 0 < nedges (pc p).
Proof.
  intros p Hp. destruct (SP p Hp) as [(tag & C1 & (X & C2 & _) & _)|D].
  - unfold nedges. rewrite C2. cbn. lia.
  - destruct (dr_recorded _ D) as (E & _). pose proof (dr_some _ D). lia.
Qed.

Theorem codes_ok : forall fuel, nedges d < fuel -> exists ps' code, split_codes fuel d = Ok (code, length ps') /\ Permutation ps ps' /\
  length code = nedges d /\ forall j p, nth_error ps' j = Some p -> forall e, nth_error code e = Some (Some j) <-> In e (edges_of p).
Proof.
  intros fuel HF.
  destruct (codes_loop d (nedges d) nbs (owner ps) worker_unfold nbs_class piece_whole fuel (nedges d) 0 [] (repeat None (nedges d))) as (order & code & E & ND & HO & (HL & HC) & HS); auto.
  - constructor.
  - intros c [].
  - split; [apply repeat_length|]. intros e He j. split; intro Z.
    + apply nth_error_In, repeat_spec in Z. discriminate.
    + destruct j; discriminate.
  - intros e He. lia.
  - assert (PO : Permutation order (seq 0 (length ps))).
    { apply NoDup_Permutation; auto using seq_NoDup. intro c. rewrite in_seq. split.
      - intro Hc. destruct (HO c Hc) as (e & He & <-). destruct (local_edge e He) as (p & x & Hn & _). split; [lia|]. apply nth_error_Some. congruence.
      - intros (_ & Lc). cbn in Lc. destruct (nth_error ps c) as [p|] eqn:P; [|apply nth_error_None in P; lia].
        pose proof (nth_error_In _ _ P) as Hp. pose proof (piece_some p Hp) as L0. pose proof (at_edge_lt p 0 Hp L0) as Le.
        destruct (HS _ Le) as (j & Hj). apply HC in Hj; auto. rewrite (owner_at p c 0 P L0) in Hj. eapply nth_error_In; eauto. }
    set (dp := mkPiece d (fun x => x) (fun x => x) (fun x => x)).
    exists (map (fun i => nth i ps dp) order), code. rewrite map_length. split; [exact E|]. split; [|split; auto].
    + etransitivity; [|apply Permutation_map, Permutation_sym, PO]. clear.
      assert (map (fun i => nth i ps dp) (seq 0 (length ps)) = ps) as ->; [|reflexivity].
      apply nth_ext with (d := nth 0 ps dp) (d' := dp); [rewrite map_length, seq_length; reflexivity|]. intros n Hn. rewrite map_length, seq_length in Hn.
      rewrite (map_nth (fun i => nth i ps dp)), seq_nth by auto. reflexivity.
    + intros j p Hj e. rewrite nth_error_map in Hj. destruct (nth_error order j) as [i|] eqn:J; [|discriminate]. cbn [option_map] in Hj. injection Hj as Hj.
      assert (Li : i < length ps) by (apply nth_error_In in J; apply (Permutation_in _ PO), in_seq in J; lia).
      assert (Hi : nth_error ps i = Some p) by (rewrite (nth_error_nth' _ dp) by auto; congruence).
      split; intro Z.
      * assert (Le : e < nedges d) by (rewrite <- HL; apply nth_error_Some; congruence). apply HC in Z; auto. rewrite J in Z. injection Z as Z.
        apply edge_owned in Le. destruct (owner_in ps e Le) as (p' & Hp' & I). rewrite <- Z, Hi in Hp'. injection Hp' as <-. exact I.
      * assert (Le : e < nedges d) by (apply edge_owned, in_flat_map; exists p; split; auto; eapply nth_error_In; eauto).
        apply HC; auto. rewrite J. f_equal. symmetry. eapply owner_eq; eauto using edges_nodup.
Qed.
End Union.
