(** The Whitten group acts on curves. *)
From Coq Require Import List ZArith Lia Bool Arith.
From Verif Require Import Base Pd PdProofs PdCross PlcConstraints PlcStrands PlcStrandsProofs Whitten WhittenSpec.
Import ListNotations.
Open Scope nat_scope.
Open Scope res_scope.

Lemma nth_error_ext : forall {A} (l l' : list A), (forall i, nth_error l i = nth_error l' i) -> l = l'.
Proof.
  intros A. induction l as [|a l IH]; intros [|b l'] H; auto; try (specialize (H 0); discriminate H). pose proof (H 0) as H0. cbn in H0. injection H0 as ->. f_equal. apply IH. intros i. apply (H (S i)).
Qed.
(** ** the permutation *)
Lemma perm_scan_none : forall p ind n i, i + n <= length p -> (forall j, i <= j -> j < i + n -> nth_error p j <> Some ind) -> perm_scan n i p ind = Ok ind.
Proof.
  intros p ind. induction n as [|n IH]; intros i L H; auto. cbn [perm_scan]. destruct (nth_error p i) as [a|] eqn:Q; [|apply nth_error_None in Q; lia]. rewrite (proj2 (get_ok _ _ _ _) Q). cbn [bind].
  destruct (Z.eqb_spec a ind) as [E|E]; [subst a; exfalso; apply (H i); auto; lia|]. apply IH; [lia|]. intros j A B. apply H; lia.
Qed.
Lemma perm_scan_some : forall p ind v n i k, i <= k -> k < i + n -> i + n <= length p -> nth_error p k = Some ind -> nth_error p (k + 1) = Some v -> (forall j, j < k -> nth_error p j <> Some ind) -> perm_scan n i p ind = Ok v.
Proof.
  intros p ind v. induction n as [|n IH]; intros i k A B L H1 H2 H3; [lia|]. cbn [perm_scan]. destruct (nth_error p i) as [a|] eqn:Q; [|apply nth_error_None in Q; lia]. rewrite (proj2 (get_ok _ _ _ _) Q). cbn [bind].
  destruct (Nat.eq_dec i k) as [E|E].
  - subst k. rewrite Q in H1. injection H1 as ->. rewrite Z.eqb_refl. apply get_ok. auto.
  - destruct (Z.eqb_spec a ind) as [E'|E']; [subst a; exfalso; apply (H3 i); auto; lia|]. apply (IH (i + 1) k); auto; lia.
Qed.
Lemma perm_scan_spec : forall nc arr p i, writes_perm nc arr p -> i < nc -> perm_scan (2 * nc) 0 arr (Z.of_nat i) = Ok (Z.of_nat (p i)).
Proof.
  intros nc arr p i (L & H) Hi. destruct (H i Hi) as [(N & E)|(k & H1 & H2 & H3)].
  - rewrite E. apply perm_scan_none; [lia|]. intros j _ _ K. apply N. eapply nth_error_In; eauto.
  - apply (perm_scan_some _ _ _ _ _ k); auto; try lia. assert (k < length arr) by (apply nth_error_Some; congruence). lia.
Qed.
Lemma distinct_true : forall l, NoDup l -> distinct l = true.
Proof.
  induction l as [|a l IH]; intros N; auto. inversion N as [|? ? N1 N2]; subst. cbn [distinct]. rewrite (IH N2), andb_true_r. apply negb_true_iff. destruct (existsb (Z.eqb a) l) eqn:Q; auto.
  exfalso. apply existsb_exists in Q as (b & Hb & E). apply Z.eqb_eq in E. subst b. auto.
Qed.
(** ** one component *)
Section One.
Context {V K : Type} (flip : V -> V).
Notation strand := (strand V K).
Notation plcurve := (plcurve V K).
Lemma flips_spec : forall n i (b : list V), i + n + 1 <= length b -> exists b', flips flip n i b = Ok b' /\ length b' = length b /\
  forall j, nth_error b' j = if (i + 1 <=? j) && (j <? i + 1 + n) then option_map flip (nth_error b j) else nth_error b j.
Proof.
  induction n as [|n IH]; intros i b L.
  - exists b. split; auto. split; auto. intros j. destruct (Nat.leb_spec (i + 1) j); destruct (Nat.ltb_spec j (i + 1 + 0)); cbn [andb]; auto; lia.
  - cbn [flips]. destruct (nth_error b (i + 1)) as [v|] eqn:Q; [|apply nth_error_None in Q; lia]. rewrite (proj2 (get_ok _ _ _ _) Q). cbn [bind].
    destruct (IH (i + 1) (upd (i + 1) (flip v) b)) as (b' & E & L' & H); [rewrite upd_length; lia|]. exists b'. split; auto. split; [rewrite L', upd_length; auto|].
    intros j. rewrite H, nth_error_upd. destruct (Nat.eqb_spec (i + 1) j) as [Ej|Ej].
    + subst j. rewrite Q. rewrite (proj2 (Nat.ltb_lt (i + 1) (length b))) by lia. rewrite (proj2 (Nat.leb_gt (i + 1 + 1) (i + 1))) by lia. rewrite Nat.leb_refl, (proj2 (Nat.ltb_lt (i + 1) (i + 1 + S n))) by lia. reflexivity.
    + destruct (Nat.leb_spec (i + 1 + 1) j); destruct (Nat.leb_spec (i + 1) j); destruct (Nat.ltb_spec j (i + 1 + 1 + n)); destruct (Nat.ltb_spec j (i + 1 + S n)); cbn [andb]; auto; lia.
Qed.
Lemma swaps_spec : forall {A} off nv k i (l : list A), 2 * (i + k) <= nv -> nv + off <= length l -> exists l', swaps off nv k i l = Ok l' /\ length l' = length l /\
  forall j, nth_error l' j = if (off <=? j) && (j <? off + nv) && (((i <=? j - off) && (j - off <? i + k)) || ((i <=? nv - 1 - (j - off)) && (nv - 1 - (j - off) <? i + k))) then nth_error l (off + (nv - 1 - (j - off))) else nth_error l j.
Proof.
  intros A off nv. induction k as [|k IH]; intros i l Hk L.
  - exists l. split; auto. split; auto. intros j. destruct (Nat.leb_spec i (j - off)); destruct (Nat.ltb_spec (j - off) (i + 0)); try lia; destruct (Nat.leb_spec i (nv - 1 - (j - off))); destruct (Nat.ltb_spec (nv - 1 - (j - off)) (i + 0)); try lia; cbn [andb orb]; rewrite andb_false_r; auto.
  - cbn [swaps]. destruct (nth_error l (i + off)) as [a|] eqn:Qa; [|apply nth_error_None in Qa; lia]. rewrite (proj2 (get_ok _ _ _ _) Qa). cbn [bind].
    destruct (nth_error l (nv - i - 1 + off)) as [b|] eqn:Qb; [|apply nth_error_None in Qb; lia]. rewrite (proj2 (get_ok _ _ _ _) Qb). cbn [bind].
    destruct (IH (i + 1) (upd (nv - i - 1 + off) a (upd (i + off) b l))) as (l' & E & L' & H); [lia|rewrite !upd_length; lia|]. exists l'. split; auto. split; [rewrite L', !upd_length; auto|].
    intros j. rewrite H, !nth_error_upd, !upd_length. rewrite (proj2 (Nat.ltb_lt (nv - i - 1 + off) (length l))), (proj2 (Nat.ltb_lt (i + off) (length l))) by lia.
    destruct (Nat.leb_spec off j) as [A1|A1]; destruct (Nat.ltb_spec j (off + nv)) as [A2|A2]; cbn [andb].
    + destruct (Nat.eq_dec j (i + off)) as [B1|B1]; [|destruct (Nat.eq_dec j (nv - i - 1 + off)) as [B2|B2]].
      * subst j. replace (i + off - off) with i by lia. rewrite (proj2 (Nat.leb_gt (i + 1) i)) by lia. rewrite (proj2 (Nat.ltb_ge (nv - 1 - i) (i + 1 + k))) by lia. rewrite andb_false_r. cbn [andb orb]. rewrite Nat.leb_refl, (proj2 (Nat.ltb_lt i (i + S k))) by lia. cbn [andb orb].
        rewrite (proj2 (Nat.eqb_neq (nv - i - 1 + off) (i + off))) by lia. rewrite Nat.eqb_refl. rewrite <- Qb. f_equal. lia.
      * subst j. replace (nv - i - 1 + off - off) with (nv - i - 1) by lia. replace (nv - 1 - (nv - i - 1)) with i by lia. rewrite (proj2 (Nat.leb_gt (i + 1) i)) by lia. rewrite (proj2 (Nat.ltb_ge (nv - i - 1) (i + 1 + k))) by lia. rewrite andb_false_r. cbn [andb orb].
        rewrite Nat.leb_refl, (proj2 (Nat.ltb_lt i (i + S k))) by lia. cbn [andb]. rewrite orb_true_r. rewrite Nat.eqb_refl. rewrite <- Qa. f_equal. lia.
      * assert (C : ((i + 1 <=? j - off) && (j - off <? i + 1 + k)) || ((i + 1 <=? nv - 1 - (j - off)) && (nv - 1 - (j - off) <? i + 1 + k)) = ((i <=? j - off) && (j - off <? i + S k)) || ((i <=? nv - 1 - (j - off)) && (nv - 1 - (j - off) <? i + S k))).
        { f_equal; f_equal; apply eq_true_iff_eq; rewrite ?Nat.leb_le, ?Nat.ltb_lt; lia. }
        rewrite C. clear C. rewrite (proj2 (Nat.eqb_neq (nv - i - 1 + off) j)), (proj2 (Nat.eqb_neq (i + off) j)), (proj2 (Nat.eqb_neq (nv - i - 1 + off) (off + _))), (proj2 (Nat.eqb_neq (i + off) (off + _))) by lia. reflexivity.
    + rewrite (proj2 (Nat.eqb_neq (nv - i - 1 + off) _)) by lia. rewrite (proj2 (Nat.eqb_neq (i + off) _)) by lia. reflexivity.
    + rewrite (proj2 (Nat.eqb_neq (nv - i - 1 + off) _)) by lia. rewrite (proj2 (Nat.eqb_neq (i + off) _)) by lia. reflexivity.
    + lia.
Qed.
Lemma swaps_all : forall {A} off nv (l : list A), nv + off <= length l -> exists l', swaps off nv (nv / 2) 0 l = Ok l' /\ length l' = length l /\
  forall j, nth_error l' j = if (off <=? j) && (j <? off + nv) then nth_error l (off + (nv - 1 - (j - off))) else nth_error l j.
Proof.
  intros A off nv l L. pose proof (Nat.div_mod nv 2 ltac:(lia)) as DM. pose proof (Nat.mod_upper_bound nv 2 ltac:(lia)) as MB. destruct (swaps_spec off nv (nv / 2) 0 l) as (l' & E & L' & H); try lia. exists l'. split; auto. split; auto. intros j. rewrite H.
  destruct ((off <=? j) && (j <? off + nv)) eqn:Q; cbn [andb]; auto. apply andb_true_iff in Q as (Q1 & Q2). apply Nat.leb_le in Q1. apply Nat.ltb_lt in Q2. cbn [Nat.leb andb]. rewrite !Nat.add_0_l.
  destruct (Nat.ltb_spec (j - off) (nv / 2)); cbn [orb]; auto. destruct (Nat.ltb_spec (nv - 1 - (j - off)) (nv / 2)); auto. f_equal. lia.
Qed.
Lemma mirror_carried : forall s : strand, strand_wf s -> exists s', mirror_strand flip s = Ok s' /\ strand_wf s' /\ s_nv s' = s_nv s /\ s_open s' = s_open s /\ s_clr s' = s_clr s /\
  forall i, (0 <= i < s_nv s)%Z -> vertex s' i = option_map flip (vertex s i).
Proof.
  intros s (W1 & W2). unfold mirror_strand. destruct (flips_spec (Z.to_nat (s_nv s)) 0 (s_buf s)) as (b & E & L & H); [lia|]. rewrite E. cbn [bind]. eexists. split; [reflexivity|]. cbn. split; [split; cbn; lia|]. repeat split; auto.
  intros i Hi. unfold vertex. cbn [s_buf]. rewrite (proj2 (Z.ltb_ge (i + 1) 0)) by lia. rewrite H. rewrite (proj2 (Nat.leb_le _ _)), (proj2 (Nat.ltb_lt _ _)) by lia. reflexivity.
Qed.
Lemma rev_of_swaps : forall {A} (l l' : list A), length l' = length l -> (forall j, nth_error l' j = if (0 <=? j) && (j <? 0 + length l) then nth_error l (0 + (length l - 1 - (j - 0))) else nth_error l j) -> l' = rev l.
Proof.
  intros A l l' L H. apply nth_error_ext. intros j. rewrite H. cbn [Nat.leb andb Nat.add]. rewrite Nat.sub_0_r. destruct (Nat.ltb_spec j (length l)) as [Lt|Ge].
  - destruct l as [|d l0] eqn:El; [cbn in Lt; lia|]. rewrite <- El in *. rewrite (nth_error_nth' l d) by lia. rewrite (nth_error_nth' (rev l) d) by (rewrite rev_length; lia). rewrite rev_nth by lia. f_equal. f_equal. lia.
  - rewrite (proj2 (nth_error_None _ _)) by lia. rewrite (proj2 (nth_error_None _ _)); auto. rewrite rev_length. lia.
Qed.
Lemma reverse_carried : forall s : strand, strand_wf s -> exists s', reverse_strand s = Ok s' /\ strand_wf s' /\ s_nv s' = s_nv s /\ s_open s' = s_open s /\
  s_clr s' = (if Z.eqb (Z.of_nat (length (s_clr s))) (s_nv s) then rev (s_clr s) else s_clr s) /\
  forall i, (0 <= i < s_nv s)%Z -> vertex s' i = vertex s (s_nv s - 1 - i)%Z.
Proof.
  intros s (W1 & W2). unfold reverse_strand. destruct (swaps_all 1 (Z.to_nat (s_nv s)) (s_buf s)) as (b & E & L & H); [lia|]. rewrite E. cbn [bind].
  assert (C : exists c, (if length (s_clr s) =? Z.to_nat (s_nv s) then swaps 0 (Z.to_nat (s_nv s)) (Z.to_nat (s_nv s) / 2) 0 (s_clr s) else Ok (s_clr s)) = Ok c /\ c = (if Z.eqb (Z.of_nat (length (s_clr s))) (s_nv s) then rev (s_clr s) else s_clr s)).
  { destruct (Nat.eqb_spec (length (s_clr s)) (Z.to_nat (s_nv s))) as [Q|Q].
    - rewrite <- Q. destruct (swaps_all 0 (length (s_clr s)) (s_clr s)) as (c & Ec & Lc & Hc); [lia|]. exists c. split; auto. rewrite (proj2 (Z.eqb_eq _ _)) by lia. apply rev_of_swaps; auto.
    - eexists. split; [reflexivity|]. rewrite (proj2 (Z.eqb_neq _ _)) by lia. reflexivity. }
  destruct C as (c & Ec & Hc). rewrite Ec. cbn [bind]. eexists. split; [reflexivity|]. cbn. split; [split; cbn; lia|]. split; auto. split; auto. split; auto.
  intros i Hi. unfold vertex. cbn [s_buf]. rewrite (proj2 (Z.ltb_ge (i + 1) 0)), (proj2 (Z.ltb_ge (s_nv s - 1 - i + 1) 0)) by lia. rewrite H. rewrite (proj2 (Nat.leb_le _ _)), (proj2 (Nat.ltb_lt _ _)) by lia. cbn [andb]. f_equal. lia.
Qed.
(** a wrapped component is determined by its vertices *)
Lemma wrapped_unique : forall s t : strand, strand_wf s -> strand_wf t -> wrapped s -> wrapped t -> s_nv s = s_nv t -> s_open s = s_open t -> s_clr s = s_clr t ->
  (forall i, (0 <= i < s_nv s)%Z -> vertex s i = vertex t i) -> s = t.
Proof.
  intros s t (A1 & A2) (B1 & B2) Ws Wt N O C H.
  assert (X : forall i, (-1 <= i <= s_nv s)%Z -> vertex s i = vertex t i).
  { intros i Hi. destruct (Z.eq_dec i (-1)) as [->|E1]; [|destruct (Z.eq_dec i (s_nv s)) as [->|E2]; [|apply H; lia]]; unfold wrapped in Ws, Wt; rewrite <- O, <- N in Wt; destruct (s_open s).
    - destruct Ws as (-> & _), Wt as (-> & _). apply H. lia.
    - destruct Ws as (_ & -> & _), Wt as (_ & -> & _). apply H. lia.
    - destruct Ws as (_ & ->), Wt as (_ & ->). apply H. lia.
    - destruct Ws as (_ & _ & ->), Wt as (_ & _ & ->). apply H. lia. }
  assert (B : s_buf s = s_buf t).
  { apply nth_error_ext. intros k. destruct (Nat.ltb_spec k (length (s_buf s))) as [Lt|Ge].
    - specialize (X (Z.of_nat k - 1)%Z ltac:(lia)). unfold vertex in X. rewrite (proj2 (Z.ltb_ge (Z.of_nat k - 1 + 1) 0)) in X by lia. replace (Z.to_nat (Z.of_nat k - 1 + 1)) with k in X by lia. auto.
    - rewrite !(proj2 (nth_error_None _ _)) by lia. reflexivity. }
  destruct s, t. cbn in *. congruence.
Qed.
Lemma carried_unique : forall m e (s s1 s2 : strand), strand_wf s1 -> strand_wf s2 -> wrapped s1 -> wrapped s2 -> carried flip m e s s1 -> carried flip m e s s2 -> s1 = s2.
Proof.
  intros m e s s1 s2 W1 W2 R1 R2 (A1 & A2 & A3 & A4) (B1 & B2 & B3 & B4). apply wrapped_unique; auto; try congruence. intros i Hi. rewrite A3, B3 by lia. reflexivity.
Qed.
Lemma fix_strands_spec : forall l : list strand, Forall strand_wf l -> exists l', fix_strands l = Ok l' /\ length l' = length l /\
  forall i s, nth_error l i = Some s -> exists s', nth_error l' i = Some s' /\ strand_wf s' /\ wrapped s' /\ s_nv s' = s_nv s /\ s_clr s' = s_clr s /\ s_open s' = (s_open s || (s_nv s <? 3)%Z) /\ forall j, (0 <= j < s_nv s)%Z -> vertex s' j = vertex s j.
Proof.
  induction l as [|s l IH]; intros F; [exists []; repeat split; auto; intros [|i] s H; discriminate H|]. inversion F as [|? ? F1 F2]; subst. destruct (fix_strand_ok s F1) as (s' & E & R). destruct (IH F2) as (l' & El & Ll & Hl).
  exists (s' :: l'). cbn [fix_strands]. rewrite E. cbn [bind]. rewrite El. cbn [bind]. split; auto. split; [cbn; lia|]. intros [|i] t H; [cbn in *; injection H as <-; eauto|]. apply (Hl i t); auto.
Qed.
Lemma reversals_spec : forall eps (ss : list strand) cp, Forall strand_wf ss -> cp + length ss <= length eps -> exists ss', reversals eps cp ss [] = Ok (ss', []) /\ length ss' = length ss /\
  forall i s e, nth_error ss i = Some s -> nth_error eps (cp + i) = Some e -> exists s', nth_error ss' i = Some s' /\ strand_wf s' /\ s_nv s' = s_nv s /\ s_open s' = s_open s /\
    s_clr s' = (if Z.eqb e (-1) && Z.eqb (Z.of_nat (length (s_clr s))) (s_nv s) then rev (s_clr s) else s_clr s) /\
    forall j, (0 <= j < s_nv s)%Z -> vertex s' j = vertex s (if Z.eqb e (-1) then s_nv s - 1 - j else j)%Z.
Proof.
  intros eps. induction ss as [|s ss IH]; intros cp F L; [exists []; repeat split; auto; intros [|i] s e H; discriminate H|]. inversion F as [|? ? F1 F2]; subst. cbn [length] in L. cbn [reversals].
  destruct (nth_error eps cp) as [e|] eqn:Q; [|apply nth_error_None in Q; lia]. rewrite (proj2 (get_ok _ _ _ _) Q). cbn [bind]. destruct (IH (cp + 1) F2 ltac:(lia)) as (ss' & E' & L' & H'). destruct (reverse_carried s F1) as (t & Et & Wt & N & O & C & X).
  assert (ST : exists u, (if Z.eqb e (-1) then do s' <- reverse_strand s; Ok (s', map (turn_cst (s_nv s)) []) else Ok (s, [])) = Ok (u, []) /\ strand_wf u /\ s_nv u = s_nv s /\ s_open u = s_open s /\
    s_clr u = (if Z.eqb e (-1) && Z.eqb (Z.of_nat (length (s_clr s))) (s_nv s) then rev (s_clr s) else s_clr s) /\ forall j, (0 <= j < s_nv s)%Z -> vertex u j = vertex s (if Z.eqb e (-1) then s_nv s - 1 - j else j)%Z).
  { destruct (Z.eqb e (-1)); [rewrite Et; cbn [bind map]; exists t; repeat split; auto; apply Wt|exists s; repeat split; auto; apply F1]. }
  destruct ST as (u & Eu & Ru). rewrite Eu. cbn [bind snd]. rewrite E'. cbn [bind fst snd]. exists (u :: ss'). split; auto. split; [cbn; lia|]. intros [|i] s0 e0 H1 H2.
  - cbn in H1. injection H1 as <-. rewrite Nat.add_0_r in H2. rewrite Q in H2. injection H2 as <-. exists u. auto.
  - apply (H' i s0 e0); auto. replace (cp + 1 + i) with (cp + S i) by lia. auto.
Qed.
Lemma map_ok_nth : forall {A B} (f : A -> res B) (P : A -> B -> Prop) l, (forall x, In x l -> exists y, f x = Ok y /\ P x y) -> exists r, map_ok f l = Ok r /\ length r = length l /\ forall i x, nth_error l i = Some x -> exists y, nth_error r i = Some y /\ P x y.
Proof.
  intros A B f P. induction l as [|a l IH]; intros H; [exists []; repeat split; auto; intros [|i] x E; discriminate E|]. destruct (H a ltac:(left; auto)) as (y & E & Py). destruct IH as (r & Er & Lr & Hr); [intros; apply H; right; auto|]. exists (y :: r). cbn [map_ok]. rewrite E. cbn [bind]. rewrite Er. cbn [bind]. split; auto. split; [cbn; lia|].
  intros [|i] x Hx; [cbn in *; injection Hx as <-; eauto|apply Hr; auto].
Qed.
Lemma forall_nth : forall {A} (P : A -> Prop) l, (forall i x, nth_error l i = Some x -> P x) -> Forall P l.
Proof. intros A P l H. apply Forall_forall. intros x Hx. apply In_nth_error in Hx as (i & Hi). eauto. Qed.

(** ** the action *)
Theorem whitten_acts : forall (L : plcurve) m eps arr p, curve_ok L -> pcsts L = [] -> length (strands L) <= length eps ->
  permutes (length (strands L)) p -> writes_perm (length (strands L)) arr p ->
  exists L', plc_whitten flip L m eps arr = Ok L' /\ whitten_image flip m eps p L L' /\ curve_ok L' /\ pcsts L' = [].
Proof.
  intros L m eps arr p (WF & WR) CS LE (P1 & P2) WP. unfold plc_whitten. set (nc := length (strands L)) in *. cbv zeta.
  destruct (map_ok_nth (fun i => perm_scan (2 * nc) 0 arr (Z.of_nat i)) (fun i j => j = Z.of_nat (p i)) (seq 0 nc)) as (js & Ej & Lj & Hj).
  { intros i Hi. apply in_seq in Hi. exists (Z.of_nat (p i)). split; auto. apply perm_scan_spec; auto. lia. }
  rewrite Ej. cbn [bind]. rewrite seq_length in Lj.
  assert (NJ : forall i, i < nc -> nth_error js i = Some (Z.of_nat (p i))).
  { intros i Hi. destruct (Hj i i) as (y & Hy & ->); auto. rewrite (nth_error_nth' _ 0) by (rewrite seq_length; auto). rewrite seq_nth by auto. reflexivity. }
  assert (ND : NoDup js).
  { apply NoDup_nth_error. intros i j Hi E. rewrite NJ in E by lia. assert (Hj' : j < nc) by (rewrite <- Lj; apply nth_error_Some; congruence). rewrite NJ in E by auto. injection E as E. apply P2; auto; lia. }
  rewrite (distinct_true js ND).
  destruct (map_ok_nth (fun j => if Z.ltb j 0 then UB else get (strands L) (Z.to_nat j)) (fun j s => nth_error (strands L) (Z.to_nat j) = Some s) js) as (ss & Es & Ls & Hs).
  { intros j Hj'. apply In_nth_error in Hj' as (i & Hi). assert (i < nc) by (rewrite <- Lj; apply nth_error_Some; congruence). rewrite NJ in Hi by auto. injection Hi as <-. rewrite (proj2 (Z.ltb_ge _ _)) by lia. rewrite Nat2Z.id. specialize (P1 i ltac:(auto)). destruct (nth_error (strands L) (p i)) as [s|] eqn:Q; [|apply nth_error_None in Q; lia]. exists s. split; auto. apply get_ok. auto. }
  rewrite Es. cbn [bind]. rewrite CS. cbn [map_ok bind].
  assert (HS : forall i, i < nc -> exists s, nth_error ss i = Some s /\ nth_error (strands L) (p i) = Some s).
  { intros i Hi. destruct (Hs i _ (NJ i Hi)) as (s & A & B). rewrite Nat2Z.id in B. eauto. }
  assert (WS : Forall strand_wf ss /\ Forall wrapped ss).
  { rewrite Forall_forall in WF, WR. split; apply forall_nth; intros i s H; assert (i < nc) by (rewrite <- Lj, <- Ls; apply nth_error_Some; congruence); destruct (HS i ltac:(auto)) as (s' & A & B); assert (s' = s) by congruence; subst s'; [apply WF|apply WR]; eapply nth_error_In; eauto. }
  destruct WS as (WS & WR').
  assert (MI : exists ms, (if Z.eqb m (-1) then map_ok (mirror_strand flip) ss else Ok ss) = Ok ms /\ length ms = length ss /\ forall i s, nth_error ss i = Some s -> exists s', nth_error ms i = Some s' /\ strand_wf s' /\ s_nv s' = s_nv s /\ s_open s' = s_open s /\ s_clr s' = s_clr s /\
    forall j, (0 <= j < s_nv s)%Z -> vertex s' j = option_map (if Z.eqb m (-1) then flip else fun v => v) (vertex s j)).
  { destruct (Z.eqb m (-1)).
    - apply map_ok_nth. intros s H. rewrite Forall_forall in WS. destruct (mirror_carried s (WS s H)) as (s' & E & R). exists s'. auto.
    - exists ss. split; auto. split; auto. intros i s H. exists s. split; auto. split; [rewrite Forall_forall in WS; apply WS; eapply nth_error_In; eauto|]. repeat split; auto. intros j _. destruct (vertex s j); reflexivity. }
  destruct MI as (ms & Em & Lm & Hm). rewrite Em. cbn [bind]. assert (CM : (if Z.eqb m (-1) then map mirror_cst [] else []) = []) by (destruct (Z.eqb m (-1)); auto). rewrite CM.
  assert (WM : Forall strand_wf ms). { apply forall_nth. intros i s' H. assert (i < length ss) by (rewrite <- Lm; apply nth_error_Some; congruence). destruct (nth_error ss i) as [s|] eqn:Q; [|apply nth_error_None in Q; lia]. destruct (Hm i s Q) as (s'' & A & B & _). congruence. }
  unfold plc_fix_wrap at 1. cbn [strands pcsts]. destruct (fix_strands_spec ms WM) as (fs & Ef & Lf & Hf). rewrite Ef. cbn [bind strands pcsts].
  assert (WFs : Forall strand_wf fs). { apply forall_nth. intros i s' H. assert (i < length ms) by (rewrite <- Lf; apply nth_error_Some; congruence). destruct (nth_error ms i) as [s|] eqn:Q; [|apply nth_error_None in Q; lia]. destruct (Hf i s Q) as (s'' & A & B & _). congruence. }
  destruct (reversals_spec eps fs 0 WFs) as (rs & Er & Lr & Hr); [lia|]. rewrite Er. cbn [bind fst snd].
  assert (WRs : Forall strand_wf rs). { apply forall_nth. intros i s' H. assert (Hi : i < length fs) by (rewrite <- Lr; apply nth_error_Some; congruence). destruct (nth_error fs i) as [s|] eqn:Q; [|apply nth_error_None in Q; lia]. destruct (nth_error eps i) as [e|] eqn:Qe; [|apply nth_error_None in Qe; lia]. destruct (Hr i s e Q Qe) as (s'' & A & B & _). congruence. }
  unfold plc_fix_wrap. cbn [strands pcsts]. destruct (fix_strands_spec rs WRs) as (gs & Eg & Lg & Hg). rewrite Eg. cbn [bind].
  eexists. split; [reflexivity|]. assert (LG : length gs = nc) by lia.
  split; [|split; [|reflexivity]].
  - split; [cbn [strands]; lia|]. intros i s e Hi Hs' He. cbn [strands]. fold nc in Hi. destruct (HS i Hi) as (s0 & A0 & B0). assert (s0 = s) by congruence. subst s0.
    destruct (Hm i s A0) as (s1 & A1 & _ & N1 & O1 & C1 & V1). destruct (Hf i s1 A1) as (s2 & A2 & _ & W2 & N2 & C2 & O2 & V2). destruct (Hr i s2 e A2 He) as (s3 & A3 & _ & N3 & O3 & C3 & V3). destruct (Hg i s3 A3) as (s4 & A4 & _ & W4 & N4 & C4 & O4 & V4).
    exists s4. split; auto. assert (OO : Z.ltb (s_nv s) 3 = true -> s_open s = true).
    { intros Q. apply Z.ltb_lt in Q. rewrite Forall_forall in WR. specialize (WR s ltac:(eapply nth_error_In; eauto)). unfold wrapped in WR. destruct (s_open s); auto. destruct WR as (WR & _). lia. }
    split; [congruence|]. split.
    + rewrite O4, O3, O2, O1, N3, N2, N1. destruct (Z.ltb (s_nv s) 3) eqn:Q; [rewrite OO by auto; auto|rewrite !orb_false_r; auto].
    + split.
      * intros j Hj'. rewrite V4, V3 by lia. rewrite N2, N1. destruct (Z.eqb e (-1)); [rewrite V2, V1 by lia; reflexivity|rewrite V2, V1 by lia; reflexivity].
      * rewrite C4, C3, C2, N2, N1, C1. reflexivity.
  - split; apply forall_nth; intros i s' H; cbn [strands] in H; assert (i < length rs) by (rewrite <- Lg; apply nth_error_Some; congruence); (destruct (nth_error rs i) as [s|] eqn:Q; [|apply nth_error_None in Q; lia]); destruct (Hg i s Q) as (s'' & A & B & C & _); congruence.
Qed.
(** the image is the only one *)
Lemma image_unique : forall (L L1 L2 : plcurve) m eps p, length (strands L) <= length eps -> permutes (length (strands L)) p -> whitten_image flip m eps p L L1 -> whitten_image flip m eps p L L2 -> curve_ok L1 -> curve_ok L2 -> strands L1 = strands L2.
Proof.
  intros L L1 L2 m eps p LE (P1 & P2) (A1 & A2) (B1 & B2) (W1 & R1) (W2 & R2). rewrite Forall_forall in *. apply nth_error_ext. intros i. destruct (Nat.ltb_spec i (length (strands L))) as [Lt|Ge]; [|rewrite !(proj2 (nth_error_None _ _)) by lia; auto].
  specialize (P1 i Lt). destruct (nth_error (strands L) (p i)) as [s|] eqn:Q; [|apply nth_error_None in Q; lia]. destruct (nth_error eps i) as [e|] eqn:Qe; [|apply nth_error_None in Qe; lia].
  destruct (A2 i s e Lt Q Qe) as (s1 & H1 & C1). destruct (B2 i s e Lt Q Qe) as (s2 & H2 & C2). rewrite H1, H2. f_equal. eapply carried_unique; eauto using nth_error_In.
Qed.
Lemma carried_trans : forall m1 e1 m2 e2 (s s1 s2 : strand), (forall v, flip (flip v) = v) -> plus_minus m1 -> plus_minus m2 -> plus_minus e1 -> plus_minus e2 ->
  carried flip m1 e1 s s1 -> carried flip m2 e2 s1 s2 -> carried flip (m1 * m2) (e1 * e2) s s2.
Proof.
  intros m1 e1 m2 e2 s s1 s2 FF M1 M2 E1 E2 (A1 & A2 & A3 & A4) (B1 & B2 & B3 & B4). split; [congruence|]. split; [congruence|]. split.
  - intros i Hi. rewrite B3 by lia. assert (R : (0 <= (if Z.eqb e2 (-1) then s_nv s1 - 1 - i else i) < s_nv s)%Z) by (destruct (Z.eqb e2 (-1)); lia). rewrite A3 by auto. rewrite A1.
    assert (I : ((if Z.eqb e1 (-1) then s_nv s - 1 - (if Z.eqb e2 (-1) then s_nv s - 1 - i else i) else (if Z.eqb e2 (-1) then s_nv s - 1 - i else i)) = (if Z.eqb (e1 * e2) (-1) then s_nv s - 1 - i else i))%Z) by (destruct E1 as [-> | ->], E2 as [-> | ->]; cbn; lia).
    rewrite I. destruct (vertex s (if Z.eqb (e1 * e2) (-1) then s_nv s - 1 - i else i)%Z); cbn [option_map]; auto. destruct M1 as [-> | ->], M2 as [-> | ->]; cbn; auto. rewrite FF. auto.
  - rewrite B4, A1, A4. destruct E1 as [-> | ->], E2 as [-> | ->]; cbn; auto; destruct (Z.eqb (Z.of_nat (length (s_clr s))) (s_nv s)) eqn:Q; rewrite ?rev_length, ?Q; auto. apply rev_involutive.
Qed.
(** applying one operation after the other is applying their product in the group *)
Theorem whitten_composes : forall (L : plcurve) m1 eps1 arr1 p1 m2 eps2 arr2 p2 eps arr L1, curve_ok L -> pcsts L = [] -> (forall v, flip (flip v) = v) ->
  plus_minus m1 -> plus_minus m2 -> Forall plus_minus eps1 -> Forall plus_minus eps2 ->
  length eps1 = length (strands L) -> length eps2 = length (strands L) -> length eps = length (strands L) ->
  permutes (length (strands L)) p1 -> permutes (length (strands L)) p2 ->
  writes_perm (length (strands L)) arr1 p1 -> writes_perm (length (strands L)) arr2 p2 -> writes_perm (length (strands L)) arr (fun i => p1 (p2 i)) ->
  (forall i, i < length (strands L) -> nth i eps 0%Z = (nth (p2 i) eps1 0 * nth i eps2 0)%Z) ->
  plc_whitten flip L m1 eps1 arr1 = Ok L1 -> plc_whitten flip L1 m2 eps2 arr2 = plc_whitten flip L (m1 * m2) eps arr.
Proof.
  intros L m1 eps1 arr1 p1 m2 eps2 arr2 p2 eps arr L1 OKL CS FF M1 M2 E1 E2 LE1 LE2 LE P1 P2 A1 A2 A HE W1.
  destruct (whitten_acts L m1 eps1 arr1 p1) as (L1' & W1' & I1 & OK1 & C1); auto; [lia|]. rewrite W1 in W1'. apply ok_inj in W1'. subst L1'. pose proof (proj1 I1) as N1.
  destruct (whitten_acts L1 m2 eps2 arr2 p2) as (L2 & W2 & I2 & OK2 & C2); auto; rewrite ?N1; auto; [lia|]. rewrite W2.
  assert (P : permutes (length (strands L)) (fun i => p1 (p2 i))). { destruct P1 as (P1 & P1'), P2 as (P2 & P2'). split; auto. }
  destruct (whitten_acts L (m1 * m2)%Z eps arr (fun i => p1 (p2 i))) as (L3 & W3 & I3 & OK3 & C3); auto; [lia|]. rewrite W3. f_equal.
  assert (I : whitten_image flip (m1 * m2) eps (fun i => p1 (p2 i)) L L2).
  { split; [rewrite (proj1 I2); auto|]. intros i s e Hi Hs He. pose proof (proj1 P2 i Hi) as Hi2. destruct (nth_error eps1 (p2 i)) as [e1|] eqn:Q1; [|apply nth_error_None in Q1; lia]. destruct (nth_error eps2 i) as [e2|] eqn:Q2; [|apply nth_error_None in Q2; lia].
    destruct (proj2 I1 (p2 i) s e1 Hi2 Hs Q1) as (s1 & H1 & K1). destruct (proj2 I2 i s1 e2 ltac:(lia) H1 Q2) as (s2 & H2 & K2). exists s2. split; auto.
    assert (EE : e = (e1 * e2)%Z). { specialize (HE i Hi). rewrite (nth_error_nth _ _ _ He), (nth_error_nth _ _ _ Q1), (nth_error_nth _ _ _ Q2) in HE. auto. } subst e.
    rewrite Forall_forall in E1, E2. eapply carried_trans; eauto using nth_error_In. }
  assert (S : strands L2 = strands L3) by (apply (image_unique L L2 L3 (m1 * m2) eps (fun i => p1 (p2 i))); auto; lia). destruct L2 as [a b], L3 as [a' b']. cbn in S, C2, C3. congruence.
Qed.
(** the unit of the group does nothing *)
Theorem whitten_unit : forall (L : plcurve) eps arr, curve_ok L -> pcsts L = [] -> length eps = length (strands L) -> Forall (fun e => e = 1%Z) eps ->
  writes_perm (length (strands L)) arr (fun i => i) -> plc_whitten flip L 1 eps arr = Ok L.
Proof.
  intros L eps arr OKL CS LE E1 A. assert (P : permutes (length (strands L)) (fun i => i)) by (split; auto).
  destruct (whitten_acts L 1 eps arr (fun i => i)) as (L1 & W1 & I1 & OK1 & C1); auto; [lia|]. rewrite W1. f_equal.
  assert (I : whitten_image flip 1 eps (fun i => i) L L).
  { split; auto. intros i s e Hi Hs He. exists s. split; auto. rewrite Forall_forall in E1. rewrite (E1 e) by (eapply nth_error_In; eauto). split; auto. split; auto. split; auto. intros j Hj. cbn. destruct (vertex s j); auto. }
  assert (S : strands L1 = strands L) by (apply (image_unique L L1 L 1 eps (fun i => i)); auto; lia). destruct L1 as [a b], L as [a' b']. cbn in *. congruence.
Qed.
(** ** constraints: the last entry of the permutation is sought beyond the end of the array *)
Theorem whitten_constraints_refuted : forall (L : plcurve) m eps arr p c cs, pcsts L = c :: cs -> 0 < length (strands L) ->
  permutes (length (strands L)) p -> writes_perm (length (strands L)) arr p -> plc_whitten flip L m eps arr = UB.
Proof.
  intros L m eps arr p c cs CS N0 (P1 & P2) WP. unfold plc_whitten. set (nc := length (strands L)) in *. cbv zeta.
  destruct (map_ok_nth (fun i => perm_scan (2 * nc) 0 arr (Z.of_nat i)) (fun i j => j = Z.of_nat (p i)) (seq 0 nc)) as (js & Ej & Lj & Hj).
  { intros i Hi. apply in_seq in Hi. exists (Z.of_nat (p i)). split; auto. apply perm_scan_spec; auto. lia. }
  rewrite Ej. cbn [bind]. destruct (distinct js); auto.
  destruct (map_ok_nth (fun j => if Z.ltb j 0 then UB else get (strands L) (Z.to_nat j)) (fun _ _ => True) js) as (ss & Es & _ & _).
  { intros j Hj'. apply In_nth_error in Hj' as (i & Hi). rewrite seq_length in Lj. assert (i < nc) by (rewrite <- Lj; apply nth_error_Some; congruence). destruct (Hj i i) as (y & Hy & ->); [rewrite (nth_error_nth' _ 0) by (rewrite seq_length; auto); rewrite seq_nth by auto; reflexivity|]. rewrite Hi in Hy. injection Hy as ->.
    rewrite (proj2 (Z.ltb_ge _ _)) by lia. rewrite Nat2Z.id. specialize (P1 i ltac:(auto)). destruct (nth_error (strands L) (p i)) as [s|] eqn:Q; [|apply nth_error_None in Q; lia]. exists s. split; auto. apply get_ok. auto. }
  rewrite Es. cbn [bind]. rewrite CS. cbn [map_ok]. assert (U : iperm_scan (2 * nc) arr (ccmp c) = UB); [|rewrite U; reflexivity].
  destruct (2 * nc) as [|k] eqn:Q; [lia|]. cbn [iperm_scan]. assert (G : get arr (S k) = UB). { unfold get. rewrite (proj2 (nth_error_None _ _)); auto. destruct WP as (WP & _). lia. } rewrite G. reflexivity.
Qed.
End One.
Print Assumptions whitten_acts.
Print Assumptions whitten_composes.
Print Assumptions whitten_unit.
Print Assumptions whitten_constraints_refuted.

(** ** a concrete case: an open curve of three vertices and a triangle with colors *)
Definition st0 : strand vec3 nat := mkStrand 3 true [V3 1 0 2; V3 0 0 1; V3 1 0 2; V3 2 0 3; V3 1 0 2] [7].
Definition st1 : strand vec3 nat := mkStrand 3 false [V3 0 7 3; V3 5 5 1; V3 6 5 2; V3 0 7 3; V3 5 5 1] [1; 2; 3].
Definition two : plcurve vec3 nat := mkPlc [st0; st1] [].
Definition swap2 (i : nat) : nat := match i with 0 => 1 | 1 => 0 | _ => i end.
Example two_ok : curve_ok two /\ pcsts two = [] /\ (forall v, flip3 (flip3 v) = v) /\ permutes 2 swap2.
Proof.
  split; [split; repeat constructor; cbn; lia|]. split; [reflexivity|]. split; [intros [a b c]; unfold flip3; cbn; f_equal; lia|].
  split; [intros [|[|i]] H; cbn; lia|intros [|[|i]] [|[|j]] H1 H2 E; cbn in E; lia].
Qed.
Example swap_written : writes_perm 2 [0; 1; 0; 0]%Z swap2 /\ writes_perm 2 [0; 0; 1; 1]%Z (fun i => i).
Proof.
  split; (split; [reflexivity|]).
  - intros [|[|i]] H; [right; exists 0; repeat split; auto; intros; lia| |lia]. right. exists 1. repeat split; auto. intros [|j] Hj; [discriminate|lia].
  - intros [|[|i]] H; [right; exists 0; repeat split; auto; intros; lia| |lia]. right. exists 2. repeat split; auto. intros [|[|j]] Hj; [discriminate|discriminate|lia].
Qed.
(** the components exchanged, the triangle now being run through backwards, and all mirrored *)
Example two_carried : plc_whitten flip3 two (-1) [-1; 1]%Z [0; 1; 0; 0]%Z =
  Ok (mkPlc [mkStrand 3 false [V3 5 5 (-1); V3 0 7 (-3); V3 6 5 (-2); V3 5 5 (-1); V3 0 7 (-3)] [3; 2; 1];
             mkStrand 3 true [V3 1 0 (-2); V3 0 0 (-1); V3 1 0 (-2); V3 2 0 (-3); V3 1 0 (-2)] [7]] []).
Proof. vm_compute. reflexivity. Qed.
(** doing it twice *)
Example two_carried_twice : (do L <- plc_whitten flip3 two (-1) [-1; 1]%Z [0; 1; 0; 0]%Z; plc_whitten flip3 L (-1) [-1; 1]%Z [0; 1; 0; 0]%Z) =
  plc_whitten flip3 two 1 [-1; -1]%Z [0; 0; 1; 1]%Z.
Proof. vm_compute. reflexivity. Qed.
(** writing the exchange of two components as the pairs of numbers and their images does not exchange them: component 1 is
    taken twice *)
Theorem whitten_pairs_refuted : perm_scan 4 0 [0; 1; 1; 0]%Z 0 = Ok 1%Z /\ perm_scan 4 0 [0; 1; 1; 0]%Z 1 = Ok 1%Z /\
  forall (L : plcurve vec3 nat) m eps, length (strands L) = 2 -> plc_whitten flip3 L m eps [0; 1; 1; 0]%Z = UB.
Proof. split; [reflexivity|]. split; [reflexivity|]. intros L m eps N. unfold plc_whitten. rewrite N. reflexivity. Qed.
(** even if there is a readable entry behind the array, reversing a component spoils the constraints: here the second vertex
    of the open curve is fixed, and the triangle is reversed.  Vertex 0 is fixed afterwards.  If the first is fixed and its
    curve is reversed, vertex 2 has to be fixed afterwards, but vertex 1 is. *)
Theorem whitten_reversed_constraints_refuted :
  (do L <- plc_whitten flip3 (mkPlc [st0; st1] [mkCst Fixed (V3 1 0 2, V3 0 0 0) 0 1 1]) 1 [1; -1]%Z [0; 0; 1; 1; 9]%Z; Ok (map (fun c => (ccmp c, cvert c)) (pcsts L))) = Ok [(0, 0)%Z] /\
  (do L <- plc_whitten flip3 (mkPlc [st0; st1] [mkCst Fixed (V3 0 0 1, V3 0 0 0) 0 0 1]) 1 [-1; 1]%Z [0; 0; 1; 1; 9]%Z; Ok (map (fun c => (ccmp c, cvert c)) (pcsts L))) = Ok [(0, 1)%Z].
Proof. split; vm_compute; reflexivity. Qed.
Print Assumptions whitten_pairs_refuted.
Print Assumptions whitten_reversed_constraints_refuted.
