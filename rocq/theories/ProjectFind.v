(** The crossings of the projection of a polygon: what findcrossings returns. *)
From Coq Require Import List NArith ZArith QArith Qabs Lia Lqa Bool Arith Permutation Sorted.
From Verif Require Import Base ListAux Iterators Sorting Pd PdSpec PdProofs PdCompsProofs Nearest Thm_Nearest Project ProjectSpec ProjectProofs ProjectGeo.
Import ListNotations.
Open Scope nat_scope.
Open Scope res_scope.

Lemma no_trouble_spec : forall solv L ps, no_trouble solv L ps = Ok true -> forall i j, In (i, j) ps -> exists A B, seg_of L i = Ok A /\ seg_of L j = Ok B /\ tag_as_trouble solv A B = false.
Proof.
  intros solv L. induction ps as [|(i', j') ps IH]; intros H i j I; [destruct I|]. cbn [no_trouble] in H. apply bind_ok in H as (A & HA & H). apply bind_ok in H as (B & HB & H). apply bind_ok in H as (b & Hb & H). apply ok_inj in H. apply andb_true_iff in H as (H1 & ->).
  destruct I as [E|I]; [|apply IH; auto]. injection E as <- <-. exists A, B. apply negb_true_iff in H1. auto.
Qed.
Lemma no_trouble_runs : forall solv L ps, (forall i j, In (i, j) ps -> exists A B, seg_of L i = Ok A /\ seg_of L j = Ok B) -> exists b, no_trouble solv L ps = Ok b.
Proof.
  intros solv L. induction ps as [|(i, j) ps IH]; intros H; [exists true; auto|]. cbn [no_trouble]. destruct (H i j ltac:(left; auto)) as (A & B & HA & HB). rewrite HA, HB. cbn [bind]. destruct IH as (b & Hb); [intros; apply H; right; auto|]. rewrite Hb. cbn [bind]. eauto.
Qed.
Lemma clean_runs : forall solv L, exists b, projection_clean solv L = Ok b.
Proof.
  intros. apply no_trouble_runs. intros (cA, vA) (cB, vB) I. apply in_pairs in I as (H1 & H2 & H3 & H4 & _). destruct (seg_of_ex L cA vA) as (A & HA); auto; try lia. destruct (seg_of_ex L cB vB) as (B & HB); auto. eauto.
Qed.
(** the record that is made of a pair *)
Definition rec_of (solv : seg -> seg -> bool) (L : polygon) (p : (nat * nat) * (nat * nat)) : list xrec :=
  match seg_of L (fst p), seg_of L (snd p) with
  | Ok A, Ok B => match crossing_of solv (fst p) (snd p) A B with Some (Some x) => [x] | _ => [] end
  | _, _ => []
  end.
Lemma find_loop_recs : forall solv L ps cc, no_trouble solv L ps = Ok true -> find_loop solv L ps cc = Ok (Some (cc ++ flat_map (rec_of solv L) ps)).
Proof.
  intros solv L. induction ps as [|(i, j) ps IH]; intros cc H; [cbn; rewrite app_nil_r; auto|]. destruct (no_trouble_spec _ _ _ H i j ltac:(left; auto)) as (A & B & HA & HB & TT).
  cbn [no_trouble] in H. rewrite HA, HB in H. cbn [bind] in H. apply bind_ok in H as (b & Hb & H). apply ok_inj in H. apply andb_true_iff in H as (_ & ->).
  cbn [find_loop flat_map]. rewrite HA, HB. cbn [bind]. unfold rec_of at 1. cbn [fst snd]. rewrite HA, HB.
  destruct (clean_cross solv A B TT) as [(S1 & S2 & SV & s & t & LC & X)|(S0 & _)].
  - unfold crossing_of. rewrite S1, S2, LC. cbn [Z.eqb Pos.eqb andb]. destruct (Qltb _ _); rewrite IH by auto; rewrite <- app_assoc; reflexivity.
  - unfold crossing_of. rewrite S0. rewrite IH by auto. reflexivity.
Qed.
Lemma Qnat_step : forall i j, i < j -> (Qnat i + 1 <= Qnat j)%Q.
Proof. intros i j H. unfold Qnat. replace 1%Q with (inject_Z 1) by reflexivity. rewrite <- inject_Z_plus, <- Zle_Qle. lia. Qed.
Lemma Qnat_floor : forall i j s t, (Qnat i + s == Qnat j + t)%Q -> (0 < s < 1)%Q -> (0 < t < 1)%Q -> i = j /\ (s == t)%Q.
Proof.
  intros i j s t H (A & B) (C & D). assert (i = j). { destruct (Nat.lt_trichotomy i j) as [K|[K|K]]; auto; apply Qnat_step in K; lra. } subst j. split; auto. lra.
Qed.
Lemma height_between : forall A s, (height A s == vz (between (fst A) (snd A) s))%Q.
Proof. intros. unfold height, between. cbn. ring. Qed.

Section Find.
Context (solv : seg -> seg -> bool) (L : polygon) (CL : projection_clean solv L = Ok true) (NT : no_touching L).
Let recs := flat_map (rec_of solv L) (edge_pairs L).
(** the record of a pair of edges describes the crossing *)
Lemma rec_passes : forall p x, In p (edge_pairs L) -> In x (rec_of solv L p) ->
  exists u l su sl left, (p = (u, l) \/ p = (l, u)) /\ passes L (fst u) (snd u) (fst l) (snd l) su sl left /\ record_of x (fst u) (snd u) (fst l) (snd l) su sl left /\ (0 < su < 1)%Q /\ (0 < sl < 1)%Q.
Proof.
  intros (i, j) x Hp Hx. destruct (no_trouble_spec _ _ _ CL i j Hp) as (A & B & HA & HB & TT). unfold rec_of in Hx. cbn [fst snd] in Hx. rewrite HA, HB in Hx. apply seg_of_spec in HA, HB.
  destruct (clean_cross solv A B TT) as [(S1 & S2 & SV & s & t & LC & X)|(S0 & _)]; [|unfold crossing_of in Hx; rewrite S0 in Hx; destruct Hx].
  unfold crossing_of in Hx. rewrite S1, S2, LC in Hx. cbn [Z.eqb Pos.eqb andb] in Hx. pose proof (NT _ _ _ _ _ _ _ _ _ _ HA HB X) as NE. pose proof X as X0. destruct X0 as (P1 & P2 & _).
  destruct (Qltb (height B t) (height A s)) eqn:Q.
  - destruct Hx as [<-|[]]. apply Qltb_lt in Q. rewrite !height_between in Q. exists i, j, s, t, (Qltb 0 (wedge (vsub (snd A) (fst A)) (vsub (snd B) (fst B)))). split; auto. split; [|split; [|auto]].
    + exists (fst A), (snd A), (fst B), (snd B). split; auto. split; auto. split; auto. split; auto. rewrite Qltb_lt, turn_wedge. reflexivity.
    + unfold record_of. cbn. repeat split; auto; reflexivity.
  - destruct Hx as [<-|[]]. assert (Q' : (height A s < height B t)%Q). { rewrite <- !height_between in NE. destruct (Qlt_le_dec (height B t) (height A s)) as [K|K]; [apply Qltb_lt in K; congruence|]. apply Qle_lteq in K as [K|K]; auto. contradiction. }
    rewrite !height_between in Q'. exists j, i, t, s, (Qltb 0 (wedge (vsub (snd B) (fst B)) (vsub (snd A) (fst A)))). split; auto. split; [|split; [|auto]].
    + exists (fst B), (snd B), (fst A), (snd A). split; auto. split; auto. split; [apply cross_at_sym; auto|]. split; auto. rewrite Qltb_lt, turn_wedge. reflexivity.
    + unfold record_of. cbn. repeat split; auto; reflexivity.
Qed.
(** every crossing has a record *)
Lemma passes_rec : forall cu iu cl il su sl left, passes L cu iu cl il su sl left -> exists x, In x recs /\ record_of x cu iu cl il su sl left.
Proof.
  intros cu iu cl il su sl left (a & b & c & d & EA & EB & X & HH & LF).
  destruct (crossing_pair _ _ _ _ _ _ _ _ _ _ _ EA EB X) as [Hp|Hp].
  - destruct (no_trouble_spec _ _ _ CL _ _ Hp) as (A & B & HA & HB & TT). pose proof (proj2 (seg_of_spec L (cu, iu) (a, b)) EA) as EA'. pose proof (proj2 (seg_of_spec L (cl, il) (c, d)) EB) as EB'. rewrite EA' in HA. apply ok_inj in HA. subst A. rewrite EB' in HB. apply ok_inj in HB. subst B.
    destruct (clean_cross solv (a, b) (c, d) TT) as [(S1 & S2 & SV & s & t & LC & X')|(S0 & N)]; [|exfalso; eapply N; exact X]. cbn [fst snd] in X'. destruct (cross_params _ _ _ _ _ _ _ _ X X') as (Es & Et).
    assert (Q : Qltb (height (c, d) t) (height (a, b) s) = true). { apply Qltb_lt. unfold height. cbn [fst snd]. unfold between in HH. cbn in HH. rewrite Es, Et in HH. lra. }
    eexists. split; [apply in_flat_map; exists ((cu, iu), (cl, il)); split; [exact Hp|unfold rec_of; cbn [fst snd]; rewrite EA', EB'; unfold crossing_of; rewrite S1, S2, LC, Q; cbn [Z.eqb Pos.eqb andb]; left; reflexivity]|].
    unfold record_of. cbn. split; auto. split; auto. split; [rewrite Es; reflexivity|]. split; [rewrite Et; reflexivity|]. destruct left; destruct (Qltb 0 _) eqn:W; auto; exfalso.
    + pose proof (proj1 LF eq_refl) as K. rewrite turn_wedge in K. apply Qltb_lt in K. congruence.
    + apply Qltb_lt in W. rewrite <- turn_wedge in W. apply LF in W. discriminate W.
  - destruct (no_trouble_spec _ _ _ CL _ _ Hp) as (A & B & HA & HB & TT). pose proof (proj2 (seg_of_spec L (cu, iu) (a, b)) EA) as EA'. pose proof (proj2 (seg_of_spec L (cl, il) (c, d)) EB) as EB'. rewrite EB' in HA. apply ok_inj in HA. subst A. rewrite EA' in HB. apply ok_inj in HB. subst B.
    destruct (clean_cross solv (c, d) (a, b) TT) as [(S1 & S2 & SV & s & t & LC & X')|(S0 & N)]; [|exfalso; eapply N; apply cross_at_sym; exact X]. cbn [fst snd] in X'. destruct (cross_params _ _ _ _ _ _ _ _ X (cross_at_sym _ _ _ _ _ _ X')) as (Es & Et).
    assert (Q : Qltb (height (a, b) t) (height (c, d) s) = false). { apply not_true_is_false. intros K. apply Qltb_lt in K. unfold height in K. cbn [fst snd] in K. unfold between in HH. cbn in HH. rewrite Es, Et in HH. lra. }
    eexists. split; [apply in_flat_map; exists ((cl, il), (cu, iu)); split; [exact Hp|unfold rec_of; cbn [fst snd]; rewrite EA', EB'; unfold crossing_of; rewrite S1, S2, LC, Q; cbn [Z.eqb Pos.eqb andb]; left; reflexivity]|].
    unfold record_of. cbn. split; auto. split; auto. split; [rewrite Es; reflexivity|]. split; [rewrite Et; reflexivity|]. destruct left; destruct (Qltb 0 _) eqn:W; auto; exfalso.
    + pose proof (proj1 LF eq_refl) as K. rewrite turn_wedge in K. apply Qltb_lt in K. congruence.
    + apply Qltb_lt in W. rewrite <- turn_wedge in W. apply LF in W. discriminate W.
Qed.
Lemma pairs_one_way : forall i j, In (i, j) (edge_pairs L) -> In (j, i) (edge_pairs L) -> False.
Proof. intros (c, v) (c', v') H K. apply in_pairs in H, K. destruct H as (H1 & _ & _ & _ & H2), K as (K1 & _ & _ & _ & K2). assert (c = c') by lia. destruct (H2 H). destruct (K2 (eq_sym H)). lia. Qed.
(** records with matching edges come from the same pair *)
Lemma same_pair : forall p q x y cu iu cl il su sl left su' sl' left', In p (edge_pairs L) -> In q (edge_pairs L) -> In x (rec_of solv L p) -> In y (rec_of solv L q) ->
  record_of x cu iu cl il su sl left -> record_of y cu iu cl il su' sl' left' -> (0 < su < 1)%Q -> (0 < sl < 1)%Q -> (0 < su' < 1)%Q -> (0 < sl' < 1)%Q -> p = q.
Proof.
  intros p q x y cu iu cl il su sl left su' sl' left' Hp Hq Hx Hy Rx Ry B1 B2 B3 B4.
  assert (K : forall p x su sl left, In p (edge_pairs L) -> In x (rec_of solv L p) -> record_of x cu iu cl il su sl left -> (0 < su < 1)%Q -> (0 < sl < 1)%Q -> p = ((cu, iu), (cl, il)) \/ p = ((cl, il), (cu, iu))).
  { clear - CL NT. intros p x su sl left Hp Hx (R1 & R2 & R3 & R4 & _) B1 B2. destruct (rec_passes p x Hp Hx) as ((u1, u2) & (l1, l2) & a & b & f & D & _ & (S1 & S2 & S3 & S4 & _) & C1 & C2). cbn [fst snd] in *.
    assert (E3 : (Qnat u2 + a == Qnat iu + su)%Q) by (rewrite <- S3; auto). assert (E4 : (Qnat l2 + b == Qnat il + sl)%Q) by (rewrite <- S4; auto).
    apply Qnat_floor in E3 as (-> & _); auto. apply Qnat_floor in E4 as (-> & _); auto. subst. destruct D as [-> | ->]; auto. }
  destruct (K p x _ _ _ Hp Hx Rx B1 B2) as [-> | ->]; destruct (K q y _ _ _ Hq Hy Ry B3 B4) as [-> | ->]; auto; exfalso; eapply pairs_one_way; eauto.
Qed.
Lemma rec_single : forall p x y, In x (rec_of solv L p) -> In y (rec_of solv L p) -> x = y.
Proof. intros p x y. unfold rec_of. destruct (seg_of L (fst p)); try solve [intros []]. destruct (seg_of L (snd p)); try solve [intros []]. destruct (crossing_of _ _ _ _ _) as [[z|]|]; try solve [intros []]. intros [<-|[]] [<-|[]]. auto. Qed.
Lemma recs_nodup : NoDup recs.
Proof.
  apply nodup_flat_map; [apply pairs_nodup| |].
  - intros p _. unfold rec_of. destruct (seg_of L (fst p)); try constructor. destruct (seg_of L (snd p)); try constructor. destruct (crossing_of _ _ _ _ _) as [[z|]|]; repeat constructor; intros [].
  - intros p q x Hp Hq Hx Hy. destruct (rec_passes p x Hp Hx) as (u & l & a & b & f & _ & _ & R & C1 & C2). eapply same_pair; eauto.
Qed.
Lemma recs_all : forall cc, Permutation cc recs -> all_crossings L cc.
Proof.
  intros cc P. split.
  - intros x Hx. pose proof (Permutation_in _ P Hx) as I. apply in_flat_map in I as (p & Hp & I). destruct (rec_passes p x Hp I) as (u & l & a & b & f & _ & PS & R & _). exists (fst u), (snd u), (fst l), (snd l), a, b, f. auto.
  - intros cu iu cl il su sl left PS. destruct (passes_rec _ _ _ _ _ _ _ PS) as (x & Hx & R). pose proof (Permutation_in _ (Permutation_sym P) Hx) as I. apply In_nth_error in I as (k & Hk). exists k, x. split; auto. split; auto.
    intros k' x' su' sl' left' Hk' R' B1 B2. assert (Hx' : In x' recs) by (eapply Permutation_in; [exact P|eapply nth_error_In; eauto]). unfold recs in Hx, Hx'. apply in_flat_map in Hx as (p & Hp & Ip). apply in_flat_map in Hx' as (q & Hq & Iq).
    destruct PS as (a & b & c & d & _ & _ & (C1 & C2 & _) & _). assert (q = p) by (eapply same_pair; eauto). subst q. assert (x' = x) by (eapply rec_single; eauto). subst x'.
    assert (ND : NoDup cc) by (eapply Permutation_NoDup; [apply Permutation_sym; exact P|apply recs_nodup]). apply (proj1 (NoDup_nth_error cc) ND); [apply nth_error_Some; congruence|congruence].
Qed.
Lemma found_all : forall srt, sorts_all srt -> (forall s, In s L -> st_open s = false) -> exists cc, findcrossings solv srt L = Ok (Some cc) /\ all_crossings L cc.
Proof.
  intros srt SR OP. exists (srt xrec crossing_compare recs). split.
  - unfold findcrossings. assert (E : forallb (fun s => negb (st_open s)) L = true) by (apply forallb_forall; intros s Hs; rewrite OP by auto; auto). rewrite E. rewrite find_loop_recs by exact CL. cbn [bind app]. fold recs.
    assert (E' : forallb (fun x => Qltb 0 (snd (x_key x))) recs = true); [|rewrite E'; reflexivity].
    apply forallb_forall. intros x Hx. unfold recs in Hx. apply in_flat_map in Hx as (p & Hp & I). destruct (rec_passes p x Hp I) as (u & l & a & b & f & _ & _ & (_ & _ & S3 & S4 & _) & (C1 & _) & (C2 & _)). apply Qltb_lt.
    assert (Z : forall n, (0 <= Qnat n)%Q) by (intros n; unfold Qnat; replace 0%Q with (inject_Z 0) by reflexivity; rewrite <- Zle_Qle; lia). unfold x_key. destruct (lower_cmp x <? upper_cmp x); cbn [snd]; [rewrite S4; specialize (Z (snd l))|rewrite S3; specialize (Z (snd u))]; lra.
  - apply recs_all. apply (SR xrec crossing_compare (fun a b => fst (x_key a) < fst (x_key b) \/ fst (x_key a) = fst (x_key b) /\ (snd (x_key a) <= snd (x_key b))%Q)). split.
    + intros x y z _ _ _ [A|(A & A')] [B|(B & B')]; try (left; lia). right. split; [lia|lra].
    + intros x y _ _. unfold crossing_compare. destruct (Nat.eqb_spec (fst (x_key x)) (fst (x_key y))) as [E|E]; cbn [negb].
      * destruct (Qltb (snd (x_key x)) (snd (x_key y))) eqn:Q; split; intros H; try lia; right; split; auto; [apply Qltb_lt in Q; lra|]. destruct (Qlt_le_dec (snd (x_key x)) (snd (x_key y))) as [K|K]; auto. apply Qltb_lt in K. congruence.
      * split; intros H; left; lia.
Qed.
End Find.
