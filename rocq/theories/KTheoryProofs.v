(** Reading a KnotTheory code finds the edges and signs of the diagram. *)
From Coq Require Import List NArith ZArith Lia Bool Arith.
From Verif Require Import Base ListAux Iterators Perm Pd PdSpec PdProofs PdCross Relabel RelabelProofs Strands PdCompsProofs OverUnder OverUnderSpec OverUnderProofs Thm_OverUnder DeloopProofs SlotCount
  PdOps TextIO Build KTheory KTheoryText.
From Coq Require String.
Import String.StringSyntax ListNotations.
Open Scope nat_scope.
Open Scope res_scope.

(** a list of lists that is a piece of 0, 1, 2, ... *)
Lemma concat_seq_block : forall (pre : list (list nat)) C post m, concat (pre ++ C :: post) = seq 0 m -> C = seq (length (concat pre)) (length C).
Proof.
  intros pre C post m H. rewrite concat_app in H. cbn [concat] in H. rewrite app_assoc in H.
  assert (L : length ((concat pre ++ C) ++ concat post) = m) by (rewrite H; apply seq_length). rewrite !app_length in L.
  apply (nth_ext _ _ 0 0); [rewrite seq_length; auto|]. intros i Hi. rewrite seq_nth by auto.
  assert (Q : nth (length (concat pre) + i) ((concat pre ++ C) ++ concat post) 0 = nth i C 0).
  { rewrite app_nth1 by (rewrite app_length; lia). rewrite app_nth2_plus. reflexivity. }
  rewrite H, seq_nth in Q by lia. lia.
Qed.

Section KT.
Context (d : pd) (R : ends_recorded d) (G : goes_through d) (T : two_ended d) (NA : numbered_along d) (AS : all_signed d).
Context (L3 : forall C, In C (p_comp d) -> 3 <= length (cp_edge C)).

Lemma next_number : forall a b, continues d a b -> b = a + 1 \/ b + 2 <= a.
Proof.
  intros a b CN. destruct NA as (N1 & N2 & _). pose proof CN as (A & B & HA & HB & _).
  assert (La : a < nedges d) by (apply nth_error_Some; unfold edge_at in HA; congruence).
  assert (I : In a (concat (map cp_edge (p_comp d)))) by (rewrite N1; apply in_seq; lia).
  apply in_concat in I as (l & Il & Ia). apply in_map_iff in Il as (C & <- & IC). apply in_split in IC as (pre & post & Q).
  assert (IC : In C (p_comp d)) by (rewrite Q; apply in_elt). pose proof (L3 C IC) as L. destruct (N2 C IC) as (_ & CY).
  rewrite Q, map_app in N1. cbn [map] in N1. apply concat_seq_block in N1. set (s := length (concat (map cp_edge pre))) in *. set (k := length (cp_edge C)) in *.
  assert (Nx : forall i, i < k -> nth_error (cp_edge C) i = Some (s + i)).
  { intros i Hi. rewrite N1. rewrite (nth_error_nth' _ 0) by (rewrite seq_length; auto). rewrite seq_nth; auto. }
  rewrite N1 in Ia. apply in_seq in Ia. replace a with (s + (a - s)) in CN |- * by lia. set (i := a - s) in *. assert (Hi : i < k) by lia.
  assert (Hm : (i + 1) mod k < k) by (apply Nat.mod_upper_bound; lia).
  pose proof (CY i _ _ (Nx i Hi) (Nx _ Hm)) as CN'. rewrite (continues_fun d R _ _ _ CN CN').
  destruct (Nat.eq_dec (i + 1) k) as [E|E]; [rewrite E, Nat.mod_same by lia; right; lia|rewrite Nat.mod_small by lia; left; lia].
Qed.
Lemma from1to3_next : forall a b, continues d a b -> from1to3 a b = true /\ from1to3 b a = false.
Proof.
  intros a b C. unfold from1to3. destruct (next_number a b C) as [-> |L].
  - rewrite Nat.eqb_refl. destruct (Nat.eqb_spec a (a + 1 + 1)); [lia|]. auto.
  - destruct (Nat.eqb_spec b (a + 1)); [lia|]. destruct (Nat.eqb_spec a (b + 1)); [lia|]. destruct (Nat.ltb_spec b a); [|lia]. destruct (Nat.ltb_spec a b); [lia|]. auto.
Qed.
Lemma not_back : forall a b, continues d a b -> continues d b a -> False.
Proof. intros a b C1 C2. destruct (next_number _ _ C1), (next_number _ _ C2); lia. Qed.

(** *** the strands at a crossing *)
Definition under_place (c : nat) : nat := match pd_understrand_pos d c with Ok r => fst r | _ => 0 end.
Lemma at_crossing : forall c x, nth_error (p_cross d) c = Some x -> let u := under_place c in
  pd_understrand_pos d c = Ok (u, (u + 2) mod 4) /\ u < 4 /\
  arrives d c u (cedge x u) /\ departs d c ((u + 2) mod 4) (cedge x ((u + 2) mod 4)) /\
  match csign x with
  | Pos => arrives d c ((u + 3) mod 4) (cedge x ((u + 3) mod 4)) /\ departs d c ((u + 1) mod 4) (cedge x ((u + 1) mod 4))
  | Neg => arrives d c ((u + 1) mod 4) (cedge x ((u + 1) mod 4)) /\ departs d c ((u + 3) mod 4) (cedge x ((u + 3) mod 4))
  | Unset => False
  end.
Proof.
  intros c x Hx. assert (SA : sign_at d c (csign x)) by (exists x; auto). destruct (strand_places d R G T c _ SA) as (oi & oo & ui & uo & _ & E & OU).
  unfold under_place. rewrite E. cbn [fst]. cbv zeta. pose proof (over_under_range d R _ _ _ _ _ _ OU) as (L1 & L2 & L4 & L5).
  destruct OU as ((e1 & A1) & (e2 & D1) & (e3 & A2) & (e4 & D2) & Q1 & Q2 & Q3).
  assert (Q : forall p e, slot d c p e -> e = cedge x p) by (intros p y (_ & x' & Hx' & <-); congruence).
  pose proof (Q _ _ (arrives_slot d R _ _ _ A1)) as ->. pose proof (Q _ _ (arrives_slot d R _ _ _ A2)) as ->. pose proof (Q _ _ (departs_slot d R _ _ _ D1)) as ->. pose proof (Q _ _ (departs_slot d R _ _ _ D2)) as ->.
  split; [rewrite Q2; auto|]. split; auto. split; auto. rewrite <- Q2. split; auto.
  pose proof (AS _ _ SA) as NU. destruct (csign x); [| |congruence].
  - assert (oo = (ui + 1) mod 4 /\ oi = (ui + 3) mod 4) as (<- & <-).
    { rewrite Q2, Q1 in Q3. clear - Q3 Q1 L1 L4 L2. destruct (small4 oi L1) as [->|[->|[->| ->]]], (small4 ui L4) as [->|[->|[->| ->]]]; cbn in *; lia. }
    auto.
  - assert (oi = (ui + 1) mod 4 /\ oo = (ui + 3) mod 4) as (<- & <-).
    { rewrite Q2, Q1 in Q3. clear - Q3 Q1 L1 L4 L2. destruct (small4 oi L1) as [->|[->|[->| ->]]], (small4 ui L4) as [->|[->|[->| ->]]]; cbn in *; lia. }
    auto.
Qed.
Lemma at_continues : forall c p e f, arrives d c p e -> departs d c ((p + 2) mod 4) f -> continues d e f.
Proof. intros c p e f (A & HA & H1) (B & HB & H2). exists A, B. split; auto. split; auto. unfold head_slot, tail_slot in *. apply pair_equal_spec in H1 as (<- & <-). apply pair_equal_spec in H2. tauto. Qed.

(** *** the code *)
Definition code_at (c : nat) : four :=
  let x := nth c (p_cross d) no_cross in let u := under_place c in
  (N.of_nat (cedge x ((u + 0) mod 4) + 1), N.of_nat (cedge x ((u + 1) mod 4) + 1), N.of_nat (cedge x ((u + 2) mod 4) + 1), N.of_nat (cedge x ((u + 3) mod 4) + 1)).
Definition codes : list four := map code_at (seq 0 (ncross d)).
Lemma crosses_written : forall k c, c + k = ncross d -> kt_crosses d c k = Ok (match map code_at (seq c k) with [] => [] | v :: vs => kt_item v ++ flat_map (fun v => txt "," ++ kt_item v) vs end).
Proof.
  induction k as [|k IH]; intros c E; [reflexivity|]. cbn [kt_crosses seq map]. rewrite IH by lia.
  assert (Hc : exists x, nth_error (p_cross d) c = Some x) by (destruct (nth_error (p_cross d) c) as [x|] eqn:Q; eauto; apply nth_error_None in Q; unfold ncross in E; lia). destruct Hc as (x & Hx).
  destruct (at_crossing c x Hx) as (U & _). unfold kt_cross. rewrite U. cbn [bind fst]. rewrite (proj2 (get_ok _ _ _ _) Hx). cbn [bind]. f_equal.
  assert (KI : kt_item (code_at c) = txt "X[" ++ show_nat (cedge x ((under_place c + 0) mod 4) + 1) ++ txt "," ++ show_nat (cedge x ((under_place c + 1) mod 4) + 1) ++ txt "," ++
      show_nat (cedge x ((under_place c + 2) mod 4) + 1) ++ txt "," ++ show_nat (cedge x ((under_place c + 3) mod 4) + 1) ++ txt "]").
  { unfold code_at. rewrite (nth_error_nth _ _ no_cross Hx). reflexivity. }
  rewrite <- KI. f_equal. destruct k as [|k].
  - cbn [seq map flat_map]. destruct (Nat.ltb_spec (c + 1) (ncross d)); [lia|reflexivity].
  - cbn [seq map flat_map]. destruct (Nat.ltb_spec (c + 1) (ncross d)); [|lia]. rewrite <- app_assoc. reflexivity.
Qed.
Lemma kt_written : 0 < ncross d -> pd_write_KnotTheory d = Ok (kt_text codes).
Proof.
  intros Hn. unfold pd_write_KnotTheory. rewrite crosses_written by lia. cbn [bind]. f_equal. unfold codes, kt_text. destruct (ncross d) as [|n]; [lia|]. cbn [seq map]. rewrite <- !app_assoc. reflexivity.
Qed.
Context (NB : (N.of_nat (ncross d) <= 9990)%N).
Lemma edges_small : forall c p e, slot d c p e -> e < 2 * ncross d.
Proof. intros c p e S. rewrite <- (proj1 R). exact (consistent_bound d c p e R T S). Qed.

(** *** the edges found *)
Definition turned (c p : nat) : nat := (p + 4 - under_place c) mod 4.
Definition turned_edge (E : edge) : edge := mkEdge (e_head E) (turned (e_head E) (e_headpos E)) (e_tail E) (turned (e_tail E) (e_tailpos E)).
Context (maxe : nat) (Hmax : 2 * ncross d <= maxe).
Definition found (k : nat) (hs ts : list (nat * nat)) (es : list edge) : Prop :=
  length es = maxe /\ forall e E, edge_at d e E -> exists X, nth_error es e = Some X /\
    (e_head E < k \/ In (head_slot E) hs -> e_head X = e_head E /\ e_headpos X = turned (e_head E) (e_headpos E)) /\
    (e_tail E < k \/ In (tail_slot E) ts -> e_tail X = e_tail E /\ e_tailpos X = turned (e_tail E) (e_tailpos E)).
Lemma edge_lt : forall e E, edge_at d e E -> e < maxe.
Proof. intros e E H. assert (e < nedges d) by (apply nth_error_Some; unfold edge_at in H; congruence). rewrite (proj1 R) in *. lia. Qed.
Lemma found_head : forall k hs ts es p e q, found k hs ts es -> arrives d k p e -> q = turned k p -> exists es', set_head es e k q = Ok es' /\ found k ((k, p) :: hs) ts es'.
Proof.
  intros k hs ts es p e q (L & F) A ->. pose proof A as (E & HE & HS). destruct (F e E HE) as (X & HX & F1 & F2). pose proof (edge_lt e E HE) as Le.
  unfold set_head. rewrite (proj2 (get_ok _ _ _ _) HX). cbn [bind]. eexists. split; [reflexivity|]. split; [rewrite upd_length; auto|].
  intros e' E' HE'. rewrite nth_error_upd. destruct (Nat.eqb_spec e e') as [<-|N].
  - destruct (Nat.ltb_spec e (length es)); [|lia]. unfold edge_at in *. rewrite HE in HE'. injection HE' as <-. eexists. split; [reflexivity|]. cbn. apply pair_equal_spec in HS as (-> & ->). split; auto.
  - destruct (F e' E' HE') as (X' & HX' & F1' & F2'). exists X'. split; auto. split; auto. intros [H|[H|H]]; auto. exfalso. apply N. apply (arrives_fun d R k p); auto. exists E'. auto.
Qed.
Lemma departs_fun : forall c p e f, departs d c p e -> departs d c p f -> e = f.
Proof. intros c p e f A B. exact (slot_fun d c p e f (departs_slot d R _ _ _ A) (departs_slot d R _ _ _ B)). Qed.
Lemma found_tail : forall k hs ts es p e q, found k hs ts es -> departs d k p e -> q = turned k p -> exists es', set_tail es e k q = Ok es' /\ found k hs ((k, p) :: ts) es'.
Proof.
  intros k hs ts es p e q (L & F) A ->. pose proof A as (E & HE & HS). destruct (F e E HE) as (X & HX & F1 & F2). pose proof (edge_lt e E HE) as Le.
  unfold set_tail. rewrite (proj2 (get_ok _ _ _ _) HX). cbn [bind]. eexists. split; [reflexivity|]. split; [rewrite upd_length; auto|].
  intros e' E' HE'. rewrite nth_error_upd. destruct (Nat.eqb_spec e e') as [<-|N].
  - destruct (Nat.ltb_spec e (length es)); [|lia]. unfold edge_at in *. rewrite HE in HE'. injection HE' as <-. eexists. split; [reflexivity|]. cbn. apply pair_equal_spec in HS as (-> & ->). split; auto.
  - destruct (F e' E' HE') as (X' & HX' & F1' & F2'). exists X'. split; auto. split; auto. intros [H|[H|H]]; auto. exfalso. apply N. apply (departs_fun k p); auto. exists E'. auto.
Qed.
Lemma found_next : forall k p1 p2 q1 q2 es, found k [(k, p1); (k, p2)] [(k, q1); (k, q2)] es ->
  (forall p e, arrives d k p e -> p = p1 \/ p = p2) -> (forall p e, departs d k p e -> p = q1 \/ p = q2) -> found (S k) [] [] es.
Proof.
  intros k p1 p2 q1 q2 es (L & F) A D. split; auto. intros e E HE. destruct (F e E HE) as (X & HX & F1 & F2). exists X. split; auto. split.
  - intros [H|[]]. destruct (Nat.eq_dec (e_head E) k) as [Q|Q]; [|apply F1; lia]. apply F1. right. destruct (A (e_headpos E) e) as [Z|Z]; [exists E; split; auto; unfold head_slot; congruence| |]; unfold head_slot; rewrite Q, Z; cbn; auto.
  - intros [H|[]]. destruct (Nat.eq_dec (e_tail E) k) as [Q|Q]; [|apply F2; lia]. apply F2. right. destruct (D (e_tailpos E) e) as [Z|Z]; [exists E; split; auto; unfold tail_slot; congruence| |]; unfold tail_slot; rewrite Q, Z; cbn; auto.
Qed.
Lemma idx_ok : forall c p e, slot d c p e -> kt_idx maxe (N.of_nat (e + 1)) = Ok e.
Proof.
  intros c p e S. apply edges_small in S; auto. unfold kt_idx.
  assert (Q : ((N.of_nat (e + 1) + 4294967295) mod 4294967296 = N.of_nat e)%N).
  { replace (N.of_nat (e + 1) + 4294967295)%N with (N.of_nat e + 1 * 4294967296)%N by lia. rewrite N.mod_add by lia. apply N.mod_small. lia. }
  rewrite Q. destruct (N.ltb_spec (N.of_nat e) (N.of_nat maxe)); [|lia]. rewrite Nnat.Nat2N.id. reflexivity.
Qed.
Definition turned_cross (c : nat) : crossing := rotate_left (nth c (p_cross d) no_cross) (under_place c).
Lemma turned_places : forall c u, u = under_place c -> u < 4 -> turned c u = 0 /\ turned c ((u + 1) mod 4) = 1 /\ turned c ((u + 2) mod 4) = 2 /\ turned c ((u + 3) mod 4) = 3.
Proof. intros c u E H. unfold turned. rewrite <- E. destruct (small4 u H) as [->|[->|[->| ->]]]; auto. Qed.
Lemma place_step : forall k es cs, k < ncross d -> found k [] [] es -> exists es', kt_place maxe k (code_at k) (es, cs) = Ok (es', cs ++ [turned_cross k]) /\ found (S k) [] [] es'.
Proof.
  intros k es cs Hk F.
  assert (Hc : exists x, nth_error (p_cross d) k = Some x) by (destruct (nth_error (p_cross d) k) as [x|] eqn:Q; eauto; apply nth_error_None in Q; unfold ncross in Hk; lia). destruct Hc as (x & Hx).
  destruct (at_crossing k x Hx) as (_ & Lu & A1 & D1 & SG). pose proof (turned_places k _ eq_refl Lu) as (T0 & T1 & T2 & T3). unfold kt_place, code_at, turned_cross. rewrite (nth_error_nth _ _ no_cross Hx). rewrite Nat.add_0_r, (Nat.mod_small _ 4 Lu).
  set (u := under_place k) in *.
  assert (SL : forall p, p < 4 -> slot d k p (cedge x p)) by (intros p Hp; split; auto; exists x; auto).
  rewrite !(idx_ok k _ _ (SL _ Lu)). do 3 (rewrite (idx_ok k _ _ (SL _ (mod4_lt _)))). cbn [bind fst snd].
  destruct (found_head k _ _ _ u _ 0 F A1 (eq_sym T0)) as (e1 & E1 & F1). rewrite E1. cbn [bind].
  destruct (found_tail k _ _ _ _ _ 2 F1 D1 (eq_sym T2)) as (e2 & E2 & F2). rewrite E2. cbn [bind].
  assert (RX : forall s, mkCross (cedge x u) (cedge x ((u + 1) mod 4)) (cedge x ((u + 2) mod 4)) (cedge x ((u + 3) mod 4)) s = mkCross (ce0 (rotate_left x u)) (ce1 (rotate_left x u)) (ce2 (rotate_left x u)) (ce3 (rotate_left x u)) s).
  { intros s. unfold rotate_left. cbn [ce0 ce1 ce2 ce3]. rewrite !(Nat.add_comm _ u), Nat.add_0_r, (Nat.mod_small u 4) by auto. reflexivity. }
  destruct (csign x) eqn:SX; [| |destruct SG].
  - destruct SG as (A2 & D2). assert (CN : continues d (cedge x ((u + 3) mod 4)) (cedge x ((u + 1) mod 4))).
    { apply (at_continues k ((u + 3) mod 4)); auto. replace (((u + 3) mod 4 + 2) mod 4) with ((u + 1) mod 4); auto. destruct (small4 u Lu) as [->|[->|[->| ->]]]; reflexivity. }
    rewrite (proj2 (from1to3_next _ _ CN)).
    destruct (found_head k _ _ _ _ _ 3 F2 A2 (eq_sym T3)) as (e3 & E3 & F3). rewrite E3. cbn [bind]. destruct (found_tail k _ _ _ _ _ 1 F3 D2 (eq_sym T1)) as (e4 & E4 & F4). rewrite E4. cbn [bind].
    exists e4. split; [rewrite RX; do 3 f_equal; unfold rotate_left; rewrite <- SX; reflexivity|]. apply (found_next k _ _ _ _ _ F4).
    + intros p e A. assert (Lp : p < 4) by apply (slot_lt _ _ _ _ (arrives_slot d R _ _ _ A)). pose proof (fun Q => OverUnderProofs.not_both d R T k p e _ A (eq_ind _ (fun z => departs d k z _) D1 p Q)) as X1. pose proof (fun Q => OverUnderProofs.not_both d R T k p e _ A (eq_ind _ (fun z => departs d k z _) D2 p Q)) as X2. clear - X1 X2 Lp Lu. clearbody u.
      destruct (small4 u Lu) as [->|[->|[->| ->]]], (small4 p Lp) as [->|[->|[->| ->]]]; cbn in *; tauto.
    + intros p e A. assert (Lp : p < 4) by apply (slot_lt _ _ _ _ (departs_slot d R _ _ _ A)). pose proof (fun Q => OverUnderProofs.not_both d R T k p _ e (eq_ind _ (fun z => arrives d k z _) A1 p Q) A) as X1. pose proof (fun Q => OverUnderProofs.not_both d R T k p _ e (eq_ind _ (fun z => arrives d k z _) A2 p Q) A) as X2. clear - X1 X2 Lp Lu. clearbody u.
      destruct (small4 u Lu) as [->|[->|[->| ->]]], (small4 p Lp) as [->|[->|[->| ->]]]; cbn in *; tauto.
  - destruct SG as (A2 & D2). assert (CN : continues d (cedge x ((u + 1) mod 4)) (cedge x ((u + 3) mod 4))).
    { apply (at_continues k ((u + 1) mod 4)); auto. replace (((u + 1) mod 4 + 2) mod 4) with ((u + 3) mod 4); auto. destruct (small4 u Lu) as [->|[->|[->| ->]]]; reflexivity. }
    rewrite (proj1 (from1to3_next _ _ CN)).
    destruct (found_head k _ _ _ _ _ 1 F2 A2 (eq_sym T1)) as (e3 & E3 & F3). rewrite E3. cbn [bind]. destruct (found_tail k _ _ _ _ _ 3 F3 D2 (eq_sym T3)) as (e4 & E4 & F4). rewrite E4. cbn [bind].
    exists e4. split; [rewrite RX; do 3 f_equal; unfold rotate_left; rewrite <- SX; reflexivity|]. apply (found_next k _ _ _ _ _ F4).
    + intros p e A. assert (Lp : p < 4) by apply (slot_lt _ _ _ _ (arrives_slot d R _ _ _ A)). pose proof (fun Q => OverUnderProofs.not_both d R T k p e _ A (eq_ind _ (fun z => departs d k z _) D1 p Q)) as X1. pose proof (fun Q => OverUnderProofs.not_both d R T k p e _ A (eq_ind _ (fun z => departs d k z _) D2 p Q)) as X2. clear - X1 X2 Lp Lu. clearbody u.
      destruct (small4 u Lu) as [->|[->|[->| ->]]], (small4 p Lp) as [->|[->|[->| ->]]]; cbn in *; tauto.
    + intros p e A. assert (Lp : p < 4) by apply (slot_lt _ _ _ _ (departs_slot d R _ _ _ A)). pose proof (fun Q => OverUnderProofs.not_both d R T k p _ e (eq_ind _ (fun z => arrives d k z _) A1 p Q) A) as X1. pose proof (fun Q => OverUnderProofs.not_both d R T k p _ e (eq_ind _ (fun z => arrives d k z _) A2 p Q) A) as X2. clear - X1 X2 Lp Lu. clearbody u.
      destruct (small4 u Lu) as [->|[->|[->| ->]]], (small4 p Lp) as [->|[->|[->| ->]]]; cbn in *; tauto.
Qed.
Lemma sweep_from : forall m k es cs, k + m = ncross d -> found k [] [] es ->
  exists es', kt_sweep maxe k (map code_at (seq k m)) (es, cs) = Ok (es', cs ++ map turned_cross (seq k m)) /\ found (ncross d) [] [] es'.
Proof.
  induction m as [|m IH]; intros k es cs E F; cbn [seq map kt_sweep].
  - exists es. rewrite app_nil_r. replace (ncross d) with k by lia. auto.
  - destruct (place_step k es cs ltac:(lia) F) as (e1 & E1 & F1). rewrite E1. cbn [bind]. destruct (IH (S k) e1 (cs ++ [turned_cross k]) ltac:(lia) F1) as (e2 & E2 & F2). exists e2. rewrite E2, <- app_assoc. auto.
Qed.
Lemma sweep_all : exists es, kt_sweep maxe 0 codes (repeat (mkEdge 0 0 0 0) maxe, []) = Ok (es, map turned_cross (seq 0 (ncross d))) /\
  firstn (2 * ncross d) es = map turned_edge (p_edge d).
Proof.
  destruct (sweep_from (ncross d) 0 (repeat (mkEdge 0 0 0 0) maxe) [] eq_refl) as (es & E & (L & F)).
  - split; [apply repeat_length|]. intros e E HE. pose proof (edge_lt e E HE). exists (mkEdge 0 0 0 0). split; [apply nth_error_repeat; auto|]. split; intros [H0|[]]; lia.
  - exists es. split; auto. apply nth_ext with (d := mkEdge 0 0 0 0) (d' := turned_edge (mkEdge 0 0 0 0)).
    + rewrite firstn_length, map_length, L. change (length (p_edge d)) with (nedges d). rewrite (proj1 R). lia.
    + intros e He. rewrite firstn_length, L in He. assert (Hd : e < nedges d) by (rewrite (proj1 R); lia).
      destruct (nth_error (p_edge d) e) as [X|] eqn:HX; [|apply nth_error_None in HX; unfold nedges in Hd; lia]. destruct (F e X HX) as (Y & HY & F1 & F2).
      assert (QY : nth e (firstn (2 * ncross d) es) (mkEdge 0 0 0 0) = Y).
      { apply nth_error_nth. rewrite <- HY. rewrite <- (firstn_skipn (2 * ncross d) es) at 2. symmetry. apply nth_error_app1. rewrite firstn_length, L. lia. }
      rewrite QY, map_nth, (nth_error_nth _ _ _ HX). destruct (proj2 R e X HX) as (S1 & S2). apply slot_lt in S1, S2. destruct (F1 (or_introl (proj1 S1))) as (Z1 & Z2). destruct (F2 (or_introl (proj1 S2))) as (Z3 & Z4).
      destruct Y as [y1 y2 y3 y4]. unfold turned_edge. cbn in *. congruence.
Qed.

(** *** there is nothing to correct *)
Lemma opposite : forall c p x, nth_error (p_cross d) c = Some x -> p < 4 ->
  (exists q, arrives d c q (cedge x p)) /\ continues d (cedge x p) (cedge x ((p + 2) mod 4)) \/
  (exists q, arrives d c q (cedge x ((p + 2) mod 4))) /\ continues d (cedge x ((p + 2) mod 4)) (cedge x p).
Proof.
  intros c p x Hx Hp. assert (Hc : c < ncross d) by (apply nth_error_Some; congruence). assert (Q : forall p e, slot d c p e -> e = cedge x p) by (intros q y (_ & x' & Hx' & <-); congruence).
  destruct (either d R T c p Hc Hp) as (e & S & [A|D]); rewrite <- (Q _ _ S).
  - left. split; [eauto|]. destruct (arrives_across d G c p e A) as (f & D & CN). rewrite <- (Q _ _ (departs_slot d R _ _ _ D)). auto.
  - right. destruct (departs_across d R G c p e D) as (f & A & CN). rewrite <- (Q _ _ (arrives_slot d R _ _ _ A)). split; eauto.
Qed.
Lemma no_two_edges : forall a b p q x y, a <> b -> nth_error (p_cross d) a = Some x -> nth_error (p_cross d) b = Some y -> p < 4 -> q < 4 ->
  cedge y q = cedge x p -> cedge y ((q + 2) mod 4) = cedge x ((p + 2) mod 4) -> False.
Proof.
  intros a b p q x y N Hx Hy Hp Hq E1 E2. destruct (opposite a p x Hx Hp) as [((r & A) & C)|((r & A) & C)], (opposite b q y Hy Hq) as [((r' & A') & C')|((r' & A') & C')]; rewrite ?E1, ?E2 in *.
  - destruct (arrives_place d _ _ _ _ _ A A'). auto.
  - exact (not_back _ _ C C').
  - exact (not_back _ _ C C').
  - destruct (arrives_place d _ _ _ _ _ A A'). auto.
Qed.
Lemma turned_cedge : forall c x j, nth_error (p_cross d) c = Some x -> j < 4 -> cedge (turned_cross c) j = cedge x ((j + under_place c) mod 4).
Proof. intros c x j Hx Hj. unfold turned_cross. rewrite (nth_error_nth _ _ no_cross Hx). destruct (small4 j Hj) as [->|[->|[->| ->]]]; reflexivity. Qed.
Lemma no_two_turned : forall a b p q, a < ncross d -> b < ncross d -> a <> b -> p < 4 -> q < 4 ->
  cedge (turned_cross b) q = cedge (turned_cross a) p -> cedge (turned_cross b) ((q + 2) mod 4) = cedge (turned_cross a) ((p + 2) mod 4) -> False.
Proof.
  intros a b p q Ha Hb N Hp Hq E1 E2.
  destruct (nth_error (p_cross d) a) as [x|] eqn:Hx; [|apply nth_error_None in Hx; unfold ncross in Ha; lia]. destruct (nth_error (p_cross d) b) as [y|] eqn:Hy; [|apply nth_error_None in Hy; unfold ncross in Hb; lia].
  rewrite (turned_cedge b y), (turned_cedge a x) in E1, E2 by (auto; apply mod4_lt).
  apply (no_two_edges a b ((p + under_place a) mod 4) ((q + under_place b) mod 4) x y); auto; try apply mod4_lt.
  assert (M : forall z w, ((z + w) mod 4 + 2) mod 4 = ((z + 2) mod 4 + w) mod 4) by (intros z w; rewrite !Nat.add_mod_idemp_l by lia; f_equal; lia). rewrite !M. auto.
Qed.
Lemma no_picture : forall n a b es p, a < b -> b < ncross d -> In p pictures ->
  kt_picture n a b (es, map turned_cross (seq 0 (ncross d))) p = Ok (es, map turned_cross (seq 0 (ncross d))).
Proof.
  intros n a b es p Hab Hb I. unfold kt_picture. cbn [fst snd].
  assert (GT : forall c, c < ncross d -> get (map turned_cross (seq 0 (ncross d))) c = Ok (turned_cross c)).
  { intros c Hc. apply get_ok. rewrite (map_nth_error turned_cross c (seq 0 (ncross d)) (d := c)); auto. rewrite (nth_error_nth' _ 0) by (rewrite seq_length; auto). rewrite seq_nth; auto. }
  rewrite !GT by lia. cbn [bind]. destruct (forallb _ (pc_same p)) eqn:FB; auto. exfalso. rewrite forallb_forall in FB.
  assert (K : forall i j, In (i, j) (pc_same p) -> cedge (turned_cross b) i = cedge (turned_cross a) j) by (intros i j J; apply FB in J; apply Nat.eqb_eq in J; exact J). clear FB.
  pose proof (fun p q Hp Hq => no_two_turned a b p q ltac:(lia) Hb ltac:(lia) Hp Hq) as NT.
  cbn in I. repeat destruct I as [<-|I]; [..|destruct I].
  - apply (NT 0 2); [lia|lia|apply K; cbn; auto|apply K; cbn; auto].
  - apply (NT 0 2); [lia|lia|apply K; cbn; auto|apply K; cbn; auto].
  - apply (NT 1 3); [lia|lia|apply K; cbn; auto|apply K; cbn; auto].
  - apply (NT 1 3); [lia|lia|apply K; cbn; auto|apply K; cbn; auto].
  - apply (NT 3 2); [lia|lia|apply K; cbn; auto|apply K; cbn; auto].
  - apply (NT 1 2); [lia|lia|apply K; cbn; auto|apply K; cbn; auto].
  - apply (NT 2 3); [lia|lia|apply K; cbn; auto|apply K; cbn; auto].
  - apply (NT 3 0); [lia|lia|apply K; cbn; auto|apply K; cbn; auto].
  - apply (NT 0 3); [lia|lia|apply K; cbn; auto|apply K; cbn; auto].
  - apply (NT 0 1); [lia|lia|apply K; cbn; auto|apply K; cbn; auto].
  - apply (NT 0 1); [lia|lia|apply K; cbn; auto|apply K; cbn; auto].
  - apply (NT 0 3); [lia|lia|apply K; cbn; auto|apply K; cbn; auto].
Qed.
Lemma kt_all_same : forall {A B} (f : B -> A -> res B) l st, (forall a, In a l -> f st a = Ok st) -> kt_all f l st = Ok st.
Proof. intros A B f l st. induction l as [|a l IH]; intros H; auto. cbn [kt_all]. rewrite H by (left; auto). cbn [bind]. apply IH. intros; apply H; right; auto. Qed.
Lemma nothing_corrected : forall es, kt_two_edges (ncross d) (es, map turned_cross (seq 0 (ncross d))) = Ok (es, map turned_cross (seq 0 (ncross d))).
Proof.
  intros es. unfold kt_two_edges. apply kt_all_same. intros (a, b) I. unfold pairs_below in I. apply in_flat_map in I as (a' & Ia & I). apply in_map_iff in I as (b' & Q & Ib). injection Q as <- <-. apply in_seq in Ia, Ib.
  apply kt_all_same. intros p Ip. cbn [fst snd]. apply no_picture; auto; lia.
Qed.
End KT.
