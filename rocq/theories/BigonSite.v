(** The faces around a bigon, and the diagram without its two crossings. *)
From Coq Require Import List ZArith Lia Bool Arith Permutation Relations.
From Verif Require Import Base Iterators ListAux Pd PdSpec PdProofs Relabel RelabelProofs Strands CycleSurgery PdFaces PdFacesProofs LinkProofs Planar RegenSpec
  Thm_Faces PlanarProofs Thm_Planar MoveProofs DeloopSpec DeloopProofs RemoveSpec CutProofs RemoveProofs FacePlaces Exchange.
From Verif Require BigonCycles.
Import ListNotations.
Open Scope nat_scope.

(** the places of two crossings with a bigon between them, in the order of turning at each *)
Record site (d : pd) (c0 c1 : nat) (A0 A1 B0 B1 A2 A3 B2 B3 : nat * nat) : Prop := {
  st_ne : c0 <> c1;
  st_lt : c0 < ncross d /\ c1 < ncross d;
  st_gone : forall s, In s [A0; A1; B0; B1; A2; A3; B2; B3] <-> In (fst s) [c0; c1] /\ snd s < 4;
  st_nodup : NoDup [A0; A1; B0; B1; A2; A3; B2; B3];
  st_turn : lturn A0 = B1 /\ lturn B1 = A1 /\ lturn A1 = B0 /\ lturn B0 = A0 /\ lturn A2 = B2 /\ lturn B2 = A3 /\ lturn A3 = B3 /\ lturn B3 = A2;
  st_opp : opposite A0 = A1 /\ opposite A1 = A0 /\ opposite B0 = B1 /\ opposite B1 = B0 /\
           opposite A2 = A3 /\ opposite A3 = A2 /\ opposite B2 = B3 /\ opposite B3 = B2;
  st_eA : ends d A1 A3;
  st_eB : ends d B1 B3 }.

Section Site.
Context (d : pd) (R : ends_recorded d) (T : two_ended d) (FP : face_partition d (p_face d)) (NF : nfaces d = ncross d + 2) (CN : connected d) (N2 : 2 < ncross d).
Context (c0 c1 : nat) (A0 A1 B0 B1 A2 A3 B2 B3 : nat * nat) (S : site d c0 c1 A0 A1 B0 B1 A2 A3 B2 B3).
Definition cyc : list (list (nat * nat)) := map (map (dto d)) (p_face d).
Context (corner : forall f, In f cyc -> In B0 f -> In A2 f -> False).

Lemma cyc_part : cpart (fun s t => ends d (lturn s) t) (place d) cyc.
Proof. apply faces_places; auto. Qed.
Lemma cyc_next : forall f s t, In f cyc -> In s f -> ends d (lturn s) t -> In t f.
Proof.
  intros f s t If Is E. destruct cyc_part as (H & _ & _). destruct (H f If) as (_ & C).
  apply (BigonCycles.next_in (fun s t => ends d (lturn s) t) f s t); auto. intros a b b'. apply ends_fun; auto.
Qed.
Lemma cyc_in : forall s, place d s -> exists f, In f cyc /\ In s f.
Proof. intros s Hs. destruct cyc_part as (_ & _ & H). apply H in Hs. apply in_concat in Hs. exact Hs. Qed.
(** the two sides of an edge lie in different faces *)
Lemma two_sides : forall f s t, In f cyc -> In s f -> In t f -> ~ ends d s t.
Proof.
  intros f s t If Is It E. unfold cyc in If. apply in_map_iff in If. destruct If as (F & <- & HF).
  apply in_map_iff in Is, It. destruct Is as (x & Ex & Ix). destruct It as (y & Ey & Iy). apply ends_dart in E. destruct E as (a & Da & E1 & E2).
  assert (DF : forall z, In z F -> is_dart d z) by (intros z Hz; destruct FP as (_ & _ & P3); apply P3, in_concat; eauto).
  assert (x = flip a) as -> by (apply (dto_inj d R T); [auto|apply is_dart_flip; auto|congruence]).
  assert (y = a) as -> by (apply (dto_inj d R T); auto; congruence).
  pose proof (face_edges_distinct d R T FP NF CN F HF) as ND.
  assert (Q : flip a = a).
  { clear -ND Ix Iy. assert (K : fst (flip a) = fst a) by reflexivity. revert Ix Iy K. generalize (flip a). intros b Ib Ia K. induction F as [|z F IH]; [destruct Ia|].
    cbn [map] in ND. apply NoDup_cons_iff in ND as (N & ND). destruct Ia as [Za|Ia], Ib as [Zb|Ib]; try congruence.
    - subst z. exfalso. apply N. rewrite <- K. apply in_map; auto.
    - subst z. exfalso. apply N. rewrite K. apply in_map; auto.
    - apply IH; auto. }
  destruct a as (e, [| |]); cbn in *; try discriminate. destruct Da as (_ & [?|?]); discriminate.
Qed.
Lemma gone_place : forall s, In s [A0; A1; B0; B1; A2; A3; B2; B3] -> place d s.
Proof.
  intros s Hs. apply (st_gone _ _ _ _ _ _ _ _ _ _ _ S) in Hs. destruct Hs as ([E|[E|[]]] & L); destruct (st_lt _ _ _ _ _ _ _ _ _ _ _ S); split; auto; rewrite <- E; auto.
Qed.
Ltac here := cbn [In]; tauto.
Lemma no_A2_B0 : ~ ends d A2 B0.
Proof.
  intro E. destruct (st_turn _ _ _ _ _ _ _ _ _ _ _ S) as (t1 & t2 & t3 & t4 & t5 & t6 & t7 & t8).
  destruct (cyc_in B2) as (f & If & I2); [apply gone_place; here|]. destruct (ends_total d R T B2) as (t & Et & _); [apply gone_place; here|].
  assert (J1 : In A1 f) by (apply (cyc_next f B2); auto; rewrite t6; apply ends_sym, (st_eA _ _ _ _ _ _ _ _ _ _ _ S)).
  assert (J2 : In A2 f) by (apply (cyc_next f A1); auto; rewrite t3; apply ends_sym; auto).
  assert (J3 : In t f) by (apply (cyc_next f A2); auto; rewrite t5; auto).
  apply (two_sides f B2 t); auto.
Qed.
Lemma no_A0_B2 : ~ ends d A0 B2.
Proof.
  intro E. destruct (st_turn _ _ _ _ _ _ _ _ _ _ _ S) as (t1 & t2 & t3 & t4 & t5 & t6 & t7 & t8).
  destruct (cyc_in B0) as (f & If & I2); [apply gone_place; here|]. destruct (ends_total d R T B0) as (t & Et & _); [apply gone_place; here|].
  assert (J1 : In B2 f) by (apply (cyc_next f B0); auto; rewrite t4; auto).
  assert (J2 : In A1 f) by (apply (cyc_next f B2); auto; rewrite t6; apply ends_sym, (st_eA _ _ _ _ _ _ _ _ _ _ _ S)).
  assert (J3 : In t f) by (apply (cyc_next f A1); auto; rewrite t3; auto).
  apply (two_sides f B0 t); auto.
Qed.
Lemma no_A0_A2 : ~ ends d A0 A2.
Proof.
  intro E. destruct (st_turn _ _ _ _ _ _ _ _ _ _ _ S) as (t1 & t2 & t3 & t4 & t5 & t6 & t7 & t8).
  destruct (cyc_in B0) as (f & If & I2); [apply gone_place; here|]. apply (corner f If I2). apply (cyc_next f B0); auto. rewrite t4. exact E.
Qed.
Lemma no_B0_B2 : ~ ends d B0 B2.
Proof.
  intro E. destruct (st_turn _ _ _ _ _ _ _ _ _ _ _ S) as (t1 & t2 & t3 & t4 & t5 & t6 & t7 & t8).
  destruct (cyc_in A2) as (f & If & I2); [apply gone_place; here|]. apply (corner f If); auto. apply (cyc_next f A2); auto. rewrite t5. apply ends_sym. exact E.
Qed.
Lemma outer_end : forall s t, In s [A0; B0; A2; B2] -> ends d s t -> In (fst t) [c0; c1] ->
  s = A0 /\ t = B0 \/ s = B0 /\ t = A0 \/ s = A2 /\ t = B2 \/ s = B2 /\ t = A2.
Proof.
  intros s t Hs E Ht. destruct (ends_place d R s t E) as (_ & (Lt & Pt)). assert (It : In t [A0; A1; B0; B1; A2; A3; B2; B3]) by (apply (st_gone _ _ _ _ _ _ _ _ _ _ _ S); auto).
  pose proof (st_eA _ _ _ _ _ _ _ _ _ _ _ S) as EA. pose proof (st_eB _ _ _ _ _ _ _ _ _ _ _ S) as EB. pose proof (st_nodup _ _ _ _ _ _ _ _ _ _ _ S) as ND.
  assert (U : forall x y z, ends d x y -> ends d z y -> x = z) by (intros x y z E1 E2; apply (ends_fun d R T y); apply ends_sym; auto).
  rewrite !NoDup_cons_iff in ND. cbn [In] in ND.
  cbn [In] in It. destruct It as [<-|[<-|[<-|[<-|[<-|[<-|[<-|[<-|[]]]]]]]]].
  - cbn [In] in Hs. destruct Hs as [<-|[<-|[<-|[<-|[]]]]]; [exfalso; eapply ends_irr; eauto|auto|exfalso; apply no_A0_A2, ends_sym; auto|exfalso; apply no_A0_B2, ends_sym; auto].
  - exfalso. pose proof (U _ _ _ E (ends_sym _ _ _ EA)) as ->. cbn [In] in Hs. intuition congruence.
  - cbn [In] in Hs. destruct Hs as [<-|[<-|[<-|[<-|[]]]]]; [auto|exfalso; eapply ends_irr; eauto|exfalso; apply no_A2_B0; auto|exfalso; apply no_B0_B2, ends_sym; auto].
  - exfalso. pose proof (U _ _ _ E (ends_sym _ _ _ EB)) as ->. cbn [In] in Hs. intuition congruence.
  - cbn [In] in Hs. destruct Hs as [<-|[<-|[<-|[<-|[]]]]]; [exfalso; apply no_A0_A2; auto|exfalso; apply no_A2_B0, ends_sym; auto|exfalso; eapply ends_irr; eauto|auto].
  - exfalso. pose proof (U _ _ _ E EA) as ->. cbn [In] in Hs. intuition congruence.
  - cbn [In] in Hs. destruct Hs as [<-|[<-|[<-|[<-|[]]]]]; [exfalso; apply no_A0_B2; auto|exfalso; apply no_B0_B2; auto|auto|exfalso; eapply ends_irr; eauto].
  - exfalso. pose proof (U _ _ _ E EB) as ->. cbn [In] in Hs. intuition congruence.
Qed.
Lemma joined_ends : forall v w, joined d v w -> v = w \/ exists p q, ends d (v, p) (w, q).
Proof.
  intros v w (e & p & q & S1 & S2). destruct (slot_edge d v p e R T S1) as (E & HE).
  destruct (slot_end d v p e E R T S1 HE) as [Q1|Q1], (slot_end d w q e E R T S2 HE) as [Q2|Q2].
  - left. rewrite <- Q1 in Q2. apply pair_eq in Q2. symmetry. tauto.
  - right. exists p, q. exists e, E. split; auto.
  - right. exists p, q. exists e, E. split; auto.
  - left. rewrite <- Q1 in Q2. apply pair_eq in Q2. symmetry. tauto.
Qed.
Lemma ends_joined : forall o v p w q, ends_recorded o -> ends o (v, p) (w, q) -> joined o v w.
Proof.
  intros o v p w q (_ & Ro) (e & E & HE & Q). destruct (Ro _ _ HE) as (S1 & S2). unfold tail_slot, head_slot in Q.
  destruct Q as [(Q1 & Q2)|(Q1 & Q2)]; apply pair_eq in Q1 as (-> & ->); apply pair_eq in Q2 as (-> & ->); do 3 eexists; split; eauto.
Qed.
Lemma site_open : exists x t, In x [A0; B0; A2; B2] /\ ends d x t /\ ~ In (fst t) [c0; c1].
Proof.
  assert (exists w, w < ncross d /\ w <> c0 /\ w <> c1) as (w & Hw & W0 & W1).
  { destruct (Nat.eq_dec c0 0), (Nat.eq_dec c1 0), (Nat.eq_dec c0 1), (Nat.eq_dec c1 1); try lia; try (exists 0; lia); try (exists 1; lia); exists 2; lia. }
  pose proof (CN c0 w (proj1 (st_lt _ _ _ _ _ _ _ _ _ _ _ S)) Hw) as P. apply clos_rt_rt1n in P.
  assert (X : forall v, clos_refl_trans_1n nat (joined d) v w -> In v [c0; c1] -> exists s t, ends d s t /\ In (fst s) [c0; c1] /\ ~ In (fst t) [c0; c1]).
  { intros v K. induction K as [v|v u z J K IH]; intro I; [cbn [In] in I; intuition congruence|]. destruct (in_dec Nat.eq_dec u [c0; c1]) as [Iu|Nu]; [apply IH; auto|].
    destruct (joined_ends v u J) as [->|(p & q & E)]; [contradiction|]. exists (v, p), (u, q). auto. }
  destruct (X c0 P) as (s & t & E & Is & Nt); [here|]. destruct (ends_place d R s t E) as ((Ls & Ps) & _).
  assert (Gs : In s [A0; A1; B0; B1; A2; A3; B2; B3]) by (apply (st_gone _ _ _ _ _ _ _ _ _ _ _ S); auto).
  assert (Gt : forall z, In z [A0; A1; B0; B1; A2; A3; B2; B3] -> t <> z) by (intros z Hz ->; apply (st_gone _ _ _ _ _ _ _ _ _ _ _ S) in Hz; tauto).
  pose proof (st_eA _ _ _ _ _ _ _ _ _ _ _ S) as EA. pose proof (st_eB _ _ _ _ _ _ _ _ _ _ _ S) as EB. exists s, t.
  cbn [In] in Gs. destruct Gs as [<-|[<-|[<-|[<-|[<-|[<-|[<-|[<-|[]]]]]]]]]; try (split; [here|auto]); exfalso.
  - apply (Gt A3); [here|]. apply (ends_fun d R T A1); auto.
  - apply (Gt B3); [here|]. apply (ends_fun d R T B1); auto.
  - apply (Gt A1); [here|]. apply (ends_fun d R T A3); auto. apply ends_sym; auto.
  - apply (Gt B1); [here|]. apply (ends_fun d R T B3); auto. apply ends_sym; auto.
Qed.
Lemma not_both : ends d A0 B0 -> ends d A2 B2 -> False.
Proof.
  intros E1 E2. destruct site_open as (x & t & Hx & E & Nt). apply Nt.
  assert (Gt : In t [A0; A1; B0; B1; A2; A3; B2; B3]).
  { cbn [In] in Hx. destruct Hx as [<-|[<-|[<-|[<-|[]]]]].
    - rewrite (ends_fun d R T _ _ _ E E1). here.
    - rewrite (ends_fun d R T _ _ _ E (ends_sym _ _ _ E1)). here.
    - rewrite (ends_fun d R T _ _ _ E E2). here.
    - rewrite (ends_fun d R T _ _ _ E (ends_sym _ _ _ E2)). here. }
  apply (st_gone _ _ _ _ _ _ _ _ _ _ _ S) in Gt. tauto.
Qed.
Definition nturn (s : nat * nat) : nat * nat := if snd s <? 4 then lturn s else s.
Lemma nturn_place : forall s, snd s < 4 -> nturn s = lturn s.
Proof. intros s Hs. unfold nturn. destruct (Nat.ltb_spec (snd s) 4); [reflexivity|lia]. Qed.

Lemma site_cycles : exists L' c', cpart (fun s t => pruns d [c0; c1] (lturn s) t) (fun s => place d s /\ ~ In (fst s) [c0; c1]) L' /\ length L' + 2 = nfaces d /\
  In c' (L' ++ [[]]) /\ (forall t, ends d A0 t \/ ends d B2 t -> ~ In (fst t) [c0; c1] -> In t c').
Proof.
  destruct (st_turn _ _ _ _ _ _ _ _ _ _ _ S) as (t1 & t2 & t3 & t4 & t5 & t6 & t7 & t8). destruct (st_opp _ _ _ _ _ _ _ _ _ _ _ S) as (o1 & o2 & o3 & o4 & o5 & o6 & o7 & o8).
  pose proof (st_gone _ _ _ _ _ _ _ _ _ _ _ S) as GO.
  assert (G4 : forall s, In s [A0; A1; B0; B1; A2; A3; B2; B3] -> snd s < 4) by (intros s Hs; apply GO in Hs; tauto).
  destruct (cyc_in B0) as (f1 & I1 & J1); [apply gone_place; here|]. destruct (cyc_in A2) as (f2 & I2 & J2); [apply gone_place; here|].
  assert (dec : forall x y : nat * nat, {x = y} + {x <> y}) by (intros (x, y) (x', y'); destruct (Nat.eq_dec x x'), (Nat.eq_dec y y'); [left|right|right|right]; congruence).
  destruct (BigonCycles.bigon_cycles dec nturn opposite (ends d) (ends_sym d) (ends_fun d R T) (ends_irr d T) A0 A1 B0 B1 A2 A3 B2 B3) with (D := place d) (L := cyc) (c1 := f1) (c2 := f2)
    as (L' & c' & HC & HL & HC2); try assumption; try (rewrite nturn_place by (apply G4; here); assumption).
  - exact (st_eA _ _ _ _ _ _ _ _ _ _ _ S).
  - exact (st_eB _ _ _ _ _ _ _ _ _ _ _ S).
  - exact (st_nodup _ _ _ _ _ _ _ _ _ _ _ S).
  - intros (v, p) Hb. unfold BigonCycles.gone in *. unfold nturn in Hb. cbn [snd] in Hb. destruct (Nat.ltb_spec p 4) as [Q|Q]; [|exact Hb].
    apply GO. apply GO in Hb. cbn [lturn fst snd] in *. tauto.
  - exact gone_place.
  - apply ends_total; auto.
  - destruct site_open as (x & t & Hx & E & Nt). exists x, t. split; [|split; auto].
    + unfold BigonCycles.outer. cbn [In] in Hx. intuition congruence.
    + intro Q. apply GO in Q. tauto.
  - eapply cpart_ext; [exact cyc_part| |intro; tauto]. intros s t (_ & Ps) _ E. unfold BigonCycles.step. rewrite nturn_place by auto. exact E.
  - intro Q. apply (corner f1); auto.
  - exists L'. unfold cyc in HL. rewrite map_length in HL.
    assert (HC' : cpart (fun s t => pruns d [c0; c1] (lturn s) t) (fun s => place d s /\ ~ In (fst s) [c0; c1]) L').
    { eapply cpart_ext; [exact HC| |].
      - intros s t ((_ & Ps) & _) _ Q. rewrite nturn_place in Q by auto. clear -Q GO. induction Q as [t Q|u t Q IH Gu E]; [apply pruns_one; auto|].
        eapply pruns_more; [exact IH| |exact E]. apply GO in Gu. tauto.
      - intro s. cbv beta. unfold BigonCycles.gone. split; intros (Ps & Q); split; auto; intro Z; apply Q; [|apply GO; split; auto; apply Ps]. apply GO in Z. tauto. }
    destruct (in_dec (list_eq_dec dec) c' L') as [I|N].
    + exists c'. split; auto. split; auto. split; [apply in_app_iff; auto|]. intros t Ht Nt. apply HC2; auto. intro Q. apply GO in Q. tauto.
    + exists []. split; auto. split; auto. split; [apply in_app_iff; cbn; auto|]. intros t Ht Nt. exfalso. apply N. apply (HC2 t); auto. intro Q. apply GO in Q. tauto.
Qed.

(** ** the diagram without the two crossings *)
Section Without.
Context (o : pd) (kc ke : nat -> nat) (H : crossings_removed d o [c0; c1] kc (fun _ => 0) ke) (G : goes_through d).
Context (Ro : ends_recorded o) (To : two_ended o).
Lemma kc_kept : forall v, v < ncross d -> ~ In v [c0; c1] -> kc v < ncross o.
Proof. apply (cr_kc _ _ _ _ _ _ H). Qed.
Lemma runs_joined : forall s t, pruns d [c0; c1] s t -> ~ In (fst s) [c0; c1] -> ~ In (fst t) [c0; c1] -> joined o (kc (fst s)) (kc (fst t)).
Proof. intros s t Q Ks Kt. pose proof (runs_ends d o [c0; c1] kc ke H R G T s t Q Ks Kt) as E. unfold pmap in E. eapply ends_joined; eauto. Qed.
Definition linked_by (v w : nat) : Prop := clos_refl_trans nat (joined o) (kc v) (kc w).
Lemma joined_o_sym : forall v w, joined o v w -> joined o w v.
Proof. intros v w (e & p & q & X & Y). exists e, q, p. auto. Qed.
Lemma linked_sym : forall v w, linked_by v w -> linked_by w v.
Proof.
  intros v w L. unfold linked_by in *. induction L as [x y J|x|x y z L1 IH1 L2 IH2]; [apply rt_step, joined_o_sym; auto|apply rt_refl|eapply rt_trans; eauto].
Qed.
(** two ends of outer edges, seen from the outside *)
Lemma through_A : forall s t, ends d s A0 -> ends d A2 t -> pruns d [c0; c1] s t.
Proof.
  intros s t E1 E2. destruct (st_opp _ _ _ _ _ _ _ _ _ _ _ S) as (o1 & o2 & o3 & o4 & o5 & o6 & o7 & o8). pose proof (st_gone _ _ _ _ _ _ _ _ _ _ _ S) as GO.
  apply pruns_more with A3; [|apply GO; here|rewrite o6; auto]. apply pruns_more with A0; [apply pruns_one; auto|apply GO; here|rewrite o1; apply (st_eA _ _ _ _ _ _ _ _ _ _ _ S)].
Qed.
Lemma through_B : forall s t, ends d s B0 -> ends d B2 t -> pruns d [c0; c1] s t.
Proof.
  intros s t E1 E2. destruct (st_opp _ _ _ _ _ _ _ _ _ _ _ S) as (o1 & o2 & o3 & o4 & o5 & o6 & o7 & o8). pose proof (st_gone _ _ _ _ _ _ _ _ _ _ _ S) as GO.
  apply pruns_more with B3; [|apply GO; here|rewrite o8; auto]. apply pruns_more with B0; [apply pruns_one; auto|apply GO; here|rewrite o3; apply (st_eB _ _ _ _ _ _ _ _ _ _ _ S)].
Qed.
Lemma through_01 : forall s t, ends d s A0 -> ends d A2 B2 -> ends d B0 t -> pruns d [c0; c1] s t.
Proof.
  intros s t E1 E E2. destruct (st_opp _ _ _ _ _ _ _ _ _ _ _ S) as (o1 & o2 & o3 & o4 & o5 & o6 & o7 & o8). pose proof (st_gone _ _ _ _ _ _ _ _ _ _ _ S) as GO.
  apply pruns_more with B1; [|apply GO; here|rewrite o4; auto]. apply pruns_more with B2; [|apply GO; here|rewrite o7; apply ends_sym, (st_eB _ _ _ _ _ _ _ _ _ _ _ S)].
  apply through_A; auto.
Qed.
Lemma through_23 : forall s t, ends d s A2 -> ends d A0 B0 -> ends d B2 t -> pruns d [c0; c1] s t.
Proof.
  intros s t E1 E E2. destruct (st_opp _ _ _ _ _ _ _ _ _ _ _ S) as (o1 & o2 & o3 & o4 & o5 & o6 & o7 & o8). pose proof (st_gone _ _ _ _ _ _ _ _ _ _ _ S) as GO.
  apply pruns_more with B3; [|apply GO; here|rewrite o8; auto]. apply pruns_more with B0; [|apply GO; here|rewrite o3; apply (st_eB _ _ _ _ _ _ _ _ _ _ _ S)].
  apply pruns_more with A1; [|apply GO; here|rewrite o2; auto].
  apply pruns_more with A2; [apply pruns_one; auto|apply GO; here|rewrite o5; apply ends_sym, (st_eA _ _ _ _ _ _ _ _ _ _ _ S)].
Qed.
Lemma pruns_link : forall s t, pruns d [c0; c1] s t -> ~ In (fst s) [c0; c1] -> ~ In (fst t) [c0; c1] -> linked_by (fst s) (fst t).
Proof. intros s t Q Ks Kt. apply rt_step. apply runs_joined; auto. Qed.
Lemma same_cycle_link : forall c, (c <> [] -> cyclically (fun s t => pruns d [c0; c1] (lturn s) t) c /\ forall s, In s c -> ~ In (fst s) [c0; c1]) ->
  forall s t, In s c -> In t c -> linked_by (fst s) (fst t).
Proof.
  intros c Hc s t Is It. assert (c <> []) as N by (intros ->; destruct Is). destruct (Hc N) as (C & K). clear Hc N.
  destruct (CycleMatch.rotation_in_front _ s c Is) as (w & Rw). pose proof (CycleMatch.cyclically_rotation _ _ _ _ Rw C) as Cw. apply cyclically_linked in Cw.
  pose proof (Exchange.rotation_perm _ _ _ Rw) as Pw. apply (Permutation_in _ Pw) in It.
  assert (K' : forall x, In x (s :: w) -> ~ In (fst x) [c0; c1]) by (intros x Hx; apply K; apply (Permutation_in _ (Permutation_sym Pw)); auto).
  clear -Cw It K' H R G T Ro. revert s Cw It K'. induction w as [|y w IH] using rev_ind.
  - intros s Cw It K'. destruct It as [<-|[]]. apply rt_refl.
  - intros s Cw It K'. clear IH. revert s Cw It K'. generalize (w ++ [y]). clear w y. intros w.
    assert (X : forall l x z, linked (fun s t => pruns d [c0; c1] (lturn s) t) (x :: l ++ [z]) -> (forall y, In y (x :: l) -> ~ In (fst y) [c0; c1]) ->
      forall y, In y (x :: l) -> linked_by (fst x) (fst y)).
    { induction l as [|y l IH]; intros x z Lk Kx y' Iy.
      - destruct Iy as [<-|[]]. apply rt_refl.
      - destruct Iy as [<-|Iy]; [apply rt_refl|]. cbn [app] in Lk. destruct Lk as (L1 & L2).
        eapply rt_trans; [|apply (IH y z L2); auto; intros; apply Kx; right; auto]. apply (pruns_link (lturn x) y); auto; [apply (Kx x); left; auto|apply (Kx y); right; left; auto]. }
    intros s Cw It K'. apply (X w s s); auto.
Qed.
Lemma outer_linked : forall x y s t, In x [A0; B0; A2; B2] -> In y [A0; B0; A2; B2] -> ends d x s -> ends d y t ->
  ~ In (fst s) [c0; c1] -> ~ In (fst t) [c0; c1] -> linked_by (fst s) (fst t).
Proof.
  destruct site_cycles as (L' & c' & HC & _ & Ic & HC2). pose proof (st_gone _ _ _ _ _ _ _ _ _ _ _ S) as GO.
  destruct (ends_total d R T A0) as (q0 & E0 & _); [apply gone_place; here|]. destruct (ends_total d R T B0) as (r0 & F0 & _); [apply gone_place; here|].
  destruct (ends_total d R T A2) as (q2 & E2 & _); [apply gone_place; here|]. destruct (ends_total d R T B2) as (r2 & F2 & _); [apply gone_place; here|].
  assert (K : forall t z, In z [A0; A1; B0; B1; A2; A3; B2; B3] -> t = z -> In (fst t) [c0; c1]) by (intros t z Hz ->; apply GO; auto).
  assert (dec : forall t : nat * nat, In (fst t) [c0; c1] \/ ~ In (fst t) [c0; c1]) by (intro t; destruct (in_dec Nat.eq_dec (fst t) [c0; c1]); auto).
  (* all four outside, or two *)
  assert (ALL : forall P : nat * nat -> Prop, (~ In (fst q0) [c0; c1] -> P q0) -> (~ In (fst r0) [c0; c1] -> P r0) -> (~ In (fst q2) [c0; c1] -> P q2) -> (~ In (fst r2) [c0; c1] -> P r2) ->
     forall y t, In y [A0; B0; A2; B2] -> ends d y t -> ~ In (fst t) [c0; c1] -> P t).
  { intros P P1 P2 P3 P4 y t Iy Et Kt. cbn [In] in Iy. destruct Iy as [<-|[<-|[<-|[<-|[]]]]].
    - rewrite (ends_fun d R T _ _ _ Et E0) in *. auto.
    - rewrite (ends_fun d R T _ _ _ Et F0) in *. auto.
    - rewrite (ends_fun d R T _ _ _ Et E2) in *. auto.
    - rewrite (ends_fun d R T _ _ _ Et F2) in *. auto. }
  assert (BASE : exists v, (~ In (fst q0) [c0; c1] -> linked_by v (fst q0)) /\ (~ In (fst r0) [c0; c1] -> linked_by v (fst r0)) /\
    (~ In (fst q2) [c0; c1] -> linked_by v (fst q2)) /\ (~ In (fst r2) [c0; c1] -> linked_by v (fst r2))).
  { destruct (dec q0) as [k0|k0].
    - (* A0 - B0 *)
      destruct (outer_end A0 q0 ltac:(here) E0 k0) as [(_ & Q)|[(Q & _)|[(Q & _)|(Q & _)]]];
        [|exfalso; pose proof (st_nodup _ _ _ _ _ _ _ _ _ _ _ S) as ND; rewrite !NoDup_cons_iff in ND; cbn [In] in ND; intuition congruence..].
      subst q0. assert (r0 = A0) as -> by (apply (ends_fun d R T B0); auto; apply ends_sym; auto).
      assert (k1 : In (fst A0) [c0; c1]) by (apply GO; here).
      destruct (dec q2) as [k2|k2].
      + exfalso. destruct (outer_end A2 q2 ltac:(here) E2 k2) as [(Q & _)|[(Q & _)|[(_ & Q)|(Q & _)]]];
        [exfalso; pose proof (st_nodup _ _ _ _ _ _ _ _ _ _ _ S) as ND; rewrite !NoDup_cons_iff in ND; cbn [In] in ND; intuition congruence..| |
         exfalso; pose proof (st_nodup _ _ _ _ _ _ _ _ _ _ _ S) as ND; rewrite !NoDup_cons_iff in ND; cbn [In] in ND; intuition congruence].
        subst q2. apply not_both; auto.
      + exists (fst q2). split; [tauto|]. split; [tauto|]. split; [intro; apply rt_refl|]. intro k3. apply pruns_link; auto. apply through_23; auto. apply ends_sym; auto.
    - destruct (dec q2) as [k2|k2].
      + destruct (outer_end A2 q2 ltac:(here) E2 k2) as [(Q & _)|[(Q & _)|[(_ & Q)|(Q & _)]]];
        [exfalso; pose proof (st_nodup _ _ _ _ _ _ _ _ _ _ _ S) as ND; rewrite !NoDup_cons_iff in ND; cbn [In] in ND; intuition congruence..| |
         exfalso; pose proof (st_nodup _ _ _ _ _ _ _ _ _ _ _ S) as ND; rewrite !NoDup_cons_iff in ND; cbn [In] in ND; intuition congruence].
        subst q2. assert (r2 = A2) as -> by (apply (ends_fun d R T B2); auto; apply ends_sym; auto).
        assert (k1 : In (fst A2) [c0; c1]) by (apply GO; here).
        exists (fst q0). split; [intro; apply rt_refl|]. split; [|tauto]. intro k3. apply pruns_link; auto. apply through_01; auto. apply ends_sym; auto.
      + assert (LA : linked_by (fst q0) (fst q2)) by (apply pruns_link; auto; apply through_A; auto; apply ends_sym; auto).
        exists (fst q0). split; [intro; apply rt_refl|].
        assert (k5 : ~ In (fst r0) [c0; c1] /\ ~ In (fst r2) [c0; c1]).
        { split; intro k.
          - destruct (outer_end B0 r0 ltac:(here) F0 k) as [(Q & _)|[(_ & Q)|[(Q & _)|(Q & _)]]];
            try (pose proof (st_nodup _ _ _ _ _ _ _ _ _ _ _ S) as ND; rewrite !NoDup_cons_iff in ND; cbn [In] in ND; intuition congruence).
            subst r0. apply k0. rewrite (ends_fun d R T _ _ _ E0 (ends_sym _ _ _ F0)). apply GO. here.
          - destruct (outer_end B2 r2 ltac:(here) F2 k) as [(Q & _)|[(Q & _)|[(Q & _)|(_ & Q)]]];
            try (pose proof (st_nodup _ _ _ _ _ _ _ _ _ _ _ S) as ND; rewrite !NoDup_cons_iff in ND; cbn [In] in ND; intuition congruence).
            subst r2. apply k2. rewrite (ends_fun d R T _ _ _ E2 (ends_sym _ _ _ F2)). apply GO. here. }
        destruct k5 as (k5 & k6).
        assert (LB : linked_by (fst r0) (fst r2)) by (apply pruns_link; auto; apply through_B; auto; apply ends_sym; auto).
        assert (LC : linked_by (fst q0) (fst r2)).
        { apply (same_cycle_link c'); auto. intro Nc. apply in_app_iff in Ic. destruct Ic as [Ic|[Ic|[]]]; [|congruence]. destruct HC as (C1 & _ & C3). split; [apply C1; auto|].
          intros s Hs. apply C3. apply in_concat. eauto. }
        split; [|split; auto]. intros _. eapply rt_trans; [exact LC|]. apply linked_sym. exact LB. }
  destruct BASE as (v & V1 & V2 & V3 & V4). intros x y s t Ix Iy Es Et Ks Kt.
  pose proof (ALL (fun t => linked_by v (fst t)) V1 V2 V3 V4) as AL. eapply rt_trans; [apply linked_sym, (AL x s); auto|apply (AL y t); auto].
Qed.
Lemma adjacent_outer : forall s t, ends d s t -> In (fst s) [c0; c1] -> ~ In (fst t) [c0; c1] -> In s [A0; B0; A2; B2].
Proof.
  intros s t E Is Nt. pose proof (st_gone _ _ _ _ _ _ _ _ _ _ _ S) as GO. destruct (ends_place d R s t E) as ((Ls & Ps) & _).
  assert (Gs : In s [A0; A1; B0; B1; A2; A3; B2; B3]) by (apply GO; auto).
  assert (Gt : forall z, In z [A0; A1; B0; B1; A2; A3; B2; B3] -> t <> z) by (intros z Hz ->; apply GO in Hz; tauto).
  pose proof (st_eA _ _ _ _ _ _ _ _ _ _ _ S) as EA. pose proof (st_eB _ _ _ _ _ _ _ _ _ _ _ S) as EB.
  cbn [In] in Gs. destruct Gs as [<-|[<-|[<-|[<-|[<-|[<-|[<-|[<-|[]]]]]]]]]; try here; exfalso.
  - apply (Gt A3); [here|]. apply (ends_fun d R T A1); auto.
  - apply (Gt B3); [here|]. apply (ends_fun d R T B1); auto.
  - apply (Gt A1); [here|]. apply (ends_fun d R T A3); auto. apply ends_sym; auto.
  - apply (Gt B1); [here|]. apply (ends_fun d R T B3); auto. apply ends_sym; auto.
Qed.
Lemma site_connected : (forall w, w < ncross o -> exists v, v < ncross d /\ ~ In v [c0; c1] /\ kc v = w) -> connected o.
Proof.
  intros ON. destruct site_open as (x0 & t0 & Ix0 & Et0 & Nt0).
  set (f := fun v => if in_dec Nat.eq_dec v [c0; c1] then fst t0 else v).
  assert (J : forall u v, joined d u v -> linked_by (f u) (f v)).
  { intros u v Juv. destruct (joined_ends u v Juv) as [->|(p & q & E)]; [apply rt_refl|]. unfold f.
    destruct (in_dec Nat.eq_dec u [c0; c1]) as [Iu|Nu], (in_dec Nat.eq_dec v [c0; c1]) as [Iv|Nv].
    - apply rt_refl.
    - apply (outer_linked x0 (u, p) t0 (v, q)); auto. apply (adjacent_outer _ (v, q)); auto.
    - apply (outer_linked (v, q) x0 (u, p) t0); auto; [|apply ends_sym; auto]. apply (adjacent_outer _ (u, p)); auto. apply ends_sym; auto.
    - apply (pruns_link (u, p) (v, q)); auto. apply pruns_one; auto. }
  assert (P : forall u v, clos_refl_trans nat (joined d) u v -> linked_by (f u) (f v)).
  { intros u v K. induction K as [u v K|u|u v w K1 IH1 K2 IH2]; [auto|apply rt_refl|eapply rt_trans; eauto]. }
  intros w w' Hw Hw'. destruct (ON w Hw) as (v & Hv & Nv & <-). destruct (ON w' Hw') as (v' & Hv' & Nv' & <-).
  pose proof (P v v' (CN v v' Hv Hv')) as Q. unfold f in Q. destruct (in_dec Nat.eq_dec v [c0; c1]); [contradiction|]. destruct (in_dec Nat.eq_dec v' [c0; c1]); [contradiction|]. exact Q.
Qed.
Lemma site_planar : connected o -> ncross d = ncross o + 2 ->
  (forall L, cpart (fun s t => pruns d [c0; c1] (lturn s) t) (fun s => place d s /\ ~ In (fst s) [c0; c1]) L -> cpart (fun s t => ends o (lturn s) t) (place o) (map (map (pmap kc)) L)) -> planar o.
Proof.
  intros Co NC RC. destruct site_cycles as (L' & c' & HC & HL & _). apply (planar_of_count o Ro To (map (map (at_place o)) (map (map (pmap kc)) L'))); auto.
  - apply places_faces; auto.
  - rewrite !map_length. unfold nfaces in *. lia.
Qed.
End Without.
End Site.
