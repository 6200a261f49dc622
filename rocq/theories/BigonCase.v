(** From a bigon to the strands through its crossings. *)
From Coq Require Import List ZArith Lia Bool Arith Permutation Relations.
From Verif Require Import Base Iterators ListAux Pd PdSpec PdProofs Relabel RelabelProofs Strands CycleSurgery PdFaces PdFacesProofs LinkProofs Planar RegenSpec
  Thm_Faces PlanarProofs Thm_Planar MoveProofs DeloopSpec DeloopProofs DeloopComps Thm_LoopDel OverUnder OverUnderSpec OverUnderProofs RemoveSpec CutProofs RemoveProofs FacePlaces
  BigonSite Bigon BigonFrame BigonJoin BigonCorners BigonStrands BigonSpec.
Import ListNotations.
Open Scope nat_scope.

(** ** the order in which the removed crossings are listed does not matter *)
Lemma leads_perm : forall d g g' x y, (forall v, In v g <-> In v g') -> leads d g x y -> leads d g' x y.
Proof. intros d g g' x y P L. induction L as [|y z Y L IH HY I C]; [constructor|]. econstructor; eauto. apply P; auto. Qed.
Lemma removed_perm : forall d d' g g' kc rho ke, Permutation g g' -> crossings_removed d d' g kc rho ke -> crossings_removed d d' g' kc rho ke.
Proof.
  intros d d' g g' kc rho ke PG [ND GN NC RO KC KCI RH KEI SG EN ED].
  assert (P : forall v, In v g <-> In v g') by (intro v; split; apply Permutation_in; auto using Permutation_sym).
  constructor; auto.
  - eapply Permutation_NoDup; eauto.
  - intros v I. apply GN, P; auto.
  - rewrite <- (Permutation_length PG). auto.
  - intros v Hv N. apply KC; auto. rewrite P. auto.
  - intros v w Hv Nv Hw Nw. apply KCI; auto; rewrite P; auto.
  - intros v Hv N. apply RH; auto. rewrite P. auto.
  - intros x X y Y HX KX HY KY. apply (KEI x X y Y); auto; rewrite P; auto.
  - intros v s N. apply SG. rewrite P. auto.
  - intros x X HX KX. destruct (EN x X HX) as (y & Y & L & HY & KY); [rewrite P; auto|]. exists y, Y. split; [eapply leads_perm; eauto|]. rewrite <- P. auto.
  - intros x X y Y HX KX L HY KY. apply (ED x X y Y HX); auto; [rewrite P; auto| |rewrite P; auto]. eapply leads_perm; [|exact L]. intro v. symmetry. auto.
Qed.

(** ** the bigon as a pair of strands *)
Section Bigon.
Context (d : pd) (W : workable d) (N2 : 2 < ncross d).
Context (x y : dart) (u p v q : nat) (BG : bigon d x y u p v q).
Context (OC : forall f, In f (p_face d) -> arrives_at d f u ((p + 2) mod 4) -> arrives_at d f v ((q + 2) mod 4) -> False).

Lemma bg_turn : dart_from d y (u, (p + 3) mod 4) /\ dart_from d x (v, (q + 3) mod 4).
Proof.
  destruct BG as (I & Dx & Dy & NE). pose proof (wk_faces d W) as (F1 & _).
  assert (LL : left_turn d x y /\ left_turn d y x).
  { destruct I as [I|I]; destruct (F1 _ I) as (_ & C).
    - split; [exact (C 0 x y eq_refl eq_refl)|exact (C 1 y x eq_refl eq_refl)].
    - split; [exact (C 1 x y eq_refl eq_refl)|exact (C 0 y x eq_refl eq_refl)]. }
  destruct LL as ((c & r & Hr & K1 & K2) & (c' & r' & Hr' & K3 & K4)).
  assert (FN : forall a s t, dart_to d a s -> dart_to d a t -> s = t) by (intros a s t Q1 Q2; apply dart_to_dto in Q1, Q2; destruct Q1, Q2; congruence).
  pose proof (FN _ _ _ Dx K1) as E1. pose proof (FN _ _ _ Dy K3) as E2. apply pair_eq in E1 as (-> & ->). apply pair_eq in E2 as (-> & ->). auto.
Qed.
Lemma bg_lt : u < ncross d /\ p < 4 /\ v < ncross d /\ q < 4.
Proof.
  destruct BG as (_ & Dx & Dy & _). apply dart_to_dto in Dx, Dy. destruct Dx as (Dx & Ex). destruct Dy as (Dy & Ey).
  pose proof (dto_place d (wk_recorded d W) x Dx) as P1. pose proof (dto_place d (wk_recorded d W) y Dy) as P2. rewrite Ex in P1. rewrite Ey in P2.
  unfold place in *. cbn [fst snd] in *. tauto.
Qed.

(** The two crossings in the order in which the strand along [x] passes them, with the places where it leaves the first and enters the second. *)
Definition cf : nat := match snd x with Pos => v | _ => u end.
Definition cs : nat := match snd x with Pos => u | _ => v end.
Definition pf : nat := match snd x with Pos => (q + 3) mod 4 | _ => p end.
Definition ps : nat := match snd x with Pos => p | _ => (q + 3) mod 4 end.
Definition turn : nat := match snd x with Pos => 1 | _ => 3 end.
Definition hand : bool := match snd x with Pos => true | _ => false end.
Definition same : bool := match snd x, snd y with Pos, Neg => true | Neg, Pos => true | _, _ => false end.
Definition A0 := (cf, (pf + 2) mod 4).
Definition A1 := (cf, pf).
Definition B0 := (cf, (pf + turn + 2) mod 4).
Definition B1 := (cf, (pf + turn) mod 4).
Definition A2 := (cs, (ps + 2) mod 4).
Definition A3 := (cs, ps).
Definition B2 := (cs, (ps + (4 - turn) + 2) mod 4).
Definition B3 := (cs, (ps + (4 - turn)) mod 4).

Lemma bg_end : exists EA1 EB1, edge_at d (fst x) EA1 /\ edge_at d (fst y) EB1 /\ tail_slot EA1 = A1 /\ head_slot EA1 = A3 /\
  tail_slot EB1 = (if same then B1 else B3) /\ head_slot EB1 = if same then B3 else B1.
Proof.
  destruct bg_turn as (Fy & Fx). destruct BG as (_ & Tx & Ty & NE). destruct bg_lt as (L1 & L2 & L3 & L4).
  destruct Tx as (EX & HX & TX). destruct Fx as (EX' & HX' & FX). unfold edge_at in HX, HX'. rewrite HX in HX'. injection HX' as <-.
  destruct Ty as (EY & HY & TY). destruct Fy as (EY' & HY' & FY). unfold edge_at in HY, HY'. rewrite HY in HY'. injection HY' as <-.
  exists EX, EY. split; [exact HX|]. split; [exact HY|]. unfold A1, A3, B1, B3, cf, cs, pf, ps, turn, same.
  assert (m1 : ((q + 3) mod 4 + 1) mod 4 = q) by (clear -L4; destruct q as [|[|[|[|?]]]]; cbn; lia).
  assert (m2 : (p + (4 - 1)) mod 4 = (p + 3) mod 4) by reflexivity.
  assert (m3 : ((q + 3) mod 4 + (4 - 3)) mod 4 = q) by (clear -L4; destruct q as [|[|[|[|?]]]]; cbn; lia).
  destruct TX as [(-> & TX)|(-> & TX)], FX as [(Q & FX)|(Q & FX)]; try discriminate Q; destruct TY as [(-> & TY)|(-> & TY)], FY as [(Q' & FY)|(Q' & FY)]; try discriminate Q';
    rewrite ?m1, ?m2, ?m3; (split; [|split; [|split]]); congruence.
Qed.
Lemma made_site : forall c0 c1 i j k, k = 1 \/ k = 3 -> c0 <> c1 -> c0 < ncross d -> c1 < ncross d -> i < 4 -> j < 4 ->
  ends d (c0, i) (c1, j) -> ends d (c0, (i + k) mod 4) (c1, (j + (4 - k)) mod 4) ->
  if k =? 1 then site d c0 c1 (c0, (i + 2) mod 4) (c0, i) (c0, (i + k + 2) mod 4) (c0, (i + k) mod 4) (c1, (j + 2) mod 4) (c1, j) (c1, (j + (4 - k) + 2) mod 4) (c1, (j + (4 - k)) mod 4)
  else site d c0 c1 (c0, (i + k + 2) mod 4) (c0, (i + k) mod 4) (c0, (i + 2) mod 4) (c0, i) (c1, (j + (4 - k) + 2) mod 4) (c1, (j + (4 - k)) mod 4) (c1, (j + 2) mod 4) (c1, j).
Proof.
  intros c0 c1 i j k Hk NE L0 L1 Hi Hj EA EB.
  assert (GN : forall i j k, i < 4 -> j < 4 -> k = 1 \/ k = 3 -> forall s : nat * nat,
    (In s [(c0, (i + 2) mod 4); (c0, i); (c0, (i + k + 2) mod 4); (c0, (i + k) mod 4)] <-> fst s = c0 /\ snd s < 4)).
  { clear. intros i _ k Hi _ Hk (w, r). cbn [fst snd In]. split.
    - destruct i as [|[|[|[|?]]]]; try lia; destruct Hk as [-> | ->]; cbn; intuition (try congruence); match goal with H : (_, _) = (_, _) |- _ => injection H as <- <- end; lia.
    - intros (-> & Hr). destruct i as [|[|[|[|?]]]]; try lia; destruct Hk as [-> | ->]; cbn; destruct r as [|[|[|[|?]]]]; try lia; auto. }
  assert (Hk' : 4 - k = 1 \/ 4 - k = 3) by lia.
  pose proof (GN i j k Hi Hj Hk) as G0.
  assert (G1 : forall s : nat * nat, In s [(c1, (j + 2) mod 4); (c1, j); (c1, (j + (4 - k) + 2) mod 4); (c1, (j + (4 - k)) mod 4)] <-> fst s = c1 /\ snd s < 4).
  { clear -Hj Hk'. revert Hk'. generalize (4 - k). intros n Hk (w, r). cbn [fst snd In]. split.
    - destruct j as [|[|[|[|?]]]]; try lia; destruct Hk as [-> | ->]; cbn; intuition (try congruence); match goal with H : (_, _) = (_, _) |- _ => injection H as <- <- end; lia.
    - intros (-> & Hr). destruct j as [|[|[|[|?]]]]; try lia; destruct Hk as [-> | ->]; cbn; destruct r as [|[|[|[|?]]]]; try lia; auto. }
  assert (TU : forall a b c e : nat, (a + 3) mod 4 = b -> lturn (c, a) = (c, b)) by (intros a b c _ <-; reflexivity).
  assert (TO : forall a b c e : nat, (a + 2) mod 4 = b -> opposite (c, a) = (c, b)) by (intros a b c _ <-; reflexivity).
  destruct Hk as [-> | ->]; cbn [Nat.eqb]; constructor; auto.
  - intro s. transitivity ((fst s = c0 /\ snd s < 4) \/ (fst s = c1 /\ snd s < 4)); [rewrite <- (G0 s), <- (G1 s); cbn [In]; tauto|].
    cbn [In]. split; [intros [(-> & ?)|(-> & ?)]; auto|intros ([<-|[<-|[]]] & ?); auto].
  - clear -NE Hi Hj. rewrite !NoDup_cons_iff. cbn [In].
    destruct i as [|[|[|[|?]]]]; try lia; destruct j as [|[|[|[|?]]]]; try lia; cbn; intuition (try congruence); constructor.
  - clear -Hi Hj. destruct i as [|[|[|[|?]]]]; try lia; destruct j as [|[|[|[|?]]]]; try lia; cbn; tauto.
  - clear -Hi Hj. destruct i as [|[|[|[|?]]]]; try lia; destruct j as [|[|[|[|?]]]]; try lia; cbn; tauto.
  - intro s. transitivity ((fst s = c0 /\ snd s < 4) \/ (fst s = c1 /\ snd s < 4)); [rewrite <- (G0 s), <- (G1 s); cbn [In]; tauto|].
    cbn [In]. split; [intros [(-> & ?)|(-> & ?)]; auto|intros ([<-|[<-|[]]] & ?); auto].
  - clear -NE Hi Hj. rewrite !NoDup_cons_iff. cbn [In].
    destruct i as [|[|[|[|?]]]]; try lia; destruct j as [|[|[|[|?]]]]; try lia; cbn; intuition (try congruence); constructor.
  - clear -Hi Hj. destruct i as [|[|[|[|?]]]]; try lia; destruct j as [|[|[|[|?]]]]; try lia; cbn; tauto.
  - clear -Hi Hj. destruct i as [|[|[|[|?]]]]; try lia; destruct j as [|[|[|[|?]]]]; try lia; cbn; tauto.
Qed.

Lemma bg_turn_is : turn = 1 \/ turn = 3.
Proof. unfold turn. destruct (snd x); auto. Qed.
Lemma bg_ps : cf <> cs /\ cf < ncross d /\ cs < ncross d /\ pf < 4 /\ ps < 4.
Proof.
  destruct bg_lt as (L1 & L2 & L3 & L4). destruct BG as (_ & _ & _ & NE). assert ((q + 3) mod 4 < 4) by (apply Nat.mod_upper_bound; lia).
  unfold cf, cs, pf, ps. destruct (snd x); auto.
Qed.
Lemma bg_site : if hand then site d cf cs A0 A1 B0 B1 A2 A3 B2 B3 else site d cf cs B0 B1 A0 A1 B2 B3 A2 A3.
Proof.
  destruct bg_ps as (NE & L0 & L1 & Hp & Hs). destruct bg_end as (EA & EB & HA & HB & t1 & h1 & t2 & h2).
  pose proof (made_site cf cs pf ps turn bg_turn_is NE L0 L1 Hp Hs) as K. replace (turn =? 1) with hand in K by (unfold turn, hand; destruct (snd x); reflexivity).
  apply K.
  - exists (fst x), EA. split; auto.
  - exists (fst y), EB. split; auto. fold B1 B3. destruct same; auto.
Qed.
Lemma bg_corner : forall f, In f (cyc d) -> In (if hand then B0 else A0) f -> In (if hand then A2 else B2) f -> False.
Proof.
  intros f If I1 I2. unfold cyc in If. apply in_map_iff in If. destruct If as (F & <- & HF). apply in_map_iff in I1, I2. destruct I1 as (a & Ea & Ia). destruct I2 as (b & Eb & Ib).
  pose proof (wk_faces d W) as (_ & _ & FD).
  assert (DF : forall z, In z F -> is_dart d z) by (intros z Hz; apply FD, in_concat; eauto).
  assert (Da : dart_to d a (dto d a)) by (apply dart_to_dto; auto). assert (Db : dart_to d b (dto d b)) by (apply dart_to_dto; auto). rewrite Ea in Da. rewrite Eb in Db.
  destruct bg_lt as (L1 & L2 & L3 & L4).
  assert (m1 : ((q + 3) mod 4 + 1 + 2) mod 4 = (q + 2) mod 4) by (clear -L4; destruct q as [|[|[|[|?]]]]; cbn; lia).
  assert (m2 : ((q + 3) mod 4 + (4 - 3) + 2) mod 4 = (q + 2) mod 4) by (clear -L4; destruct q as [|[|[|[|?]]]]; cbn; lia).
  revert Da Db. unfold hand, B0, A2, A0, B2, cf, cs, pf, ps, turn. destruct (snd x); rewrite ?m1, ?m2; intros Da Db.
  - apply (OC F HF); [exists b|exists a]; auto.
  - apply (OC F HF); [exists a|exists b]; auto.
  - apply (OC F HF); [exists a|exists b]; auto.
Qed.

Definition gone_edges (s : strands) : list nat := [Bigon.a1 s; Bigon.a2 s; Bigon.b1 s; Bigon.b2 s].
Lemma bigon_found : exists s,
  (over_at d u p /\ over_at d v q \/ over_at d u ((p + 3) mod 4) /\ over_at d v ((q + 3) mod 4) -> signed_strands d u v = Fail /\ signed_strands d v u = Fail) /\
  (over_at d u p -> over_at d v ((q + 3) mod 4) -> signed_strands d u v = Ok s /\ signed_strands d v u = Ok s) /\
  (over_at d u p -> shadow_strands d u v = Ok s) /\ (over_at d v ((q + 3) mod 4) -> shadow_strands d v u = Ok s) /\
  (exists F1 F2, bigon_corners d s = Ok (F1, F2) /\ F1 <> F2) /\
  exists d' kc rho ke, bigon_joined d s = Ok [d'] /\ crossings_removed d d' [u; v] kc rho ke /\ workable d' /\
    Permutation (p_comp d') (map (fun k => mkComp (map ke (filter (survives d [u; v]) (cp_edge k))) (cp_tag k)) (p_comp d)) /\
    crossings_canonical d' /\ pd_ok d' = Ok true /\ p_maxv d' = p_maxv d.
Proof.
  destruct W as [Hn Hm R G T NA LC TG FP NF CN]. destruct bg_ps as (NE & Lf & Ls & Hf & Hs). pose proof bg_site as S. pose proof bg_corner as corner.
  destruct bg_end as (EA1 & EB1 & HA1 & HB1 & tA1 & hA1 & tB1 & hB1).
  assert (K0 : fst A0 = cf /\ fst A1 = cf /\ fst B0 = cf /\ fst B1 = cf) by (repeat split).
  assert (K1 : fst A2 = cs /\ fst A3 = cs /\ fst B2 = cs /\ fst B3 = cs) by (repeat split).
  destruct (fr_opp d cf cs A0 A1 B0 B1 A2 A3 B2 B3 hand S) as (o1 & o2 & o3 & o4 & o5 & o6 & o7 & o8).
  assert (BA : forall z Z P, edge_at d z Z -> opposite (tail_slot Z) = P -> exists w E, edge_at d w E /\ head_slot E = P).
  { intros z Z P HZ <-. destruct (departs_across d R G (e_tail Z) (e_tailpos Z) z) as (w & (E & HE & KE) & _); [exists Z; auto|]. exists w, E. auto. }
  assert (FO : forall z Z P, edge_at d z Z -> opposite (head_slot Z) = P -> exists w E, edge_at d w E /\ tail_slot E = P).
  { intros z Z P HZ <-. destruct (arrives_across d G (e_head Z) (e_headpos Z) z) as (w & (E & HE & KE) & _); [exists Z; auto|]. exists w, E. auto. }
  destruct (BA _ _ A0 HA1) as (a0 & EA0 & HA0 & hA0); [congruence|]. destruct (FO _ _ A2 HA1) as (a2 & EA2 & HA2 & tA2); [congruence|].
  destruct (BA _ _ (if same then B0 else B2) HB1) as (b0 & EB0 & HB0 & hB0); [rewrite tB1; destruct same; auto|].
  destruct (FO _ _ (if same then B2 else B0) HB1) as (b2 & EB2 & HB2 & tB2); [rewrite hB1; destruct same; auto|].
  set (a1 := fst x) in *. set (b1 := fst y) in *. exists (st cf cs a0 a1 a2 b0 b1 b2).
  assert (O1 : forall r, over_at d cf r -> (cf, r) = A0 \/ (cf, r) = A1 -> over0 d cf a0 a1 b0 b1 b2 same) by (exact (over_0 d R G T cf cs A0 A1 B0 B1 A2 A3 B2 B3 hand S corner K0 K1 a0 a1 b0 b1 b2 EA0 EA1 EB0 EB1 EB2 same HA0 HA1 HB0 HB1 HB2 hA0 tA1 hB0 tB1 hB1 tB2)).
  assert (O2 : forall r, over_at d cs r -> (cs, r) = A2 \/ (cs, r) = A3 -> over1 d cs a1 a2 b0 b1 b2 same) by (exact (over_1 d R G T cf cs A0 A1 B0 B1 A2 A3 B2 B3 hand S corner K0 K1 a1 a2 b0 b1 b2 EA1 EA2 EB0 EB1 EB2 same HA1 HA2 HB0 HB1 HB2 hA1 tA2 hB0 tB1 hB1 tB2)).
  assert (U1 : over0 d cf a0 a1 b0 b1 b2 same -> under_any d cf cs = Ok (b0, b1, b2)) by (exact (under_any_0 d R T FP NF CN cf cs A0 A1 B0 B1 A2 A3 B2 B3 hand S corner K0 K1 a0 a1 a2 b0 b1 b2 EA0 EA1 EA2 EB0 EB1 EB2 same HA0 HA1 HA2 HB0 HB1 HB2 hA0 tA1 hA1 tA2 hB0 tB1 hB1 tB2)).
  assert (U2 : over1 d cs a1 a2 b0 b1 b2 same -> under_any d cs cf = Ok (b0, b1, b2)) by (exact (under_any_1 d R T FP NF CN cf cs A0 A1 B0 B1 A2 A3 B2 B3 hand S corner K0 K1 a0 a1 a2 b0 b1 b2 EA0 EA1 EA2 EB0 EB1 EB2 same HA0 HA1 HA2 HB0 HB1 HB2 hA0 tA1 hA1 tA2 hB0 tB1 hB1 tB2)).
  assert (S1 : over0 d cf a0 a1 b0 b1 b2 same -> shadow_strands d cf cs = Ok (st cf cs a0 a1 a2 b0 b1 b2)) by (intro Q; exact (shadow_0 d R T FP NF CN cf cs A0 A1 B0 B1 A2 A3 B2 B3 hand S corner K0 K1 a0 a1 a2 b0 b1 b2 EA0 EA1 EA2 EB0 EB1 EB2 same HA0 HA1 HA2 HB0 HB1 HB2 hA0 tA1 hA1 tA2 hB0 tB1 hB1 tB2 Q (U1 Q))).
  assert (S2 : over1 d cs a1 a2 b0 b1 b2 same -> shadow_strands d cs cf = Ok (st cf cs a0 a1 a2 b0 b1 b2)) by (intro Q; exact (shadow_1 d R T FP NF CN cf cs A0 A1 B0 B1 A2 A3 B2 B3 hand S corner K0 K1 a0 a1 a2 b0 b1 b2 EA0 EA1 EA2 EB0 EB1 EB2 same HA0 HA1 HA2 HB0 HB1 HB2 hA0 tA1 hA1 tA2 hB0 tB1 hB1 tB2 Q (U2 Q))).
  assert (SG : over0 d cf a0 a1 b0 b1 b2 same -> over1 d cs a1 a2 b0 b1 b2 same -> signed_strands d cf cs = Ok (st cf cs a0 a1 a2 b0 b1 b2) /\ signed_strands d cs cf = Ok (st cf cs a0 a1 a2 b0 b1 b2))
    by (exact (signed_both d R T FP NF CN cf cs A0 A1 B0 B1 A2 A3 B2 B3 hand S corner K0 K1 a0 a1 a2 b0 b1 b2 EA0 EA1 EA2 EB0 EB1 EB2 same HA0 HA1 HA2 HB0 HB1 HB2 hA0 tA1 hA1 tA2 hB0 tB1 hB1 tB2)).
  assert (CU : over_at d u p -> if hand then over1 d cs a1 a2 b0 b1 b2 same else over0 d cf a0 a1 b0 b1 b2 same).
  { intro O. revert O1 O2. unfold hand, A3, A1, cf, cs, pf, ps. destruct (snd x); intros O1 O2; [apply (O2 p)|apply (O1 p)|apply (O1 p)]; auto. }
  assert (CV : over_at d v ((q + 3) mod 4) -> if hand then over0 d cf a0 a1 b0 b1 b2 same else over1 d cs a1 a2 b0 b1 b2 same).
  { intro O. revert O1 O2. unfold hand, A3, A1, cf, cs, pf, ps. destruct (snd x); intros O1 O2; [apply (O1 ((q + 3) mod 4))|apply (O2 ((q + 3) mod 4))|apply (O2 ((q + 3) mod 4))]; auto. }
  assert (O3 : forall r, over_at d cf r -> (cf, r) = B0 \/ (cf, r) = B1 -> under0 d cf b0 b1 b2 same) by (exact (under_0 d R G T cf cs A0 A1 B0 B1 A2 A3 B2 B3 hand S corner K0 K1 a0 a1 b0 b1 b2 EA0 EA1 EB0 EB1 EB2 same HA0 HA1 HB0 HB1 HB2 hA0 tA1 hB0 tB1 hB1 tB2)).
  assert (O4 : forall r, over_at d cs r -> (cs, r) = B2 \/ (cs, r) = B3 -> under1 d cs b0 b1 b2 same) by (exact (under_1 d R G T cf cs A0 A1 B0 B1 A2 A3 B2 B3 hand S corner K0 K1 a1 a2 b0 b1 b2 EA1 EA2 EB0 EB1 EB2 same HA1 HA2 HB0 HB1 HB2 hA1 tA2 hB0 tB1 hB1 tB2)).
  pose proof (clasp_0 d R T FP NF CN cf cs A0 A1 B0 B1 A2 A3 B2 B3 hand S corner K0 K1 a0 a1 a2 b0 b1 b2 EA0 EA1 EA2 EB0 EB1 EB2 same HA0 HA1 HA2 HB0 HB1 HB2 hA0 tA1 hA1 tA2 hB0 tB1 hB1 tB2) as CL0.
  pose proof (clasp_1 d R T FP NF CN cf cs A0 A1 B0 B1 A2 A3 B2 B3 hand S corner K0 K1 a0 a1 a2 b0 b1 b2 EA0 EA1 EA2 EB0 EB1 EB2 same HA0 HA1 HA2 HB0 HB1 HB2 hA0 tA1 hA1 tA2 hB0 tB1 hB1 tB2) as CL1.
  assert (CW : over_at d v q -> if hand then under0 d cf b0 b1 b2 same else under1 d cs b0 b1 b2 same).
  { intro O. destruct bg_lt as (_ & _ & _ & L4). revert O3 O4. unfold hand, B3, B1, cf, cs, pf, ps, turn. 
    assert (m1 : ((q + 3) mod 4 + 1) mod 4 = q) by (clear -L4; destruct q as [|[|[|[|?]]]]; cbn; lia).
    destruct (snd x); intros O3 O4; [apply (O3 q)|apply (O4 q)|apply (O4 q)]; auto; right; rewrite ?m1; auto. }
  assert (CX : over_at d u ((p + 3) mod 4) -> if hand then under1 d cs b0 b1 b2 same else under0 d cf b0 b1 b2 same).
  { intro O. revert O3 O4. unfold hand, B2, B0, B3, B1, cf, cs, pf, ps, turn.
    destruct (snd x); intros O3 O4; [apply (O4 ((p + 3) mod 4))|apply (O3 ((p + 3) mod 4))|apply (O3 ((p + 3) mod 4))]; auto. }
  assert (UV : (hand = true /\ cf = v /\ cs = u) \/ (hand = false /\ cf = u /\ cs = v)) by (unfold hand, cf, cs; destruct (snd x); auto).
  split; [|split; [|split; [|split; [|split]]]].
  - intros [(Q1 & Q2)|(Q1 & Q2)].
    + apply CU in Q1. apply CW in Q2. destruct UV as [(Eh & <- & <-)|(Eh & <- & <-)]; rewrite Eh in *; auto. destruct (CL0 Q1 Q2). auto.
    + apply CX in Q1. apply CV in Q2. destruct UV as [(Eh & <- & <-)|(Eh & <- & <-)]; rewrite Eh in *; auto. destruct (CL1 Q2 Q1). auto.
  - intros Q1 Q2. apply CU in Q1. apply CV in Q2. destruct UV as [(Eh & <- & <-)|(Eh & <- & <-)]; rewrite Eh in *; destruct SG; auto.
  - intros Q. apply CU in Q. destruct UV as [(Eh & <- & <-)|(Eh & <- & <-)]; rewrite Eh in *; auto.
  - intros Q. apply CV in Q. destruct UV as [(Eh & <- & <-)|(Eh & <- & <-)]; rewrite Eh in *; auto.
  - destruct (corners d R T FP NF CN N2 cf cs A0 A1 B0 B1 A2 A3 B2 B3 hand eq_refl S a0 a1 a2 b0 b1 b2 EA0 EA1 EA2 EB0 EB1 EB2 same HA0 HA1 HA2 HB0 HB1 HB2 hA0 tA1 hA1 tA2 hB0 tB1 hB1 tB2) as (F1 & F2 & EQ & (f & Hf1 & If) & (g & Hg & Ig)).
    exists F1, F2. split; auto. intros <-. rewrite Hf1 in Hg. injection Hg as <-. apply (corner f); auto. eapply nth_error_In; eauto.
  - destruct (fr_cut d R G T FP NF CN N2 cf cs A0 A1 B0 B1 A2 A3 B2 B3 hand S corner a0 a1 a2 b0 b1 b2 EA0 EA1 EA2 EB0 EB1 EB2 same HA0 HA1 HA2 HB0 HB1 HB2 hA0 tA1 hA1 tA2 hB0 tB1 hB1 tB2)
      as (o & tbl & kc & ke & EC & CR & Lt & Kt & Mo & Ro & To & Go & Co & Po & SPo).
    destruct (joined_done d W (st cf cs a0 a1 a2 b0 b1 b2) o tbl kc ke EC CR Lt Kt Mo Ro To Go Co Po SPo N2) as (d' & kc' & rho' & ke' & Q1 & Q2 & Q3 & Q4 & Q5).
    exists d', kc', rho', ke'. split; auto. split.
    { eapply removed_perm; [|exact Q2]. cbn [st s_c0 s_c1]. destruct UV as [(_ & -> & ->)|(_ & -> & ->)]; [apply perm_swap|auto]. }
    split; auto. split; auto.
    etransitivity; [exact Q4|]. erewrite map_ext_in; [apply Permutation_refl|]. intros k Hk. cbv beta. f_equal. f_equal. apply filter_ext_in. intros e He.
    assert (Le : e < nedges d) by (eapply comps_lt; eauto). destruct (edge_at_ex d e Le) as (E & HE).
    pose proof (fr_tails d R T cf cs A0 A1 B0 B1 A2 A3 B2 B3 hand S a0 a1 a2 b0 b1 b2 EA0 EA1 EA2 EB0 EB1 EB2 same HA0 HA1 HA2 HB0 HB1 HB2 hA0 tA1 hA1 tA2 hB0 tB1 hB1 tB2 e E HE) as FT.
    assert (FT' : In (e_tail E) [u; v] <-> In e [a1; a2; b1; b2]).
    { rewrite <- FT. destruct UV as [(_ & -> & ->)|(_ & -> & ->)]; cbn [In]; tauto. }
    unfold survives, stays. unfold edge_at in HE. rewrite HE. cbn [st Bigon.a1 Bigon.a2 Bigon.b1 Bigon.b2].
    destruct (in_dec Nat.eq_dec e [a1; a2; b1; b2]), (in_dec Nat.eq_dec (e_tail E) [u; v]); tauto.
Qed.
End Bigon.
