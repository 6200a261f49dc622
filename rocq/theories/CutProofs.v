(** Cutting crossings out of a diagram: the model function, and what it leaves. *)
From Coq Require Import List ZArith Lia Bool Arith Permutation Relations.
From Verif Require Import Base Iterators ListAux Pd PdSpec PdProofs Relabel RelabelProofs Strands CycleSurgery PdCross PdCrossProofs PdCompsProofs PdFaces PdFacesProofs LinkProofs Planar RegenSpec
  Thm_Faces Thm_Planar MoveProofs Compact Thm_Compact Moves Thm_LoopAdd Deloop DeloopSpec DeloopProofs DeloopComps Bigon RemoveSpec.
Import ListNotations.
Open Scope nat_scope.

Lemma leads_tail : forall d gone x y Y, leads d gone x y -> edge_at d y Y -> y = x \/ In (e_tail Y) gone.
Proof.
  intros d gone x y Y H HY. destruct H as [|y z W H HW IW (A & B & HA & HB & E & _)]; auto. right. unfold edge_at in *.
  rewrite HB in HY. injection HY as <-. rewrite HA in HW. injection HW as <-. rewrite E. exact IW.
Qed.

Section Cut.
Context (d : pd) (R : ends_recorded d) (G : goes_through d) (T : two_ended d).
Context (gc ge : list nat) (seams : list (nat * nat)).
Context (NDc : NoDup gc) (Hgc : forall v, In v gc -> v < ncross d) (NDe : NoDup ge) (Lge : length ge = 2 * length gc) (Hge : forall x, In x ge -> x < nedges d).
Context (GE : forall x X, edge_at d x X -> (In x ge <-> In (e_tail X) gc)).
Context (SE : forall x y, In (x, y) seams -> exists X Y, edge_at d x X /\ edge_at d y Y /\ ~ In (e_tail X) gc /\ In (e_head X) gc /\ leads d gc x y /\ ~ In (e_head Y) gc).
Context (AL : forall x X, edge_at d x X -> ~ In (e_tail X) gc -> In (e_head X) gc -> exists y, In (x, y) seams).
Context (AB : forall y Y, edge_at d y Y -> In (e_tail Y) gc -> ~ In (e_head Y) gc -> exists x, In (x, y) seams).
Context (N1 : NoDup (map fst seams)) (N2 : NoDup (map snd seams)).

Definition kc := before gc.
Definition ke := before ge.

Lemma pair_fst : forall (l : list (nat * nat)) x y y', NoDup (map fst l) -> In (x, y) l -> In (x, y') l -> y = y'.
Proof.
  induction l as [|(a, b) l IH]; intros x y y' N I J; [destruct I|]. cbn [map fst] in N. apply NoDup_cons_iff in N as (Na & N).
  assert (Q : forall z, In (a, z) l -> False) by (intros z Hz; apply Na, in_map_iff; exists (a, z); auto).
  destruct I as [I|I], J as [J|J]; [congruence| | |eapply IH; eauto]; exfalso; [injection I as -> ->|injection J as -> ->]; eapply Q; eauto.
Qed.
Lemma pair_snd : forall (l : list (nat * nat)) x x' y, NoDup (map snd l) -> In (x, y) l -> In (x', y) l -> x = x'.
Proof.
  induction l as [|(a, b) l IH]; intros x x' y N I J; [destruct I|]. cbn [map snd] in N. apply NoDup_cons_iff in N as (Na & N).
  assert (Q : forall z, In (z, b) l -> False) by (intros z Hz; apply Na, in_map_iff; exists (z, b); auto).
  destruct I as [I|I], J as [J|J]; [congruence| | |eapply IH; eauto]; exfalso; [injection I as -> ->|injection J as -> ->]; eapply Q; eauto.
Qed.
Lemma same_end : forall y Y y' Y', edge_at d y Y -> edge_at d y' Y' -> head_slot Y = head_slot Y' -> y = y'.
Proof.
  intros y Y y' Y' HY HY' E. pose proof R as (_ & Rr). destruct (Rr _ _ HY) as (S & _). destruct (Rr _ _ HY') as (S' & _).
  unfold head_slot in E. apply pair_eq in E as (E1 & E2). rewrite E1, E2 in S. exact (slot_fun _ _ _ _ _ S S').
Qed.

(** the loop that sews *)
Context (I J : list (option nat)).
Context (HI : forall v, v < ncross d -> ~ In v gc -> nth_error I v = Some (Some (kc v))).
Context (HJ : forall x, x < nedges d -> ~ In x ge -> nth_error J x = Some (Some (ke x))).
Context (kc_i : forall v w, v < ncross d -> ~ In v gc -> w < ncross d -> ~ In w gc -> kc v = kc w -> v = w).
Context (ke_i : forall x y, x < nedges d -> ~ In x ge -> y < nedges d -> ~ In y ge -> ke x = ke y -> x = y).

Lemma sew_all_ok : forall l, incl l seams -> NoDup (map fst l) -> NoDup (map snd l) -> forall xs es,
  (forall v, v < ncross d -> ~ In v gc -> kc v < length xs) -> (forall x, x < nedges d -> ~ In x ge -> ke x < length es) ->
  exists xs' es', sew_all d I J xs es l = Ok (xs', es') /\ length xs' = length xs /\ length es' = length es /\
    (forall v c, v < ncross d -> ~ In v gc -> nth_error xs (kc v) = Some c -> exists c', nth_error xs' (kc v) = Some c' /\ csign c' = csign c /\
       forall r, r < 4 ->
         (forall x y Y, In (x, y) l -> edge_at d y Y -> head_slot Y = (v, r) -> cedge c' r = x) /\
         ((forall x y Y, In (x, y) l -> edge_at d y Y -> head_slot Y <> (v, r)) -> cedge c' r = cedge c r)) /\
    (forall x E, x < nedges d -> ~ In x ge -> nth_error es (ke x) = Some E -> exists E', nth_error es' (ke x) = Some E' /\
       e_tail E' = e_tail E /\ e_tailpos E' = e_tailpos E /\
       (forall y Y, In (x, y) l -> edge_at d y Y -> head_slot E' = head_slot Y) /\
       ((forall y, ~ In (x, y) l) -> E' = E)).
Proof.
  induction l as [|(x, y) l IH]; intros HL ND1 ND2 xs es Lx Le.
  - exists xs, es. split; [reflexivity|]. split; [reflexivity|]. split; [reflexivity|]. split.
    + intros v c Hv Nv Hc. exists c. split; auto. split; auto. intros r Hr. split; [intros ? ? ? []|auto].
    + intros x E Hx Nx HE. exists E. split; auto. split; auto. split; auto. split; [intros ? ? []|auto].
  - destruct (SE x y (HL _ (or_introl eq_refl))) as (X & Y & HX & HY & KX & GX & LD & KY).
    cbn [map fst snd] in ND1, ND2. apply NoDup_cons_iff in ND1 as (Na1 & ND1). apply NoDup_cons_iff in ND2 as (Na2 & ND2).
    pose proof R as (_ & Rr). destruct (Rr _ _ HY) as (SY & _). pose proof (slot_lt _ _ _ _ SY) as (LY & LYp).
    assert (Nx : ~ In x ge) by (intro Q; apply (GE x X HX) in Q; auto). pose proof (edge_at_lt _ _ _ HX) as Lxe.
    cbn [sew_all]. unfold sew. rewrite (proj2 (get_ok _ _ _ _) HY). cbn [bind]. unfold table_get at 1. rewrite (proj2 (get_ok _ _ _ _) (HI _ LY KY)). cbn [bind index].
    destruct (put_ok xs (kc (e_head Y)) (e_headpos Y) x (Lx _ LY KY) LYp) as (xs1 & P1 & L1 & Q1). rewrite P1. cbn [bind]. unfold table_get.
    rewrite (proj2 (get_ok _ _ _ _) (HJ _ Lxe Nx)). cbn [bind index]. destruct (nth_error es (ke x)) as [E0|] eqn:HE0; [|apply nth_error_None in HE0; specialize (Le x Lxe Nx); lia].
    rewrite (proj2 (get_ok _ _ _ _) HE0). cbn [bind fst snd]. set (es1 := upd (ke x) _ es).
    destruct (IH ltac:(intros z Hz; apply HL; right; exact Hz) ND1 ND2 xs1 es1) as (xs' & es' & EQ & L2 & L3 & K1 & K2).
    { intros v Hv Nv. rewrite L1. auto. } { intros z Hz Nz. unfold es1. rewrite upd_length. auto. }
    exists xs', es'. split; [exact EQ|]. split; [congruence|]. split; [rewrite L3; unfold es1; apply upd_length|]. split.
    + intros v c Hv Nv Hc. destruct (Q1 _ _ Hc) as (c1 & Hc1 & Sg1 & Ed1). destruct (K1 v c1 Hv Nv Hc1) as (c2 & Hc2 & Sg2 & Ed2).
      exists c2. split; auto. split; [congruence|]. intros r Hr. destruct (Ed2 r Hr) as (U1 & U2). split.
      * intros x' y' Y' [Q|Q] HY' HS; [|eapply U1; eauto]. injection Q as <- <-. unfold edge_at in HY, HY'. rewrite HY in HY'. injection HY' as <-.
        rewrite U2.
        -- rewrite Ed1 by auto. unfold head_slot in HS. apply pair_eq in HS as (<- & <-). rewrite !Nat.eqb_refl. reflexivity.
        -- intros x' y' Y' Q HY' HS'. apply Na2. apply in_map_iff. exists (x', y'). split; auto. cbn [snd].
           apply (same_end y' Y' y Y); auto. congruence.
      * intro HN. rewrite U2 by (intros x' y' Y' Q; apply (HN x' y' Y'); right; exact Q). rewrite Ed1 by auto.
        destruct (Nat.eqb_spec (kc v) (kc (e_head Y))) as [Ek|Ek]; [|reflexivity]. apply kc_i in Ek; auto. destruct (Nat.eqb_spec r (e_headpos Y)) as [Er|Er]; [|reflexivity].
        exfalso. apply (HN x y Y (or_introl eq_refl) HY). unfold head_slot. congruence.
    + intros z E Hz Nz HE. destruct (Nat.eq_dec z x) as [->|NE].
      * assert (HE1 : nth_error es1 (ke x) = Some (mkEdge (e_head Y) (e_headpos Y) (e_tail E0) (e_tailpos E0))).
        { unfold es1. rewrite nth_error_upd, Nat.eqb_refl. destruct (Nat.ltb_spec (ke x) (length es)) as [Z|Z]; [reflexivity|]. specialize (Le x Lxe Nx). lia. }
        rewrite HE0 in HE. injection HE as <-. destruct (K2 x _ Hz Nz HE1) as (E' & HE' & U1 & U2 & U3 & U4).
        assert (E' = mkEdge (e_head Y) (e_headpos Y) (e_tail E0) (e_tailpos E0)) as ->.
        { apply U4. intros y' Q. apply Na1. apply in_map_iff. exists (x, y'). auto. }
        eexists. split; [exact HE'|]. split; auto. split; auto. split.
        -- intros y' Y' [Q|Q] HY'; [|exfalso; apply Na1; apply in_map_iff; exists (x, y'); auto]. injection Q as <-. unfold edge_at in *. rewrite HY in HY'. injection HY' as <-. reflexivity.
        -- intro Q. exfalso. apply (Q y). left. reflexivity.
      * assert (HE1 : nth_error es1 (ke z) = Some E).
        { unfold es1. rewrite nth_error_upd. destruct (Nat.eqb_spec (ke x) (ke z)) as [Z|Z]; [|exact HE]. exfalso. apply NE. symmetry. apply ke_i; auto. }
        destruct (K2 z E Hz Nz HE1) as (E' & HE' & U1 & U2 & U3 & U4). exists E'. split; auto. split; auto. split; auto. split.
        -- intros y' Y' [Q|Q] HY'; [congruence|eauto].
        -- intros Q. apply U4. intros y' Hy'. apply (Q y'). right. exact Hy'.
Qed.
End Cut.

Section CutOut.
Context (d : pd) (R : ends_recorded d) (G : goes_through d) (T : two_ended d).
Context (gc ge : list nat) (seams : list (nat * nat)).
Context (NDc : NoDup gc) (Hgc : forall v, In v gc -> v < ncross d) (NDe : NoDup ge) (Lge : length ge = 2 * length gc) (Hge : forall x, In x ge -> x < nedges d).
Context (GE : forall x X, edge_at d x X -> (In x ge <-> In (e_tail X) gc)).
Context (SE : forall x y, In (x, y) seams -> exists X Y, edge_at d x X /\ edge_at d y Y /\ ~ In (e_tail X) gc /\ In (e_head X) gc /\ leads d gc x y /\ ~ In (e_head Y) gc).
Context (AL : forall x X, edge_at d x X -> ~ In (e_tail X) gc -> In (e_head X) gc -> exists y, In (x, y) seams).
Context (AB : forall y Y, edge_at d y Y -> In (e_tail Y) gc -> ~ In (e_head Y) gc -> exists x, In (x, y) seams).
Context (N1 : NoDup (map fst seams)) (N2 : NoDup (map snd seams)).
Context (LF : forall x y y' Y Y', leads d gc x y -> leads d gc x y' -> edge_at d y Y -> edge_at d y' Y' -> ~ In (e_head Y) gc -> ~ In (e_head Y') gc -> y = y').

Lemma cut_out_ok : exists o tbl, cut_out d gc ge seams = Ok (o, tbl) /\ crossings_removed d o gc (before gc) (fun _ => 0) (before ge) /\
  length tbl = nedges d /\ (forall x, x < nedges d -> nth x tbl None = if in_dec Nat.eq_dec x ge then None else Some (before ge x)) /\
  p_maxv o = p_maxv d /\ p_uid o = 0.
Proof.
  set (kc := before gc). set (ke := before ge). pose proof R as (Rn & Rr).
  destruct (compacting_copy _ (p_cross d) gc Hgc) as (xs & I & EI & LI & Lxs & DI & KI). fold kc in KI, Lxs.
  destruct (compacting_copy _ (p_edge d) ge Hge) as (es & J & EJ & LJ & Les & DJ & KJ). fold ke in KJ, Les.
  pose proof (before_all gc (ncross d) NDc Hgc) as Nx. pose proof (before_all ge (nedges d) NDe Hge) as Nd. fold kc in Nx. fold ke in Nd.
  change (length (p_cross d)) with (ncross d) in *. change (length (p_edge d)) with (nedges d) in *. rewrite <- Lxs in Nx. rewrite <- Les in Nd.
  assert (kc_i : forall v w, v < ncross d -> ~ In v gc -> w < ncross d -> ~ In w gc -> kc v = kc w -> v = w).
  { intros v w A B C D. apply (before_inj _ (p_cross d) gc Hgc); auto. }
  assert (ke_i : forall v w, v < nedges d -> ~ In v ge -> w < nedges d -> ~ In w ge -> ke v = ke w -> v = w).
  { intros v w A B C D. apply (before_inj _ (p_edge d) ge Hge); auto. }
  assert (kc_l : forall v, v < ncross d -> ~ In v gc -> kc v < length xs /\ nth_error I v = Some (Some (kc v))).
  { intros v Hv Nv. destruct (nth_error (p_cross d) v) as [x|] eqn:X; [|apply nth_error_None in X; unfold ncross in Hv; lia].
    destruct (KI v x X Nv) as (Q1 & Q2). split; auto. apply nth_error_Some. congruence. }
  assert (ke_l : forall v, v < nedges d -> ~ In v ge -> ke v < length es /\ nth_error J v = Some (Some (ke v))).
  { intros v Hv Nv. destruct (edge_at_ex d v Hv) as (X & HX). destruct (KJ v X HX Nv) as (Q1 & Q2). split; auto. apply nth_error_Some. congruence. }
  assert (OE : forall y, y < length es -> exists x, x < nedges d /\ ~ In x ge /\ ke x = y).
  { intros y Hy. apply (onto (nedges d) (length es) ge ke NDe Hge); auto. intros; apply ke_l; auto. }
  assert (OC : forall y, y < length xs -> exists x, x < ncross d /\ ~ In x gc /\ kc x = y).
  { intros y Hy. apply (onto (ncross d) (length xs) gc kc NDc Hgc); auto. intros; apply kc_l; auto. }
  unfold cut_out. rewrite EI. cbn [bind]. rewrite EJ. cbn [bind].
  destruct (sew_all_ok d R gc ge seams Lge GE SE I J) with (l := seams) (xs := xs) (es := es) as (xs' & es' & ES & L1 & L2 & K1 & K2); auto.
  { intros; apply kc_l; auto. } { intros; apply ke_l; auto. } { apply incl_refl. } { intros; apply kc_l; auto. } { intros; apply ke_l; auto. }
  fold kc in K1. fold ke in K2. rewrite ES. cbn [bind fst snd].
  (* the crossings *)
  assert (SN : forall v r x, ~ In v gc -> slot d v r x -> exists X, edge_at d x X /\ x < nedges d /\ (In x ge -> (v, r) = head_slot X)).
  { intros v r x Nv Sx. destruct (slot_edge d v r x R T Sx) as (X & HX). exists X. split; auto. split; [eapply edge_at_lt; eauto|]. intro Ix. apply (GE x X HX) in Ix.
    destruct (slot_end d v r x X R T Sx HX) as [Q|Q]; auto. exfalso. apply Nv. unfold tail_slot in Q. apply pair_eq in Q as (-> & _). exact Ix. }
  assert (XN : forall v x, v < ncross d -> ~ In v gc -> nth_error (p_cross d) v = Some x -> exists x', nth_error xs' (kc v) = Some x' /\ csign x' = csign x /\
    forall r, r < 4 -> cedge x' r < nedges d /\ ~ In (cedge x' r) ge /\
      (forall a A, edge_at d a A -> ~ In (e_tail A) gc -> tail_slot A = (v, r) -> cedge x' r = a) /\
      (forall a A b B, edge_at d a A -> ~ In (e_tail A) gc -> leads d gc a b -> edge_at d b B -> head_slot B = (v, r) -> cedge x' r = a)).
  { intros v x Hv Nv Hx. destruct (KI v x Hx Nv) as (_ & Hk). destruct (K1 v x Hv Nv Hk) as (x' & Hx' & Sg & Ed). exists x'. split; auto. split; auto.
    intros r Hr. destruct (Ed r Hr) as (U1 & U2). assert (Sx : slot d v r (cedge x r)) by (split; eauto).
    destruct (SN v r _ Nv Sx) as (X & HX & LX & GX).
    assert (NS : ~ In (cedge x r) ge -> forall a b B, In (a, b) seams -> edge_at d b B -> head_slot B <> (v, r)).
    { intros Ng a b B Iab HB HS. destruct (SE a b Iab) as (A & B' & HA & HB' & KA & GA & LD & KB). unfold edge_at in HB, HB'. rewrite HB in HB'. injection HB' as <-.
      assert (b = cedge x r) as ->.
      { destruct (Rr _ _ HB) as (SB & _). unfold head_slot in HS. apply pair_eq in HS as (E1 & E2). rewrite E1, E2 in SB. exact (slot_fun _ _ _ _ _ SB Sx). }
      destruct (leads_tail d gc a _ B LD HB) as [Q|Q].
      - rewrite Q in HB. unfold edge_at in HA. rewrite HB in HA. injection HA as <-. auto.
      - apply Ng. apply (GE _ B HB). exact Q. }
    assert (W : cedge x' r < nedges d /\ ~ In (cedge x' r) ge).
    { destruct (in_dec Nat.eq_dec (cedge x r) ge) as [Ig|Ng].
      - specialize (GX Ig). apply (GE _ X HX) in Ig. destruct (AB (cedge x r) X HX Ig) as (a & Ia).
        { unfold head_slot in GX. apply pair_eq in GX as (<- & _). exact Nv. }
        rewrite (U1 a (cedge x r) X Ia HX (eq_sym GX)). destruct (SE a _ Ia) as (A & _ & HA & _ & KA & _). split; [eapply edge_at_lt; eauto|].
        intro Q. apply (GE a A HA) in Q. auto.
      - rewrite U2 by (apply NS; auto). auto. }
    destruct W as (W1 & W2). split; auto. split; auto. split.
    - intros a A HA KA HS. assert (a = cedge x r) as ->.
      { destruct (Rr _ _ HA) as (_ & SA). unfold tail_slot in HS. apply pair_eq in HS as (E1 & E2). rewrite E1, E2 in SA. exact (slot_fun _ _ _ _ _ SA Sx). }
      apply U2. apply NS. intro Q. apply (GE _ A HA) in Q. auto.
    - intros a A b B HA KA LD HB HS. assert (b = cedge x r) as ->.
      { destruct (Rr _ _ HB) as (SB & _). unfold head_slot in HS. apply pair_eq in HS as (E1 & E2). rewrite E1, E2 in SB. exact (slot_fun _ _ _ _ _ SB Sx). }
      assert (KB : ~ In (e_head B) gc) by (unfold head_slot in HS; apply pair_eq in HS as (-> & _); exact Nv).
      destruct (in_dec Nat.eq_dec (e_head A) gc) as [GA|NA].
      + destruct (AL a A HA KA GA) as (y & Iy). destruct (SE a y Iy) as (_ & Y & _ & HY & _ & _ & LDy & KY).
        assert (y = cedge x r) as -> by (apply (LF a y (cedge x r) Y B); auto). apply (U1 a (cedge x r) B); auto.
      + assert (cedge x r = a).
        { apply (LF a (cedge x r) a B A); auto. apply leads_here. }
        rewrite <- H. apply U2. apply NS. rewrite H. intro Q. apply (GE a A HA) in Q. auto. }
  set (kx := fun e => match nth e J None with Some j => j | None => 0 end).
  assert (kxk : forall e, e < nedges d -> ~ In e ge -> kx e = ke e).
  { intros e He A. unfold kx. rewrite (nth_error_nth _ _ _ (proj2 (ke_l e He A))). reflexivity. }
  set (tc := fun x => mkCross (kx (ce0 x)) (kx (ce1 x)) (kx (ce2 x)) (kx (ce3 x)) (csign x)).
  assert (EX : map_ok (table_cross J) xs' = Ok (map tc xs')).
  { apply PdCrossProofs.map_ok_map. intros x' HX. apply In_nth_error in HX. destruct HX as (j & Hj).
    destruct (OC j) as (v & Hv & Nv & <-); [rewrite <- L1; apply nth_error_Some; congruence|].
    destruct (nth_error (p_cross d) v) as [x|] eqn:X; [|apply nth_error_None in X; unfold ncross in Hv; lia].
    destruct (XN v x Hv Nv X) as (x2 & Hx2 & _ & Ed). rewrite Hj in Hx2. injection Hx2 as <-.
    assert (Z : forall r, r < 4 -> table_get J (cedge x' r) = Ok (kx (cedge x' r))).
    { intros r Hr. destruct (Ed r Hr) as (Z1 & Z2 & _). unfold table_get. rewrite (proj2 (get_ok _ _ _ _) (proj2 (ke_l _ Z1 Z2))). cbn [bind index].
      rewrite kxk; auto. }
    unfold table_cross. pose proof (Z 0 ltac:(lia)) as Z0. pose proof (Z 1 ltac:(lia)) as Z1. pose proof (Z 2 ltac:(lia)) as Z2. pose proof (Z 3 ltac:(lia)) as Z3.
    cbn [cedge] in Z0, Z1, Z2, Z3. rewrite Z0, Z1, Z2, Z3. reflexivity. }
  rewrite EX. cbn [bind].
  (* the edges *)
  set (km := fun v => match nth v I None with Some j => j | None => length I end).
  assert (kmk : forall v, v < ncross d -> ~ In v gc -> km v = kc v).
  { intros v Hv Nv. unfold km. rewrite (nth_error_nth _ _ _ (proj2 (kc_l v Hv Nv))). reflexivity. }
  set (me := fun E => mkEdge (km (e_head E)) (e_headpos E) (km (e_tail E)) (e_tailpos E)).
  assert (EN : forall a A, edge_at d a A -> ~ In (e_tail A) gc -> exists b B E', leads d gc a b /\ edge_at d b B /\ ~ In (e_head B) gc /\
    nth_error es' (ke a) = Some E' /\ tail_slot E' = tail_slot A /\ head_slot E' = head_slot B).
  { intros a A HA KA. assert (Na : ~ In a ge) by (intro Q; apply (GE a A HA) in Q; auto). pose proof (edge_at_lt _ _ _ HA) as La.
    destruct (KJ a A HA Na) as (_ & QA). destruct (K2 a A La Na QA) as (E' & HE' & U1 & U2 & U3 & U4).
    destruct (in_dec Nat.eq_dec (e_head A) gc) as [GA|NA].
    - destruct (AL a A HA KA GA) as (y & Iy). destruct (SE a y Iy) as (_ & Y & _ & HY & _ & _ & LDy & KY).
      exists y, Y, E'. split; auto. split; auto. split; auto. split; auto. split; [unfold tail_slot; congruence|]. apply (U3 y Y); auto.
    - exists a, A, E'. split; [apply leads_here|]. split; auto. split; auto. split; auto. rewrite U4; auto.
      intros y Iy. destruct (SE a y Iy) as (A' & _ & HA' & _ & _ & GA & _). unfold edge_at in *. rewrite HA in HA'. injection HA' as <-. auto. }
  assert (EM : map_ok (moved_ends I) es' = Ok (map me es')).
  { apply PdCrossProofs.map_ok_map. intros X HX. apply In_nth_error in HX. destruct HX as (j & Hj).
    destruct (OE j) as (x & Lx & Nx1 & <-); [rewrite <- L2; apply nth_error_Some; congruence|]. destruct (edge_at_ex d x Lx) as (X' & HX').
    destruct (EN x X' HX') as (b & B & E' & _ & HB & KB & HE' & T1 & T2); [intro Q; apply Nx1, (GE x X' HX'); auto|].
    rewrite Hj in HE'. injection HE' as <-. destruct (Rr _ _ HX') as (_ & QS1). destruct (Rr _ _ HB) as (QS2 & _). apply slot_lt in QS1, QS2.
    unfold tail_slot, head_slot in T1, T2. apply pair_eq in T1 as (T1 & T1'). apply pair_eq in T2 as (T2 & T2').
    unfold moved_ends, p_unset. rewrite !(get_nth _ I _ None) by (rewrite LI; rewrite ?T1, ?T2; tauto). reflexivity. }
  rewrite EM. cbn [bind]. eexists _, J. split; [reflexivity|].
  assert (MV : forall v r, r < 4 -> moved kc (fun _ => 0) v r = (kc v, r)).
  { intros v r Hr. unfold moved. f_equal. destruct r as [|[|[|[|?]]]]; cbn; lia. }
  assert (tcc : forall x r, r < 4 -> cedge (tc x) r = kx (cedge x r)) by (intros x r Hr; destruct r as [|[|[|[|?]]]]; try lia; reflexivity).
  set (o := mkPd _ _ _ _ _ _ _).
  assert (NC : ncross o = length xs) by (unfold ncross; cbn [o p_cross]; rewrite map_length; congruence).
  assert (NE : nedges o = length es) by (unfold nedges; cbn [o p_edge]; rewrite map_length; congruence).
  assert (EO : forall a A b B, edge_at d a A -> ~ In (e_tail A) gc -> leads d gc a b -> edge_at d b B -> ~ In (e_head B) gc ->
    exists X', edge_at o (ke a) X' /\ tail_slot X' = (kc (e_tail A), e_tailpos A) /\ head_slot X' = (kc (e_head B), e_headpos B)).
  { intros a A b B HA KA LD HB KB. destruct (EN a A HA KA) as (b' & B' & E' & LD' & HB' & KB' & HE' & T1 & T2).
    assert (b' = b) as -> by (apply (LF a b' b B' B); auto). unfold edge_at in HB, HB'. rewrite HB in HB'. injection HB' as <-.
    exists (me E'). split; [unfold edge_at; cbn [o p_edge]; apply map_nth_error; exact HE'|].
    destruct (Rr _ _ HA) as (_ & QS1). destruct (Rr _ _ HB) as (QS2 & _). apply slot_lt in QS1, QS2.
    unfold tail_slot, head_slot in *. apply pair_eq in T1 as (T1 & T1'). apply pair_eq in T2 as (T2 & T2'). cbn [me e_head e_tail e_headpos e_tailpos].
    rewrite T1, T1', T2, T2'. rewrite !kmk by tauto. auto. }
  assert (XO : forall v x' r, v < ncross d -> ~ In v gc -> r < 4 -> nth_error xs' (kc v) = Some x' -> cedge x' r < nedges d -> ~ In (cedge x' r) ge -> slot o (kc v) r (ke (cedge x' r))).
  { intros v x' r Hv Nv Hr Hx' Z1 Z2. split; auto. exists (tc x'). split; [cbn [o p_cross]; apply map_nth_error; auto|]. rewrite tcc, kxk by auto. reflexivity. }
  split; [|split; [rewrite LJ; reflexivity|split; [|split; reflexivity]]].
  - constructor; auto.
    + rewrite NC. lia.
    + split; [rewrite NC, NE; lia|]. intros e' E' HE'. pose proof (edge_at_lt _ _ _ HE') as Le'. rewrite NE in Le'. destruct (OE e' Le') as (a & La & Na & <-).
      destruct (edge_at_ex d a La) as (A & HA). assert (KA : ~ In (e_tail A) gc) by (intro Q; apply Na, (GE a A HA); auto).
      destruct (EN a A HA KA) as (b & B & _ & LD & HB & KB & _). destruct (EO a A b B HA KA LD HB KB) as (X' & HX' & T1 & T2).
      unfold edge_at in HE', HX'. rewrite HE' in HX'. injection HX' as <-. unfold tail_slot, head_slot in T1, T2.
      apply pair_eq in T1 as (T1 & T1'). apply pair_eq in T2 as (T2 & T2'). rewrite T1, T1', T2, T2'.
      destruct (Rr _ _ HA) as (_ & QS1). destruct (Rr _ _ HB) as (QS2 & _). apply slot_lt in QS1, QS2.
      assert (XX : forall v, v < ncross d -> exists x, nth_error (p_cross d) v = Some x).
      { intros v Hv. destruct (nth_error (p_cross d) v) as [x|] eqn:X; [eauto|apply nth_error_None in X; unfold ncross in Hv; lia]. }
      split.
      * destruct (XX (e_head B)) as (x & Hx); [tauto|]. destruct (XN _ x (proj1 QS2) KB Hx) as (x' & Hx' & _ & Ed). destruct (Ed (e_headpos B) (proj2 QS2)) as (Z1 & Z2 & _ & Z4).
        rewrite <- (Z4 a A b B HA KA LD HB eq_refl). apply XO; tauto.
      * destruct (XX (e_tail A)) as (x & Hx); [tauto|]. destruct (XN _ x (proj1 QS1) KA Hx) as (x' & Hx' & _ & Ed). destruct (Ed (e_tailpos A) (proj2 QS1)) as (Z1 & Z2 & Z3 & _).
        rewrite <- (Z3 a A HA KA eq_refl). apply XO; tauto.
    + intros v Hv Nv. rewrite NC. apply kc_l; auto.
    + intros x X y Y HX KX HY KY. apply ke_i; try (eapply edge_at_lt; eauto); intro Q; [apply (GE x X HX) in Q|apply (GE y Y HY) in Q]; auto.
    + intros v s Nv (y & Hy & Ey). assert (Hv : v < ncross d) by (apply nth_error_Some; congruence).
      destruct (XN v y Hv Nv Hy) as (y' & Hy' & Sg & _). exists (tc y'). split; [cbn [o p_cross]; apply map_nth_error; auto|]. cbn [csign tc]. congruence.
    + intros a A HA KA. destruct (EN a A HA KA) as (b & B & _ & LD & HB & KB & _). eauto.
    + intros a A b B HA KA LD HB KB. destruct (EO a A b B HA KA LD HB KB) as (X' & HX' & T1 & T2). exists X'. split; auto.
      destruct (Rr _ _ HA) as (_ & QS1). destruct (Rr _ _ HB) as (QS2 & _). apply slot_lt in QS1, QS2. rewrite !MV by tauto. auto.
  - intros x Hx. destruct (in_dec Nat.eq_dec x ge) as [Ig|Ng]; [apply nth_error_nth; apply DJ; auto|]. apply nth_error_nth. apply ke_l; auto.
Qed.
End CutOut.
