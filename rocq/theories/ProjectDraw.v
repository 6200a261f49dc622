(** From lists of crossings to diagrams: the tables of edges and crossings. *)
From Coq Require Import List NArith ZArith QArith Qabs Lia Lqa Bool Arith Permutation Sorted.
From Verif Require Import Base ListAux Iterators Sorting Pd PdSpec PdProofs Relabel Strands OverUnderSpec Nearest Thm_Nearest PdEdges PdCompsProofs Project ProjectSpec ProjectProofs.
Import ListNotations.
Open Scope nat_scope.
Open Scope res_scope.

(** ** each passage and the one before it *)
Lemma preds_app : forall Y p, preds p Y ++ [last Y p] = p :: Y.
Proof.
  induction Y as [|y Y IH]; intros p; auto. cbn [preds app]. f_equal. rewrite <- (IH y) at 2. f_equal. f_equal. destruct Y as [|z Y]; [reflexivity|]. clear. revert z. induction Y as [|w Y IH]; intros z; [reflexivity|]. exact (IH w).
Qed.
Lemma preds_length : forall Y p, length (preds p Y) = length Y.
Proof. induction Y as [|y Y IH]; intros p; cbn; auto. Qed.
Lemma last_any : forall {A} (l : list A) d e, l <> [] -> last l d = last l e.
Proof. intros A l d e. induction l as [|a l IH]; intros N; [congruence|]. destruct l as [|b l]; auto. apply IH. discriminate. Qed.
Lemma rot_perm : forall Y, Permutation (rot Y) Y.
Proof.
  intros Y. destruct Y as [|y Y]; [constructor|]. unfold rot. set (p := last (y :: Y) nov). pose proof (preds_app (y :: Y) p) as E. rewrite (last_any (y :: Y) p nov) in E by discriminate. fold p in E.
  apply (Permutation_cons_inv (a := p)). rewrite <- E. rewrite Permutation_app_comm. reflexivity.
Qed.
Lemma preds_nth : forall Y p k v, nth_error Y k = Some v -> k + 1 < length Y -> nth_error (preds p Y) (k + 1) = Some v.
Proof.
  induction Y as [|y Y IH]; intros p k v H L; [destruct k; discriminate H|]. rewrite Nat.add_1_r in *. cbn [preds nth_error]. destruct k as [|k]; cbn in H, L.
  - injection H as <-. destruct Y; [cbn in L; lia|reflexivity].
  - rewrite <- (Nat.add_1_r k). apply IH; auto. lia.
Qed.
Lemma last_nth : forall {A} (l : list A) d, l <> [] -> nth_error l (length l - 1) = Some (last l d).
Proof. intros A l d. induction l as [|a l IH]; intros N; [congruence|]. destruct l as [|b l]; auto. replace (length (a :: b :: l) - 1) with (S (length (b :: l) - 1)) by (cbn; lia). cbn [nth_error]. rewrite IH by discriminate. reflexivity. Qed.
Lemma rot_nth : forall Y k v, nth_error Y k = Some v -> nth_error (rot Y) ((k + 1) mod length Y) = Some v.
Proof.
  intros Y k v H. assert (L : k < length Y) by (apply nth_error_Some; congruence). destruct (Nat.eq_dec (k + 1) (length Y)) as [E|N].
  - rewrite E, Nat.mod_same by lia. assert (NE : Y <> []) by (destruct Y; [destruct k; discriminate H|discriminate]). pose proof (last_nth Y nov NE) as Q. replace (length Y - 1) with k in Q by lia. rewrite H in Q. injection Q as Q.
    destruct Y as [|y Y]; [congruence|]. unfold rot. rewrite <- Q. reflexivity.
  - rewrite Nat.mod_small by lia. apply preds_nth; auto. lia.
Qed.

(** ** writing the table of crossings *)
Lemma cedge_set : forall x p q e, p < 4 -> q < 4 -> cedge (set_place x p e) q = if p =? q then e else cedge x q.
Proof. intros x p q e Hp Hq. destruct p as [|[|[|[|p]]]]; [..|lia]; (destruct q as [|[|[|[|q]]]]; [..|lia]); reflexivity. Qed.
Lemma csign_set : forall x p e, csign (set_place x p e) = csign x.
Proof. intros x p e. destruct p as [|[|[|p]]]; reflexivity. Qed.
Section Place.
Context (sg : nat -> orient).
Definition hslot (h : xstrand) : nat * nat := (xs_num h, head_place (xs_upper h) (sg (xs_num h))).
Definition tslot (t : xstrand) : nat * nat := (xs_num t, tail_place (xs_upper t) (sg (xs_num t))).
Lemma head_place_lt : forall u s, head_place u s < 4. Proof. intros [] []; cbn; lia. Qed.
Lemma tail_place_lt : forall u s, tail_place u s < 4. Proof. intros [] []; cbn; lia. Qed.
Lemma hslot_inj : forall h h', hslot h = hslot h' -> vkey h = vkey h'.
Proof. intros [i c s u] [i' c' s' u'] E. unfold hslot in E. cbn in E. apply pair_equal_spec in E as (-> & E). unfold vkey. cbn. f_equal. destruct u, u', (sg i'); cbn in E; congruence. Qed.
Lemma tslot_inj : forall h h', tslot h = tslot h' -> vkey h = vkey h'.
Proof. intros [i c s u] [i' c' s' u'] E. unfold tslot in E. cbn in E. apply pair_equal_spec in E as (-> & E). unfold vkey. cbn. f_equal. destruct u, u', (sg i'); cbn in E; congruence. Qed.
Lemma slots_differ : forall h t, hslot h <> tslot t.
Proof. intros [i c s u] [i' c' s' u'] E. unfold hslot, tslot in E. cbn in E. apply pair_equal_spec in E as (-> & E). destruct u, u', (sg i'); cbn in E; congruence. Qed.
Definition edge_for (p : temp_edge) : edge := mkEdge (fst (hslot (fst p))) (snd (hslot (fst p))) (fst (tslot (snd p))) (snd (tslot (snd p))).
Lemma place_spec : forall ts i xs, (forall c x, nth_error xs c = Some x -> csign x = sg c) -> (forall h t, In (h, t) ts -> xs_num h < length xs /\ xs_num t < length xs) ->
  NoDup (map vkey (map fst ts)) -> NoDup (map vkey (map snd ts)) ->
  exists xs', place_edges i ts xs = Ok (map edge_for ts, xs') /\ length xs' = length xs /\ (forall c x, nth_error xs' c = Some x -> csign x = sg c) /\
    (forall c p x x', nth_error xs c = Some x -> nth_error xs' c = Some x' -> p < 4 -> ~ In (c, p) (map hslot (map fst ts)) -> ~ In (c, p) (map tslot (map snd ts)) -> cedge x' p = cedge x p) /\
    (forall k h t x', nth_error ts k = Some (h, t) -> (nth_error xs' (xs_num h) = Some x' -> cedge x' (snd (hslot h)) = i + k) /\ (nth_error xs' (xs_num t) = Some x' -> cedge x' (snd (tslot t)) = i + k)).
Proof.
  induction ts as [|(h, t) ts IH]; intros i xs SG B N1 N2; cbn [place_edges map].
  - exists xs. split; auto. split; auto. split; auto. split; [intros; congruence|intros k h t x' H; destruct k; discriminate H].
  - destruct (B h t ltac:(left; auto)) as (B1 & B2). destruct (nth_error xs (xs_num h)) as [x|] eqn:Hx; [|apply nth_error_None in Hx; lia]. rewrite (proj2 (get_ok _ _ _ _) Hx). cbn [bind]. rewrite (SG _ _ Hx).
    set (hp := head_place (xs_upper h) (sg (xs_num h))). set (xs1 := upd (xs_num h) (set_place x hp i) xs).
    assert (L1 : length xs1 = length xs) by apply upd_length.
    assert (V1 : forall c, nth_error xs1 c = if xs_num h =? c then Some (set_place x hp i) else nth_error xs c).
    { intros c. unfold xs1. rewrite nth_error_upd. rewrite (proj2 (Nat.ltb_lt _ _) B1). auto. }
    assert (SG1 : forall c x, nth_error xs1 c = Some x -> csign x = sg c).
    { intros c y Hy. rewrite V1 in Hy. destruct (Nat.eqb_spec (xs_num h) c) as [E|E]; [injection Hy as <-; rewrite csign_set; subst c; auto|auto]. }
    destruct (nth_error xs1 (xs_num t)) as [y|] eqn:Hy; [|apply nth_error_None in Hy; lia]. rewrite (proj2 (get_ok _ _ _ _) Hy). cbn [bind]. rewrite (SG1 _ _ Hy).
    set (tp := tail_place (xs_upper t) (sg (xs_num t))). set (xs2 := upd (xs_num t) (set_place y tp i) xs1).
    assert (L2 : length xs2 = length xs) by (unfold xs2; rewrite upd_length; auto).
    assert (V2 : forall c, nth_error xs2 c = if xs_num t =? c then Some (set_place y tp i) else nth_error xs1 c).
    { intros c. unfold xs2. rewrite nth_error_upd. rewrite L1, (proj2 (Nat.ltb_lt _ _) B2). auto. }
    assert (SG2 : forall c x, nth_error xs2 c = Some x -> csign x = sg c).
    { intros c z Hz. rewrite V2 in Hz. destruct (Nat.eqb_spec (xs_num t) c) as [E|E]; [injection Hz as <-; rewrite csign_set; subst c; auto|auto]. }
    inversion N1 as [|? ? N1a N1b]; subst. inversion N2 as [|? ? N2a N2b]; subst. cbn [fst snd] in *.
    assert (HP : hp < 4) by apply head_place_lt. assert (TP : tp < 4) by apply tail_place_lt.
    (* what the two writes do *)
    assert (W : forall c p z z2, nth_error xs c = Some z -> nth_error xs2 c = Some z2 -> p < 4 ->
      cedge z2 p = if (xs_num t =? c) && (tp =? p) then i else if (xs_num h =? c) && (hp =? p) then i else cedge z p).
    { intros c p z z2 Hz Hz2 Lp. rewrite V2 in Hz2. destruct (Nat.eqb_spec (xs_num t) c) as [E|E]; cbn [andb].
      - injection Hz2 as <-. rewrite cedge_set by auto. destruct (tp =? p); auto. subst c. rewrite V1 in Hy. destruct (Nat.eqb_spec (xs_num h) (xs_num t)) as [E'|E']; cbn [andb].
        + injection Hy as <-. rewrite cedge_set by auto. destruct (hp =? p); auto. rewrite E' in Hx. congruence.
        + congruence.
      - rewrite V1 in Hz2. destruct (Nat.eqb_spec (xs_num h) c) as [E'|E']; cbn [andb].
        + injection Hz2 as <-. rewrite cedge_set by auto. destruct (hp =? p); auto. subst c. congruence.
        + congruence. }
    destruct (IH (i + 1) xs2) as (xs' & E & L' & SG' & FR & WR); auto.
    { intros h' t' H'. rewrite L2. apply B. right; auto. }
    rewrite E. cbn [bind fst snd]. exists xs'. split; [reflexivity|]. split; [lia|]. split; auto.
    assert (EX : forall c, c < length xs -> exists z2, nth_error xs2 c = Some z2) by (intros c Lc; destruct (nth_error xs2 c) as [z2|] eqn:Q; [eauto|apply nth_error_None in Q; lia]).
    split.
    + intros c p z z' Hz Hz' Lp H1 H2. assert (Lc : c < length xs) by (apply nth_error_Some; congruence). destruct (EX c Lc) as (z2 & Hz2). rewrite (FR c p z2 z' Hz2 Hz' Lp) by (intros Q; first [apply H1; right; exact Q|apply H2; right; exact Q]).
      rewrite (W c p z z2 Hz Hz2 Lp). destruct (Nat.eqb_spec (xs_num t) c) as [E1|E1]; cbn [andb].
      * destruct (Nat.eqb_spec tp p) as [E2|E2]; [exfalso; apply H2; left; unfold tslot; fold tp; congruence|]. destruct (Nat.eqb_spec (xs_num h) c) as [E3|E3]; cbn [andb]; auto.
        destruct (Nat.eqb_spec hp p) as [E4|E4]; [exfalso; apply H1; left; unfold hslot; fold hp; congruence|auto].
      * destruct (Nat.eqb_spec (xs_num h) c) as [E3|E3]; cbn [andb]; auto. destruct (Nat.eqb_spec hp p) as [E4|E4]; [exfalso; apply H1; left; unfold hslot; fold hp; congruence|auto].
    + assert (KEEP : forall c p z', nth_error xs' c = Some z' -> p < 4 -> c < length xs -> (c, p) = hslot h \/ (c, p) = tslot t -> cedge z' p = i).
      { intros c p z' Hz' Lp Lc HS. destruct (EX c Lc) as (z2 & Hz2). destruct (nth_error xs c) as [z|] eqn:Hz; [|apply nth_error_None in Hz; lia].
        rewrite (FR c p z2 z' Hz2 Hz' Lp).
        - rewrite (W c p z z2 Hz Hz2 Lp). destruct HS as [HS|HS].
          + apply pair_equal_spec in HS as (-> & ->). fold hp. rewrite !Nat.eqb_refl. cbn [andb]. destruct ((xs_num t =? xs_num h) && (tp =? hp)); auto.
          + apply pair_equal_spec in HS as (-> & ->). fold tp. rewrite !Nat.eqb_refl. cbn [andb]. auto.
        - intros Q. apply in_map_iff in Q as (h' & Q & I'). destruct HS as [HS|HS]; rewrite HS in Q; [apply N1a; apply hslot_inj in Q; rewrite <- Q; apply in_map; auto|exact (slots_differ _ _ Q)].
        - intros Q. apply in_map_iff in Q as (t' & Q & I'). destruct HS as [HS|HS]; rewrite HS in Q; [exact (slots_differ _ _ (eq_sym Q))|apply N2a; apply tslot_inj in Q; rewrite <- Q; apply in_map; auto]. }
      intros k h' t' x' Hk. destruct k as [|k].
      * cbn in Hk. injection Hk as <- <-. rewrite Nat.add_0_r. split; intros Hx'; (eapply KEEP; [exact Hx'|first [exact HP|exact TP]|auto|auto]).
      * cbn in Hk. replace (i + S k) with (i + 1 + k) by lia. apply WR. auto.
Qed.
End Place.

(** ** the diagram *)
Lemma passage_ext : forall cs v, passage cs v -> xs_num v < length cs.
Proof. intros cs v (x & Hx & _). apply nth_error_Some. congruence. Qed.
Lemma sorted_nodup : forall (l : list xstrand), StronglySorted (fun a b => xs_s a < xs_s b)%Q l -> NoDup l.
Proof. intros l H. induction H as [|a l H IH F]; constructor; auto. intros I. rewrite Forall_forall in F. specialize (F a I). lra. Qed.
Lemma blocks_nodup : forall (Ys : list (list xstrand)) c0, (forall k Y, nth_error Ys k = Some Y -> NoDup Y /\ forall v, In v Y -> xs_cmp v = c0 + k) ->
  NoDup (concat Ys) /\ forall v, In v (concat Ys) -> c0 <= xs_cmp v.
Proof.
  induction Ys as [|Y Ys IH]; intros c0 H; cbn [concat]; [split; [constructor|intros v []]|]. destruct (H 0 Y eq_refl) as (N & B). destruct (IH (c0 + 1)) as (N' & B').
  { intros k Y' Hk. destruct (H (S k) Y' Hk) as (A1 & A2). split; auto. intros v Hv. apply A2 in Hv. lia. }
  split.
  - apply NoDup_app_intro; auto. intros v H1 H2. apply B in H1. apply B' in H2. lia.
  - intros v Hv. apply in_app_or in Hv as [Hv|Hv]; [apply B in Hv; lia|apply B' in Hv; lia].
Qed.
Fixpoint blocks (o : nat) (Ys : list (list xstrand)) : list (list nat) :=
  match Ys with [] => [] | Y :: Ys' => seq o (length Y) :: blocks (o + length Y) Ys' end.
Lemma blocks_concat : forall Ys o, concat (blocks o Ys) = seq o (length (concat Ys)).
Proof. induction Ys as [|Y Ys IH]; intros o; cbn [blocks concat]; auto. rewrite IH, app_length, seq_app. reflexivity. Qed.
Lemma blocks_length : forall Ys o, length (blocks o Ys) = length Ys.
Proof. induction Ys as [|Y Ys IH]; intros o; cbn; auto. Qed.
Definition linked (Ys : list (list xstrand)) : list temp_edge := concat (map (fun Y => combine Y (rot Y)) Ys).
Lemma rot_length : forall Y, length (rot Y) = length Y.
Proof. intros Y. apply preds_length. Qed.
Lemma linked_length : forall Ys, length (linked Ys) = length (concat Ys).
Proof. unfold linked, temp_edge. induction Ys as [|Y Ys IH]; cbn [map concat]; auto. rewrite !app_length, combine_length, rot_length, IH. lia. Qed.
Lemma linked_fst : forall Ys, map fst (linked Ys) = concat Ys.
Proof.
  assert (K : forall (A B : list xstrand), length A = length B -> map fst (combine A B) = A) by (induction A as [|a A IH]; intros [|b B] L; cbn in *; try lia; auto; rewrite IH by lia; auto).
  unfold linked, temp_edge. induction Ys as [|Y Ys IH]; cbn [map concat]; auto. rewrite map_app, IH, K; auto. rewrite rot_length. auto.
Qed.
Lemma linked_snd : forall Ys, map snd (linked Ys) = concat (map rot Ys).
Proof.
  assert (K : forall (A B : list xstrand), length A = length B -> map snd (combine A B) = B) by (induction A as [|a A IH]; intros [|b B] L; cbn in *; try lia; auto; rewrite IH by lia; auto).
  unfold linked, temp_edge. induction Ys as [|Y Ys IH]; cbn [map concat]; auto. rewrite map_app, IH, K; auto. rewrite rot_length. auto.
Qed.
Lemma rots_perm : forall Ys, Permutation (concat (map rot Ys)) (concat Ys).
Proof. induction Ys as [|Y Ys IH]; cbn; auto. apply Permutation_app; auto. apply rot_perm. Qed.
Lemma combine_nth2 : forall {A B} (l : list A) (m : list B) k a b, nth_error l k = Some a -> nth_error m k = Some b -> nth_error (combine l m) k = Some (a, b).
Proof. intros A B. induction l as [|x l IH]; intros m k a b H1 H2; [destruct k; discriminate H1|]. destruct m as [|y m]; [destruct k; discriminate H2|]. destruct k as [|k]; cbn in *; [congruence|auto]. Qed.
Lemma block_nth : forall Ys o c es, nth_error (blocks o Ys) c = Some es -> exists Y o', nth_error Ys c = Some Y /\ es = seq (o + o') (length Y) /\
  forall k, k < length Y -> nth_error (linked Ys) (o' + k) = nth_error (combine Y (rot Y)) k.
Proof.
  induction Ys as [|Y Ys IH]; intros o c es H; [destruct c; discriminate H|]. assert (LC : length (combine Y (rot Y)) = length Y) by (rewrite combine_length, rot_length; lia). destruct c as [|c].
  - cbn in H. injection H as <-. exists Y, 0. split; auto. rewrite Nat.add_0_r. split; auto. intros k Hk. unfold linked. cbn [map concat Nat.add]. apply nth_error_app1. lia.
  - cbn in H. destruct (IH _ _ _ H) as (Y' & o' & H1 & H2 & H3). exists Y', (length Y + o'). split; auto. split; [rewrite H2; f_equal; lia|]. intros k Hk. rewrite <- H3 by auto.
    unfold linked at 1. cbn [map concat]. rewrite nth_error_app2 by lia. rewrite LC. replace (length Y + o' + k - length Y) with (o' + k) by lia. reflexivity.
Qed.

Section Drawing.
Context (cs : list xrec) (nc : nat) (BD : forall x, In x cs -> lower_cmp x < nc /\ upper_cmp x < nc).
Context (EV : forall c, c < nc -> exists v, passage cs v /\ xs_cmp v = c).
Context (Ys : list (list xstrand)) (LY : length Ys = nc) (RY : forall c Y, nth_error Ys c = Some Y -> route cs c Y).
Definition sgn_of (x : xrec) : orient := if (0 <? x_sign x)%Z then Pos else Neg.
Definition sg (c : nat) : orient := match nth_error cs c with Some x => sgn_of x | None => Neg end.
Lemma passage_cmp : forall v, passage cs v -> xs_cmp v < nc.
Proof. intros v (x & Hx & H). destruct (BD x (nth_error_In _ _ Hx)) as (B1 & B2). destruct (xs_upper v), H; lia. Qed.
Lemma Ys_perm : Permutation (concat Ys) (strands_of cs).
Proof.
  apply NoDup_Permutation; [|apply strands_nodup|].
  - apply (blocks_nodup Ys 0). intros k Y Hk. destruct (RY k Y Hk) as (R1 & R2). split; [apply sorted_nodup; auto|]. intros v Hv. apply R1 in Hv. tauto.
  - intros v. rewrite in_strands, in_concat. split.
    + intros (Y & HY & Hv). apply In_nth_error in HY as (k & Hk). apply (RY k Y Hk) in Hv. tauto.
    + intros Hv. assert (L : xs_cmp v < length Ys) by (rewrite LY; apply passage_cmp; auto). destruct (nth_error Ys (xs_cmp v)) as [Y|] eqn:Q; [|apply nth_error_None in Q; lia].
      exists Y. split; [eapply nth_error_In; eauto|]. apply (RY _ _ Q). auto.
Qed.
Lemma Ys_nonempty : forall c Y, nth_error Ys c = Some Y -> Y <> [].
Proof. intros c Y H E. subst Y. assert (c < nc) by (rewrite <- LY; apply nth_error_Some; congruence). destruct (EV c H0) as (v & Hv). apply (RY c [] H) in Hv. destruct Hv. Qed.
Lemma heads_perm : Permutation (map fst (linked Ys)) (strands_of cs).
Proof. rewrite linked_fst. apply Ys_perm. Qed.
Lemma tails_perm : Permutation (map snd (linked Ys)) (strands_of cs).
Proof. rewrite linked_snd, rots_perm. apply Ys_perm. Qed.
Lemma linked_count : length (linked Ys) = 2 * length cs.
Proof. rewrite linked_length, (Permutation_length Ys_perm). apply strands_length. Qed.
Lemma keys_nodup : forall l, Permutation l (strands_of cs) -> NoDup (map vkey l).
Proof. intros l P. eapply Permutation_NoDup; [apply Permutation_map; symmetry; exact P|apply strands_nodup_key]. Qed.
Definition blank : list crossing := map (fun x => mkCross 0 0 0 0 (sgn_of x)) cs.
Lemma placed : exists xs', place_edges 0 (linked Ys) blank = Ok (map (edge_for sg) (linked Ys), xs') /\ length xs' = length cs /\
  (forall c x, nth_error xs' c = Some x -> csign x = sg c) /\
  forall k h t, nth_error (linked Ys) k = Some (h, t) -> forall x', (nth_error xs' (xs_num h) = Some x' -> cedge x' (snd (hslot sg h)) = k) /\ (nth_error xs' (xs_num t) = Some x' -> cedge x' (snd (tslot sg t)) = k).
Proof.
  assert (LB : length blank = length cs) by apply map_length.
  destruct (place_spec sg (linked Ys) 0 blank) as (xs' & E & L & SG & _ & W).
  - intros c x Hx. unfold blank in Hx. rewrite nth_error_map in Hx. unfold sg. destruct (nth_error cs c) as [y|]; [|discriminate Hx]. cbn in Hx. injection Hx as <-. reflexivity.
  - intros h t H. rewrite LB. assert (A : In h (map fst (linked Ys))) by (apply in_map_iff; exists (h, t); auto). assert (B : In t (map snd (linked Ys))) by (apply in_map_iff; exists (h, t); auto).
    rewrite heads_perm, in_strands in A. rewrite tails_perm, in_strands in B. split; apply passage_ext; auto.
  - apply keys_nodup, heads_perm.
  - apply keys_nodup, tails_perm.
  - exists xs'. split; auto. split; [lia|]. split; auto. intros k h t Hk x'. exact (W k h t x' Hk).
Qed.

Context (d : pd) (xs' : list crossing) (DE : p_edge d = map (edge_for sg) (linked Ys)) (DC : p_cross d = xs') (LX : length xs' = length cs).
Context (SGX : forall c x, nth_error xs' c = Some x -> csign x = sg c).
Context (WR : forall k h t, nth_error (linked Ys) k = Some (h, t) -> forall x', (nth_error xs' (xs_num h) = Some x' -> cedge x' (snd (hslot sg h)) = k) /\ (nth_error xs' (xs_num t) = Some x' -> cedge x' (snd (tslot sg t)) = k)).
Lemma edge_inv : forall e E, edge_at d e E -> exists h t, nth_error (linked Ys) e = Some (h, t) /\ E = edge_for sg (h, t) /\ passage cs h /\ passage cs t.
Proof.
  intros e E H. unfold edge_at in H. rewrite DE, nth_error_map in H. destruct (nth_error (linked Ys) e) as [(h, t)|] eqn:Q; [|discriminate H]. cbn in H. injection H as <-. exists h, t. split; auto. split; auto.
  apply nth_error_In in Q. assert (A : In h (map fst (linked Ys))) by (apply in_map_iff; exists (h, t); auto). assert (B : In t (map snd (linked Ys))) by (apply in_map_iff; exists (h, t); auto).
  rewrite heads_perm, in_strands in A. rewrite tails_perm, in_strands in B. auto.
Qed.
Lemma linked_edge : forall e h t, nth_error (linked Ys) e = Some (h, t) -> edge_at d e (edge_for sg (h, t)) /\
  slot d (xs_num h) (head_place (xs_upper h) (sg (xs_num h))) e /\ slot d (xs_num t) (tail_place (xs_upper t) (sg (xs_num t))) e.
Proof.
  intros e h t H. assert (EA : edge_at d e (edge_for sg (h, t))) by (unfold edge_at; rewrite DE, nth_error_map, H; reflexivity). split; auto. destruct (edge_inv _ _ EA) as (h' & t' & H' & _ & Ph & Pt). rewrite H in H'. injection H' as <- <-.
  apply passage_ext in Ph, Pt.
  destruct (nth_error xs' (xs_num h)) as [x|] eqn:Q; [|apply nth_error_None in Q; lia]. destruct (nth_error xs' (xs_num t)) as [y|] eqn:Q'; [|apply nth_error_None in Q'; lia].
  split; (split; [first [apply head_place_lt|apply tail_place_lt]|]); rewrite DC; [exists x|exists y]; split; auto; [apply (proj1 (WR e h t H x) Q)|apply (proj2 (WR e h t H y) Q')].
Qed.
Lemma at_head : forall v, passage cs v -> exists e t, nth_error (linked Ys) e = Some (v, t).
Proof. intros v Hv. apply in_strands in Hv. rewrite <- heads_perm in Hv. apply in_map_iff in Hv as ((h, t) & <- & Hv). apply In_nth_error in Hv as (e & He). exists e, t. auto. Qed.
Lemma at_tail : forall v, passage cs v -> exists e h, nth_error (linked Ys) e = Some (h, v).
Proof. intros v Hv. apply in_strands in Hv. rewrite <- tails_perm in Hv. apply in_map_iff in Hv as ((h, t) & <- & Hv). apply In_nth_error in Hv as (e & He). exists e, h. auto. Qed.
Lemma opposite : forall u s, (head_place u s + 2) mod 4 = tail_place u s /\ (tail_place u s + 2) mod 4 = head_place u s.
Proof. intros [] []; cbn; auto. Qed.
Lemma dr_recorded : ends_recorded d.
Proof.
  split; [unfold nedges, ncross; rewrite DE, DC, map_length, linked_count; lia|]. intros e E H. destruct (edge_inv _ _ H) as (h & t & Q & -> & _). destruct (linked_edge _ _ _ Q) as (_ & S1 & S2). auto.
Qed.
Lemma dr_through : goes_through d.
Proof.
  intros e E H. destruct (edge_inv _ _ H) as (h & t & Q & -> & Ph & Pt). unfold edge_for. cbn [e_head e_headpos e_tail e_tailpos hslot tslot fst snd]. split.
  - destruct (at_tail h Ph) as (e' & h' & Q'). destruct (linked_edge _ _ _ Q') as (E' & _ & S'). exists e', (edge_for sg (h', h)). rewrite (proj1 (opposite _ _)). split; auto.
  - destruct (at_head t Pt) as (e' & t' & Q'). destruct (linked_edge _ _ _ Q') as (E' & S' & _). exists e', (edge_for sg (t, t')). rewrite (proj2 (opposite _ _)). split; auto.
Qed.
Lemma dr_ended : two_ended d.
Proof. intros e E H. destruct (edge_inv _ _ H) as (h & t & Q & -> & _). exact (slots_differ sg h t). Qed.
Lemma dr_ncross : ncross d = length cs.
Proof. unfold ncross. rewrite DC. auto. Qed.
Lemma dr_sign : forall i x, nth_error cs i = Some x -> sign_at d i (sgn_of x).
Proof.
  intros i x H. assert (L : i < length xs') by (rewrite LX; apply nth_error_Some; congruence). destruct (nth_error xs' i) as [y|] eqn:Q; [|apply nth_error_None in Q; lia]. exists y. rewrite DC. split; auto. rewrite (SGX _ _ Q). unfold sg. rewrite H. reflexivity.
Qed.
Lemma dr_over_under : forall i x, nth_error cs i = Some x -> over_under d i (sgn_of x) (head_place true (sgn_of x)) (tail_place true (sgn_of x)) 0 2.
Proof.
  intros i x H. assert (SI : sg i = sgn_of x) by (unfold sg; rewrite H; auto).
  assert (PU : passage cs (upper_of (i, x))) by (exists x; cbn; auto). assert (PL : passage cs (lower_of (i, x))) by (exists x; cbn; auto).
  destruct (at_head _ PU) as (e1 & t1 & Q1). destruct (at_tail _ PU) as (e2 & t2 & Q2). destruct (at_head _ PL) as (e3 & t3 & Q3). destruct (at_tail _ PL) as (e4 & t4 & Q4).
  apply linked_edge in Q1 as (E1 & _). apply linked_edge in Q2 as (E2 & _). apply linked_edge in Q3 as (E3 & _). apply linked_edge in Q4 as (E4 & _). rewrite <- SI.
  split; [exists e1; eexists; split; [exact E1|reflexivity]|]. split; [exists e2; eexists; split; [exact E2|reflexivity]|]. split; [exists e3; eexists; split; [exact E3|reflexivity]|]. split; [exists e4; eexists; split; [exact E4|reflexivity]|].
  rewrite SI. unfold sgn_of. destruct (0 <? x_sign x)%Z; cbn; auto.
Qed.
Lemma dr_place : forall v, passage cs v -> (if xs_upper v then over_at d (xs_num v) (head_place (xs_upper v) (sg (xs_num v))) else under_at d (xs_num v) (head_place (xs_upper v) (sg (xs_num v)))) /\
  (if xs_upper v then over_at d (xs_num v) (tail_place (xs_upper v) (sg (xs_num v))) else under_at d (xs_num v) (tail_place (xs_upper v) (sg (xs_num v)))).
Proof.
  intros v (x & Hx & _). pose proof (dr_over_under _ _ Hx) as OU. pose proof (dr_sign _ _ Hx) as SA. assert (SI : sg (xs_num v) = sgn_of x) by (unfold sg; rewrite Hx; auto). rewrite SI.
  destruct (xs_upper v); split; exists (sgn_of x), (head_place true (sgn_of x)), (tail_place true (sgn_of x)), 0, 2; auto.
Qed.
Lemma seq_nth_error : forall n o k e, nth_error (seq o n) k = Some e -> e = o + k /\ k < n.
Proof. intros n o k e H. assert (L : k < length (seq o n)) by (apply nth_error_Some; congruence). rewrite seq_length in L. rewrite (nth_error_nth' _ 0) in H by (rewrite seq_length; auto). rewrite seq_nth in H by auto. injection H as <-. auto. Qed.
Lemma dr_follows : forall c es, nth_error (blocks 0 Ys) c = Some es -> exists l, route cs c l /\ follows d es l /\ es <> [] /\ cyclically (continues d) es.
Proof.
  intros c es H. destruct (block_nth _ _ _ _ H) as (Y & o & HY & -> & LK). exists Y. split; [apply RY; auto|]. cbn [Nat.add] in *. rewrite !seq_length || idtac.
  assert (NE := Ys_nonempty _ _ HY). assert (LP : 0 < length Y) by (destruct Y; [congruence|cbn; lia]).
  assert (ED : forall k, k < length Y -> exists v w, nth_error Y k = Some v /\ nth_error (rot Y) k = Some w /\ nth_error (linked Ys) (o + k) = Some (v, w)).
  { intros k Hk. destruct (nth_error Y k) as [v|] eqn:Q; [|apply nth_error_None in Q; lia]. destruct (nth_error (rot Y) k) as [w|] eqn:Q'; [|apply nth_error_None in Q'; rewrite rot_length in Q'; lia].
    exists v, w. split; auto. split; auto. rewrite LK by auto. apply combine_nth2; auto. }
  split; [split; [apply seq_length|]|split].
  - intros k e v w Hv Hw He. apply seq_nth_error in He as (-> & Lk). destruct (ED _ Lk) as (w' & v' & A1 & A2 & A3). rewrite A1 in Hw. injection Hw as <-. rewrite (rot_nth _ _ _ Hv) in A2. injection A2 as <-.
    destruct (linked_edge _ _ _ A3) as (EA & _). destruct (edge_inv _ _ EA) as (h' & t' & A4 & _ & Ph & Pt). rewrite A3 in A4. injection A4 as <- <-. eexists. split; [exact EA|]. cbn [edge_for e_head e_headpos e_tail e_tailpos hslot tslot fst snd].
    split; auto. split; [apply dr_place; auto|]. split; auto. apply dr_place; auto.
  - intros E. apply (f_equal (@length _)) in E. rewrite seq_length in E. cbn in E. lia.
  - intros k a b Ha Hb. rewrite seq_length in Hb. apply seq_nth_error in Ha as (-> & La). apply seq_nth_error in Hb as (-> & Lb). destruct (ED _ La) as (v & w & A1 & A2 & A3). destruct (ED _ Lb) as (v' & w' & B1 & B2 & B3).
    rewrite (rot_nth _ _ _ A1) in B2. injection B2 as <-. destruct (linked_edge _ _ _ A3) as (EA & _). destruct (linked_edge _ _ _ B3) as (EB & _). do 2 eexists. split; [exact EA|]. split; [exact EB|]. cbn. split; auto. symmetry. apply opposite.
Qed.
Lemma dr_drawing : drawing nc cs d /\ strand_partition d (blocks 0 Ys).
Proof.
  assert (SP : strand_partition d (blocks 0 Ys)).
  { split; [|rewrite blocks_concat; split; [apply seq_NoDup|]].
    - intros es H. apply In_nth_error in H as (c & H). destruct (dr_follows c es H) as (l & _ & _ & A & B). auto.
    - intros e. rewrite in_seq. unfold nedges. rewrite DE, map_length, linked_length. lia. }
  split; auto. split; [apply dr_recorded|]. split; [apply dr_through|]. split; [apply dr_ended|]. split; [apply dr_ncross|]. split; [apply dr_sign|]. exists (blocks 0 Ys). split; [rewrite blocks_length; auto|]. split; auto.
  intros c es H. destruct (dr_follows c es H) as (l & A & B & _). eauto.
Qed.
End Drawing.
