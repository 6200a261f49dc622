(** Polygons and diagrams: what pd_code_from_plCurve returns. *)
From Coq Require Import List NArith ZArith QArith Qabs Lia Lqa Bool Arith Permutation Sorted.
From Verif Require Import Base ListAux Iterators Sorting Pd PdSpec PdProofs PdCompsProofs Relabel RelabelProofs RelabelSym Strands OverUnderSpec SlotCount PdCross PdCrossProofs PdEdges PdComps PdFaces PdHash HashSpec PdRegen RegenSpec RegenProofs
  Thm_Pd Thm_Cross Thm_Edges Thm_Comps Thm_Faces Thm_Hash Thm_Regen Build Nearest Thm_Nearest Project ProjectSpec ProjectProofs ProjectDraw ProjectAssemble ProjectGeo ProjectFind.
Import ListNotations.
Open Scope nat_scope.
Open Scope res_scope.

(** ** crossings *)
(** In a projection that has been found clean, all crossings are found, each once, with the right strand above, the right
    sign and the right parameters; and nothing else is found. *)
Theorem crossings_found_exactly : forall solv srt L, sorts_all srt -> closed L ->
  projection_clean solv L = Ok true -> no_touching L ->
  exists cc, findcrossings solv srt L = Ok (Some cc) /\ all_crossings L cc.
Proof. intros solv srt L SR OP CL NT. apply found_all; auto. Qed.
Print Assumptions crossings_found_exactly.

(** ** from crossings to diagrams *)
(** The crossings determine a drawing, in which the strand of each component meets the crossings in the order of the
    parameters, over and under as recorded, with the recorded signs.  What is returned is this drawing up to the names
    of edges and crossings; and it is returned if it is connected and planar. *)
Theorem crossings_assembled : forall srt nc cs cs', sorts_all srt -> 0 < nc -> within nc cs -> completed nc cs cs' -> apart cs ->
  exists d0, drawing nc cs' d0 /\
    (forall d', build_diagram srt nc cs = Ok (Some d') -> exists sigma rho pi, relabelled d0 d' sigma rho pi /\ regular d' /\ ncomps d' = nc /\ pd_ok d' = Ok true) /\
    (planar d0 -> nc <= MAXCOMPONENTS d0 -> nc <= 64 -> exists d', build_diagram srt nc cs = Ok (Some d')) /\
    build_diagram srt nc cs <> Ok None.
Proof.
  intros srt nc cs cs' SR Hn W CP AP. destruct (assembles srt SR nc Hn cs cs' W CP AP) as (d0 & DR & MV & N0 & SG & SP & E). exists d0. split; auto. rewrite E. split; [|split].
  - intros d' H. eapply (assembled_back nc); eauto.
  - intros P M1 M2. eapply (assembled_total nc); eauto.
  - intros H. apply bind_ok in H as (d & _ & H). destruct (ncomps d =? nc); [|discriminate H]. apply bind_ok in H as (b & _ & H). destruct b; discriminate H.
Qed.
Print Assumptions crossings_assembled.

Lemma double_found : forall l k a b, nth_error l k = Some a -> nth_error l (k + 1) = Some b -> strand_compare b a = 0%Z -> double_crossing l = true.
Proof.
  induction l as [|x l IH]; intros k a b Ha Hb E; [destruct k; discriminate Ha|]. destruct l as [|y l]; [destruct k; [discriminate Hb|destruct k; discriminate Hb]|]. cbn [double_crossing]. apply orb_true_iff. destruct k as [|k].
  - cbn in Ha, Hb. injection Ha as <-. injection Hb as <-. left. apply Z.eqb_eq. auto.
  - right. apply (IH k a b); auto.
Qed.
Lemma tied_double : forall srt cs v w, sorts_all srt -> apart_or_tied cs -> passage cs v -> passage cs w -> v <> w -> xs_cmp v = xs_cmp w -> (xs_s v == xs_s w)%Q ->
  double_crossing (srt xstrand strand_compare (strands_of cs)) = true.
Proof.
  intros srt cs v w SR AT Hv Hw N EC ES. destruct (SR _ _ _ _ (strand_consistent cs AT)) as (P & ST). set (l := srt xstrand strand_compare (strands_of cs)) in *.
  assert (I : forall v, passage cs v -> In v l) by (intros u Hu; eapply Permutation_in; [symmetry; exact P|apply in_strands; auto]).
  destruct (In_nth_error _ _ (I v Hv)) as (i & Hi). destruct (In_nth_error _ _ (I w Hw)) as (j & Hj).
  assert (K : forall i j v w, i < j -> nth_error l i = Some v -> nth_error l j = Some w -> xs_cmp v = xs_cmp w -> (xs_s v == xs_s w)%Q -> double_crossing l = true).
  { clear - ST. intros i j v w Lt Hi Hj EC ES. assert (Lj : j < length l) by (apply nth_error_Some; congruence). destruct (nth_error l (i + 1)) as [x|] eqn:Q; [|apply nth_error_None in Q; lia].
    apply (double_found l i v x); auto. pose proof (sorted_nth _ _ ST i (i + 1) v x ltac:(lia) Hi Q) as A.
    assert (B : xs_cmp x = xs_cmp v /\ (xs_s x == xs_s v)%Q).
    { destruct (Nat.eq_dec (i + 1) j) as [E|E]; [rewrite E in Q; assert (x = w) by congruence; subst x; split; [auto|symmetry; auto]|].
      pose proof (sorted_nth _ _ ST (i + 1) j x w ltac:(lia) Q Hj) as B. destruct A as [A|(A & A')]; destruct B as [B|(B & B')]; try lia. split; [lia|lra]. }
    destruct B as (B1 & B2). unfold strand_compare. rewrite B1, Nat.eqb_refl. cbn [negb]. assert (QQ : Qltb (Qabs (xs_s x - xs_s v)) (tenth 8) = true); [|rewrite QQ; auto]. apply Qltb_lt. assert (Z : (xs_s x - xs_s v == 0)%Q) by lra. rewrite Z. reflexivity. }
  destruct (Nat.lt_trichotomy i j) as [Lt|[Eq|Gt]]; [apply (K i j v w); auto|exfalso; apply N; congruence|apply (K j i w v); auto; symmetry; auto].
Qed.
(** A component that passes twice through the same point gives no diagram, not a wrong one. *)
Theorem triple_point_refused : forall srt nc cs v w, sorts_all srt -> within nc cs -> all_visited nc cs -> apart_or_tied cs ->
  passage cs v -> passage cs w -> v <> w -> xs_cmp v = xs_cmp w -> (xs_s v == xs_s w)%Q -> build_diagram srt nc cs = Ok None.
Proof.
  intros srt nc cs v w SR W AV AT Hv Hw N EC ES. destruct (divided srt nc cs cs W ltac:(left; auto)) as (DV & _). unfold build_diagram. rewrite DV. cbn [bind fst snd]. unfold assemble_pdcode. rewrite (tied_double srt cs v w); auto.
Qed.
Print Assumptions triple_point_refused.
(** Several components of which one has no crossings: the program stops. *)
Theorem lone_component_fails : forall srt nc cs c, within nc cs -> 1 < nc -> c < nc -> (~ exists v, passage cs v /\ xs_cmp v = c) -> build_diagram srt nc cs = Fail.
Proof.
  intros srt nc cs c W N1 Hc H. unfold build_diagram, divide_crossings_by_component. rewrite (within_ok _ _ W). apply refs_none in H. assert (EX : existsb (Nat.eqb 0) (map (refs_size cs) (seq 0 nc)) = true).
  { apply existsb_exists. exists 0. split; auto. apply in_map_iff. exists c. split; auto. apply in_seq. lia. }
  rewrite EX. destruct (Nat.eqb_spec nc 1); [lia|]. reflexivity.
Qed.
Print Assumptions lone_component_fails.

(** ** polygons *)
Lemma generic_reached : forall solv thin nudge L tries n G0 G, reached nudge L n G0 -> generic_loop solv thin nudge tries n G0 = Ok (Some G) ->
  projection_clean solv G = Ok true /\ thin G = false /\ exists m, reached nudge L m G.
Proof.
  intros solv thin nudge L. induction tries as [|t IH]; intros n G0 G R H; [discriminate H|]. cbn [generic_loop] in H. destruct (thin G0) eqn:T; [discriminate H|]. apply bind_ok in H as (b & Hb & H). destruct b.
  - apply ok_inj in H. injection H as <-. split; auto. split; auto. eauto.
  - eapply IH; [|exact H]. constructor. auto.
Qed.
Lemma attempts_generic : forall solv srt thin nudge L tries a d', attempts solv srt thin nudge L tries a = Ok (Some d') ->
  exists b G, make_zprojection_generic solv thin (nudge b) L = Ok (Some G) /\ diagram_of_generic solv srt G = Ok (Some d').
Proof.
  intros solv srt thin nudge L. induction tries as [|t IH]; intros a d' H; [discriminate H|]. cbn [attempts] in H. apply bind_ok in H as (g & Hg & H). apply bind_ok in H as (o & Ho & H). destruct o as [d|].
  - apply ok_inj in H. injection H as <-. destruct g as [G|]; [|discriminate Ho]. eauto.
  - eapply IH; eauto.
Qed.
Lemma all_within : forall L cc, all_crossings L cc -> within (length L) cc.
Proof.
  intros L cc (A & _) x Hx. destruct (A x Hx) as (cu & iu & cl & il & su & sl & f & (a & b & c & d & EA & EB & _) & (R1 & R2 & _)). rewrite R1, R2. split; eapply edge_bounds; eauto.
Qed.
Lemma visited_dec : forall cs c, (exists v, passage cs v /\ xs_cmp v = c) \/ ~ exists v, passage cs v /\ xs_cmp v = c.
Proof.
  intros cs c. destruct (Nat.eq_dec (refs_size cs c) 0) as [E|E]; [right; apply refs_none; auto|]. left.
  destruct (filter (on c) (strands_of cs)) as [|v l] eqn:Q.
  - exfalso. apply E. rewrite <- refs_length, refs_strands, Q. reflexivity.
  - exists v. assert (I : In v (filter (on c) (strands_of cs))) by (rewrite Q; left; auto). apply filter_In in I as (I1 & I2). apply in_strands in I1. unfold on in I2. apply Nat.eqb_eq in I2. auto.
Qed.
Lemma all_visited_dec : forall nc cs, all_visited nc cs \/ exists c, c < nc /\ ~ exists v, passage cs v /\ xs_cmp v = c.
Proof.
  induction nc as [|n IH]; intros cs; [left; intros c; lia|]. destruct (IH cs) as [H|(c & H1 & H2)]; [|right; exists c; split; auto]. destruct (visited_dec cs n) as [K|K]; [|right; exists n; split; auto].
  left. intros c Hc. destruct (Nat.eq_dec c n) as [->|E]; auto. apply H. lia.
Qed.
Lemma build_completed : forall srt nc cs o, within nc cs -> build_diagram srt nc cs = Ok o -> exists cs', completed nc cs cs'.
Proof.
  intros srt nc cs o W H. destruct (all_visited_dec nc cs) as [AV|(c & Hc & K)]; [exists cs; left; auto|]. destruct (Nat.ltb_spec 1 nc) as [Lt|Ge]; [rewrite (lone_component_fails srt nc cs c) in H by auto; discriminate H|].
  exists [curl]. right. split; [|split; [lia|auto]]. destruct cs as [|x cs]; auto. exfalso. apply K. destruct (W x ltac:(left; auto)). exists (mkXs 0 (lower_cmp x) (lower_s x) false). split; [exists x; cbn; auto|cbn; lia].
Qed.
Lemma strand_eq_dec : forall cs v w, passage cs v -> passage cs w -> {v = w} + {v <> w}.
Proof.
  intros cs v w Hv Hw. destruct (Bool.bool_dec (xs_upper v) (xs_upper w)) as [U|U]; [|right; congruence]. destruct (Nat.eq_dec (xs_num v) (xs_num w)) as [I|I]; [|right; congruence]. left. apply (strands_key cs); auto. unfold vkey. congruence.
Qed.
(** Whatever is returned for a polygon is the diagram of the projection of a polygon with the same number of components,
    which is the given one after some of the perturbations. *)
Theorem polygon_diagram : forall solv srt thin nudge L d', sorts_all srt -> 0 < length L ->
  (forall a m G, reached (nudge a) L m G -> closed G /\ length G = length L) ->
  pd_code_from_plCurve solv srt thin nudge L = Ok (Some d') ->
  exists a m G, reached (nudge a) L m G /\ projection_clean solv G = Ok true /\
    (no_touching G -> exists cc, all_crossings G cc /\
      (apart_or_tied cc -> exists cs d0 sigma rho pi, completed (length L) cc cs /\ drawing (length L) cs d0 /\
         relabelled d0 d' sigma rho pi /\ regular d' /\ ncomps d' = length L /\ pd_ok d' = Ok true)).
Proof.
  intros solv srt thin nudge L d' SR HL HN H. apply attempts_generic in H as (a & G & HG & HD). unfold make_zprojection_generic in HG. destruct (generic_reached _ _ _ L _ _ _ _ (reached_start (nudge a) L) HG) as (CL & TH & m & R).
  destruct (HN a m G R) as (OP & LG). exists a, m, G. split; auto. split; auto. intros NT. destruct (crossings_found_exactly solv srt G SR OP CL NT) as (cc & FC & AC). exists cc. split; auto. intros AT.
  unfold diagram_of_generic in HD. rewrite FC in HD. cbn [bind] in HD. rewrite LG in HD. pose proof (all_within G cc AC) as W. rewrite LG in W. destruct (build_completed _ _ _ _ W HD) as (cs & CP).
  assert (AP : apart cc).
  { intros v w Hv Hw EC N. destruct (AT v w Hv Hw EC) as [K|K]; auto. exfalso. destruct CP as [(_ & AV)|(-> & _)].
    - rewrite (triple_point_refused srt (length L) cc v w) in HD by auto. discriminate HD.
    - destruct Hv as (x & Hx & _). destruct (xs_num v); discriminate Hx. }
  destruct (crossings_assembled srt (length L) cc cs SR HL W CP AP) as (d0 & DR & BK & _). destruct (BK d' HD) as (sigma & rho & pi & K). exists cs, d0, sigma, rho, pi. destruct K as (K1 & K2 & K3 & K4). repeat (split; [assumption|]). assumption.
Qed.
Print Assumptions polygon_diagram.
(** A polygon in general position is converted as it is, without perturbation. *)
Theorem generic_polygon_converted : forall solv srt thin nudge L cc cs, sorts_all srt -> 0 < length L -> closed L -> thin L = false ->
  projection_clean solv L = Ok true -> no_touching L -> findcrossings solv srt L = Ok (Some cc) -> completed (length L) cc cs -> apart cc ->
  exists d0, drawing (length L) cs d0 /\
    (forall d', pd_code_from_plCurve solv srt thin nudge L = Ok (Some d') -> exists sigma rho pi, relabelled d0 d' sigma rho pi /\ regular d' /\ ncomps d' = length L /\ pd_ok d' = Ok true) /\
    (planar d0 -> length L <= MAXCOMPONENTS d0 -> length L <= 64 -> exists d', pd_code_from_plCurve solv srt thin nudge L = Ok (Some d')).
Proof.
  intros solv srt thin nudge L cc cs SR HL OP TH CL NT FC CP AP. destruct (crossings_found_exactly solv srt L SR OP CL NT) as (cc' & FC' & AC). rewrite FC in FC'. apply ok_inj in FC'. injection FC' as <-.
  pose proof (all_within L cc AC) as W. destruct (crossings_assembled srt (length L) cc cs SR HL W CP AP) as (d0 & DR & BK & TT & NN). exists d0. split; auto.
  assert (E : forall d', pd_code_from_plCurve solv srt thin nudge L = Ok (Some d') <-> build_diagram srt (length L) cc = Ok (Some d')).
  { intros d'. unfold pd_code_from_plCurve. cbn [attempts]. unfold make_zprojection_generic at 1. cbn [generic_loop]. rewrite TH, CL. cbn [bind]. unfold diagram_of_generic at 1. rewrite FC. cbn [bind].
    destruct (build_diagram srt (length L) cc) as [[d|]| | |] eqn:Q; cbn [bind]; try reflexivity. contradiction. }
  split; [intros d' H; apply BK; apply E; auto|]. intros P M1 M2. destruct (TT P M1 M2) as (d' & H). exists d'. apply E. auto.
Qed.
Print Assumptions generic_polygon_converted.

(** ** a sorting function *)
Fixpoint insert_by {A} (cmp : A -> A -> Z) (x : A) (l : list A) : list A :=
  match l with [] => [x] | y :: l' => if Z.leb (cmp x y) 0 then x :: y :: l' else y :: insert_by cmp x l' end.
Definition insertion : sorter := fun A cmp l => fold_right (insert_by cmp) [] l.
Lemma insertion_sorts : sorts_all insertion.
Proof.
  intros A cmp le l (TR & CM).
  assert (IP : forall x m, Permutation (insert_by cmp x m) (x :: m)).
  { intros x. induction m as [|y m IH]; cbn; auto. destruct (Z.leb _ _); auto. rewrite IH. apply perm_swap. }
  assert (IS : forall x m, In x l -> incl m l -> StronglySorted le m -> StronglySorted le (insert_by cmp x m)).
  { intros x m Hx. induction m as [|y m IH]; intros HM SM; cbn; [repeat constructor|]. inversion SM as [|? ? S1 S2]; subst. assert (Hy : In y l) by (apply HM; left; auto). destruct (Z.leb_spec (cmp x y) 0) as [C|C].
    - constructor; auto. assert (L1 : le x y) by (apply (proj1 (CM x y Hx Hy)); auto). constructor; auto. rewrite Forall_forall in *. intros z Hz. apply (TR x y z); auto. apply HM. right; auto.
    - constructor; [apply IH; auto; intros z Hz; apply HM; right; auto|]. rewrite Forall_forall in *. intros z Hz. apply (Permutation_in _ (IP x m)) in Hz. destruct Hz as [<-|Hz]; auto. apply (proj2 (CM x y Hx Hy)). lia. }
  unfold insertion. assert (K : forall m, incl m l -> Permutation (fold_right (insert_by cmp) [] m) m /\ StronglySorted le (fold_right (insert_by cmp) [] m)).
  { induction m as [|x m IH]; intros HM; cbn; [split; constructor|]. destruct IH as (P & S1); [intros z Hz; apply HM; right; auto|]. split; [rewrite IP; constructor; auto|]. apply IS; auto; [apply HM; left; auto|]. intros z Hz. apply HM. right. eapply Permutation_in; eauto. }
  apply K. apply incl_refl.
Qed.

(** ** a trefoil *)
Definition pt (x y z : Z) : vec := mkVec (inject_Z x) (inject_Z y) (inject_Z z).
Definition trefoil_polygon : polygon := [mkStrand false [pt 3 0 (-2); pt 0 (-2) 1; pt 1 3 (-3); pt 1 (-1) 1; pt (-3) (-2) (-3); pt (-2) (-1) 3]]%Z.
Definition solves : seg -> seg -> bool := fun _ _ => true.
Definition trefoil_crossings : list xrec := match findcrossings solves insertion trefoil_polygon with Ok (Some cc) => cc | _ => [] end.
Definition same_heights (L : polygon) (p : (nat * nat) * (nat * nat)) : bool :=
  match seg_of L (fst p), seg_of L (snd p) with
  | Ok A, Ok B => match locate_crossing solves A B with Some (s, t) => Qeq_bool (height A s) (height B t) | None => true end
  | _, _ => true
  end.
Lemma no_touching_check : forall L, projection_clean solves L = Ok true -> forallb (fun p => negb (same_heights L p)) (edge_pairs L) = true -> no_touching L.
Proof.
  intros L CL H. rewrite forallb_forall in H.
  assert (K : forall c i c' i' a b a' b' s t, In ((c, i), (c', i')) (edge_pairs L) -> edge_from_to L c i a b -> edge_from_to L c' i' a' b' -> cross_at a b a' b' s t -> ~ (vz (between a b s) == vz (between a' b' t))%Q).
  { intros c i c' i' a b a' b' s t Hp EA EB X E. pose proof (proj2 (seg_of_spec L (c, i) (a, b)) EA) as EA'. pose proof (proj2 (seg_of_spec L (c', i') (a', b')) EB) as EB'. specialize (H _ Hp). unfold same_heights in H. cbn [fst snd] in H. rewrite EA', EB' in H.
    destruct (no_trouble_spec _ _ _ CL _ _ Hp) as (A & B & HA & HB & TT). rewrite EA' in HA. apply ok_inj in HA. subst A. rewrite EB' in HB. apply ok_inj in HB. subst B.
    destruct (clean_cross solves (a, b) (a', b') TT) as [(_ & _ & _ & s' & t' & LC & X')|(_ & N)]; [|apply (N s t X)]. rewrite LC in H. cbn [fst snd] in X'. destruct (cross_params _ _ _ _ _ _ _ _ X X') as (Es & Et).
    apply negb_true_iff in H. assert (Q : Qeq_bool (height (a, b) s') (height (a', b') t') = true); [|congruence]. apply Qeq_bool_iff. rewrite !height_between. cbn [fst snd]. unfold between in *. cbn in *. rewrite Es, Et in E. exact E. }
  intros c i c' i' a b a' b' s t EA EB X. destruct (crossing_pair _ _ _ _ _ _ _ _ _ _ _ EA EB X) as [Hp|Hp]; [eapply K; eauto|]. intros E. eapply (K c' i' c i); eauto; [apply cross_at_sym; eauto|symmetry; auto].
Qed.
Definition far (v w : xstrand) : bool := negb (xs_cmp v =? xs_cmp w) || ((xs_num v =? xs_num w) && Bool.eqb (xs_upper v) (xs_upper w)) || Qle_bool (tenth 8) (Qabs (xs_s v - xs_s w)).
Lemma apart_check : forall cs, forallb (fun v => forallb (far v) (strands_of cs)) (strands_of cs) = true -> apart cs.
Proof.
  intros cs H v w Hv Hw EC N. rewrite forallb_forall in H. specialize (H v (proj2 (in_strands cs v) Hv)). rewrite forallb_forall in H. specialize (H w (proj2 (in_strands cs w) Hw)). unfold far in H. apply orb_true_iff in H as [H|H]; [apply orb_true_iff in H as [H|H]|].
  - rewrite EC, Nat.eqb_refl in H. discriminate H.
  - exfalso. apply N. apply andb_true_iff in H as (H1 & H2). apply Nat.eqb_eq in H1. apply Bool.eqb_prop in H2. apply (strands_key cs); auto. unfold vkey. congruence.
  - apply Qle_bool_iff. auto.
Qed.
Example trefoil_polygon_found : closed trefoil_polygon /\ projection_clean solves trefoil_polygon = Ok true /\ no_touching trefoil_polygon /\
  findcrossings solves insertion trefoil_polygon = Ok (Some trefoil_crossings) /\ length trefoil_crossings = 3 /\ completed 1 trefoil_crossings trefoil_crossings /\ apart trefoil_crossings.
Proof.
  assert (CL : projection_clean solves trefoil_polygon = Ok true) by (vm_compute; reflexivity). split; [intros s [<-|[]]; reflexivity|]. split; auto. split; [apply no_touching_check; auto; vm_compute; reflexivity|]. split; [vm_compute; reflexivity|]. split; [vm_compute; reflexivity|]. split; [|apply apart_check; vm_compute; reflexivity].
  left. split; auto. intros c Hc. replace c with 0 by lia. destruct (in_strands trefoil_crossings (nth 0 (strands_of trefoil_crossings) nov)) as (K & _). exists (nth 0 (strands_of trefoil_crossings) nov). split; [apply K; apply nth_In; vm_compute; lia|vm_compute; reflexivity].
Qed.
Example trefoil_polygon_converted : exists d, pd_code_from_plCurve solves insertion (fun _ => false) (fun _ _ G => G) trefoil_polygon = Ok (Some d) /\ ncross d = 3 /\ ncomps d = 1 /\ map csign (p_cross d) = [Pos; Pos; Pos] /\ pd_ok d = Ok true.
Proof. eexists. split; [vm_compute; reflexivity|]. vm_compute. auto. Qed.
Example trefoil_polygon_meets : exists d', pd_code_from_plCurve solves insertion (fun _ => false) (fun _ _ G => G) trefoil_polygon = Ok (Some d') /\ sorts_all insertion /\ 0 < length trefoil_polygon /\
  (forall (a : nat) m G, reached (fun _ G => G) trefoil_polygon m G -> closed G /\ length G = length trefoil_polygon) /\ apart_or_tied trefoil_crossings.
Proof.
  destruct trefoil_polygon_converted as (d & E & _). exists d. split; auto. split; [exact insertion_sorts|]. split; [cbn; lia|]. split; [|apply apart_weaken; apply trefoil_polygon_found].
  intros a m G R. assert (G = trefoil_polygon) by (induction R; auto). subst G. split; [apply trefoil_polygon_found|auto].
Qed.
(** a round triangle is an unknot with a curl; two linked triangles *)
Example triangle_converted : exists d, pd_code_from_plCurve solves insertion (fun _ => false) (fun _ _ G => G) [mkStrand false [pt 0 0 0; pt 3 0 0; pt 0 3 0]] = Ok (Some d) /\ ncross d = 1 /\ ncomps d = 1.
Proof. eexists. split; [vm_compute; reflexivity|]. vm_compute. auto. Qed.
Definition hopf_polygon : polygon := [mkStrand false [pt 0 0 0; pt 6 1 0; pt 0 7 0]; mkStrand false [pt 1 2 (-3); pt 12 3 1; pt 2 4 3]]%Z.
Example hopf_converted : exists d, pd_code_from_plCurve solves insertion (fun _ => false) (fun _ _ G => G) hopf_polygon = Ok (Some d) /\ ncross d = 2 /\ ncomps d = 2.
Proof. eexists. split; [vm_compute; reflexivity|]. vm_compute. auto. Qed.
Example apart_triangles_fail : build_diagram insertion 2 [] = Fail.
Proof. reflexivity. Qed.
(** three strands of a component through a point *)
Example triple_point_seen : build_diagram insertion 1 [mkX 0 0 (1 # 2) (5 # 2) 1; mkX 0 0 (7 # 2) (1 # 2) 1] = Ok None.
Proof. vm_compute. reflexivity. Qed.
