(** C25: the isomorphisms that are found are isomorphisms. *)
From Coq Require Import List ZArith Lia Bool Arith Permutation.
From Verif Require Import Base PdCross Iterators PermData Perm PermProofs Pd PdSpec PdProofs PdExamples Relabel HashSpec OverUnder PdIso IsoSpec DiagIso IsoSound.
Import ListNotations.
Open Scope nat_scope.

(** the diagram's component lengths are 32-bit numbers *)
Definition lengths_fit (d : pd) : Prop := forall C, In C (p_comp d) -> (Z.of_nat (length (cp_edge C)) <= 2 ^ 32)%Z.

(** what an isomorphism record says: crossings, edges, components and faces correspond, with the spin of the
    crossings, the sense of the faces and the direction of each component as recorded *)
Definition describes (A B : pd) (i : iso) : Prop :=
  exists kc dir,
    isomorphism A B kc (fun e => nth e (pmap (em_perm (i_edge i))) 0) (fun c => nth c (pmap (i_comp i)) 0)
      (fun f => nth f (pmap (om_perm (i_face i))) 0)
      (match i_cross i with Some x => om_or x | None => Pos end) (om_or (i_face i)) dir /\
    (forall x, i_cross i = Some x -> forall c, kc c = nth c (pmap (om_perm x)) 0) /\
    (forall c C e, nth_error (p_comp A) c = Some C -> In e (cp_edge C) -> nth_error (em_or (i_edge i)) e = Some (dir c)) /\
    (forall c, c < ncomps A -> sign_like (dir c)).

Theorem build_isos_sound : forall A B l i, lengths_fit B -> pd_build_isos A B = Ok l -> In i l -> describes A B i.
Proof.
  intros A B l i W H I. pose proof (build_isos_in _ _ _ _ _ _ H I) as K. apply consistent_sound in K as [V1 V2 V3]; auto.
  exists (cross_fun i), (dir_of A i). split; [exact V1|]. split; [|auto]. intros x E c. unfold cross_fun. rewrite E. auto.
Qed.
Theorem build_map_isos_sound : forall A B l i, lengths_fit B -> pd_build_map_isomorphisms A B = Ok l -> In i l -> describes A B i.
Proof.
  intros A B l i W H I. pose proof (build_isos_in _ _ _ _ _ _ H I) as K. apply consistent_sound in K as [V1 V2 V3]; auto.
  exists (cross_fun i), (dir_of A i). split; [exact V1|]. split; [|auto]. intros x E c. unfold cross_fun. rewrite E. auto.
Qed.
Theorem isomorphic_sound : forall A B, lengths_fit B -> pd_isomorphic A B = Ok true ->
  exists kc ke kp kf spin round dir, isomorphism A B kc ke kp kf spin round dir.
Proof.
  intros A B W H. unfold pd_isomorphic in H. apply bind_ok in H as (l & H & E). injection E as E.
  destruct l as [|i l]; [discriminate|]. pose proof (build_isos_in _ _ _ _ _ _ H (or_introl eq_refl)) as K.
  apply consistent_sound in K as [V1 _ _]; auto. do 7 eexists. exact V1.
Qed.
Lemma kept : forall A B em cp l r i, add_isos A B false cp em l = Ok r -> In i r -> exists x f, In (x, f) l /\ i = mkIso cp em x f.
Proof.
  induction l as [|(x, f) l IH]; intros r i H I; cbn [add_isos] in H; [injection H as <-; destruct I|].
  apply bind_ok in H as (b & H1 & H). apply assert_ok in H as (-> & H).
  apply bind_ok in H as (r' & H2 & H). injection H as <-. destruct I as [<-|I]; [exists x, f; cbn; auto|].
  destruct (IH _ _ H2 I) as (x' & f' & K & E). exists x', f'. cbn. auto.
Qed.
Lemma map_ok_combine : forall X Y (f : X -> res Y) l m, map_ok f l = Ok m -> forall Z (z : list Z) x y w, In (x, (y, w)) (combine m (combine l z)) -> f y = Ok x.
Proof.
  induction l as [|a l IH]; intros m H Z z x y w I; cbn [map_ok] in H; [injection H as <-; destruct I|].
  apply bind_ok in H as (b & Hb & H). apply bind_ok in H as (m' & Hm & H). injection H as <-.
  destruct z as [|c z]; [destruct I|]. cbn in I. destruct I as [I|I]; [injection I as <- <- <-; auto|]. eapply IH; eauto.
Qed.
(** map isomorphisms turn no crossing over *)
Theorem map_isos_positive : forall A B l i, pd_build_map_isomorphisms A B = Ok l -> In i l ->
  exists x, i_cross i = Some x /\ om_or x = Pos.
Proof.
  intros A B l i H I. unfold pd_build_map_isomorphisms, build_isos in H. destruct (negb _); [injection H as <-; destruct I|].
  apply bind_ok in H as ([grps|] & _ & H); [|injection H as <-; destruct I].
  apply bind_ok in H as (cps & _ & H). apply bind_ok in H as (cps' & _ & H). apply bind_ok in H as (r & H & HC).
  assert (I' : In i r).
  { unfold collect in HC. destruct r; [injection HC as <-; auto|]. apply bind_ok in HC as (u & _ & HC). apply assert_ok in HC as (_ & HC).
    injection HC as <-. apply in_rev; auto. }
  apply search_in with (i := i) in H as (cp & a & _ & H & Ia); auto. unfold from_compperm in H.
  apply bind_ok in H as (ems & _ & H). apply bind_ok in H as (b & _ & H). apply assert_ok in H as (_ & H).
  apply search_in with (i := i) in H as (em & a' & _ & H & Ia'); auto. unfold from_edgemap in H.
  apply bind_ok in H as (xs & _ & H). apply bind_ok in H as (fs & _ & H). apply assert_ok in H as (_ & H).
  apply bind_ok in H as (ks & HK & H). apply kept with (i := i) in H as (x & f & HI & ->); auto. cbn [i_cross].
  apply in_map_iff in HI as ((k & x' & f') & E & HI). cbn in E. injection E as -> ->. apply filter_In in HI as (HI & Ek). cbn in Ek. subst k.
  apply (map_ok_combine _ _ _ _ _ HK) in HI. unfold keep_pos in HI. destruct x as [x|]; [|discriminate]. exists x. split; auto.
  injection HI as HI. destruct (om_or x); auto; discriminate.
Qed.

(** ** Satisfiability *)
Example trefoil_isos : exists l, pd_build_isos trefoil trefoil = Ok l /\ length l = 12 /\ lengths_fit trefoil.
Proof.
  eexists. split; [vm_compute; reflexivity|]. split; [reflexivity|]. intros C [<-|[]]. cbn. lia.
Qed.
Example hopf_isomorphic : pd_isomorphic hopf hopf = Ok true /\ lengths_fit hopf.
Proof. split; [vm_compute; reflexivity|]. intros C [<-|[<-|[]]]; cbn; lia. Qed.
Print Assumptions build_isos_sound.
Print Assumptions build_map_isos_sound.
Print Assumptions isomorphic_sound.
Print Assumptions map_isos_positive.
