(** pd_build_torus_knot. *)
From Coq Require Import List ZArith Lia Bool Arith Permutation Relations.
From Verif Require Import Base ListAux Iterators Pd PdSpec Relabel RelabelProofs Build BuildSpec Layout Table.
Import ListNotations.
Open Scope nat_scope.

Ltac inv_places :=
  repeat match goal with
  | I : In _ (_ ++ _) |- _ => apply in_app_or in I as [I|I]
  | I : In _ (_ :: _) |- _ => destruct I as [I|I]
  | I : In _ [] |- _ => destruct I
  | I : In _ (map _ (seq _ _)) |- _ => let i := fresh "i" in let Q := fresh "Q" in let J := fresh "J" in apply in_map_iff in I as (i & Q & J); apply in_seq in J
  | I : In _ (concat (map _ (seq _ _))) |- _ => let l := fresh "l" in let J := fresh "J" in apply in_concat in I as (l & J & I)
  end.

Section Torus.
Context (q : nat) (Hq : 2 <= q).
Definition ta (i : nat) : nat := if Nat.even i then i else q + i.
Definition tb (i : nat) : nat := if Nat.even i then q + i else i.
Definition tprev (i : nat) : nat := if i =? 0 then q - 1 else i - 1.
Definition torus_V (c p : nat) : nat := match p with 0 => ta c | 1 => ta (tprev c) | 2 => tb (tprev c) | _ => tb c end.
Definition tnext (i : nat) : nat := (i + 1) mod q.
Lemma tnext_cases : forall i, i < q -> (i + 1 < q /\ tnext i = i + 1) \/ (i + 1 = q /\ tnext i = 0).
Proof.
  intros i Hi. unfold tnext. destruct (Nat.eq_dec (i + 1) q) as [E|E]; [right|left]; split; try lia; [rewrite E; apply Nat.mod_same; lia|apply Nat.mod_small; lia].
Qed.
Lemma tnext_lt : forall i, i < q -> tnext i < q.
Proof. intros i Hi. destruct (tnext_cases i Hi); lia. Qed.
Lemma tprev_lt : forall i, i < q -> tprev i < q.
Proof. intros i Hi. unfold tprev. destruct (Nat.eqb_spec i 0); lia. Qed.
Lemma tprev_next : forall i, i < q -> tprev (tnext i) = i.
Proof. intros i Hi. destruct (tnext_cases i Hi) as [(L & ->)|(L & ->)]; unfold tprev; [destruct (Nat.eqb_spec (i + 1) 0)|cbn]; lia. Qed.
Lemma tnext_prev : forall i, i < q -> tnext (tprev i) = i.
Proof. intros i Hi. destruct (tnext_cases (tprev i) (tprev_lt i Hi)) as [(L & ->)|(L & ->)]; revert L; unfold tprev; destruct (Nat.eqb_spec i 0); lia. Qed.
Lemma tnext_neq : forall i, i < q -> tnext i <> i.
Proof. intros i Hi. destruct (tnext_cases i Hi) as [(L & ->)|(L & ->)]; lia. Qed.
Lemma tprev_neq : forall i, i < q -> tprev i <> i.
Proof. intros i Hi. unfold tprev. destruct (Nat.eqb_spec i 0); lia. Qed.
Lemma tab : forall i, i < q -> (ta i = i /\ tb i = q + i) \/ (ta i = q + i /\ tb i = i).
Proof. intros i Hi. unfold ta, tb. destruct (Nat.even i); auto. Qed.

Lemma torus_wires_ok : forall s t, In (s, t) (torus_wires q) -> twire q torus_V s t.
Proof.
  intros s t I. unfold torus_wires in I. apply in_flat_map in I as (i & J & I). apply in_seq in J. fold (tnext i) in I.
  pose proof (tnext_lt i ltac:(lia)) as L. pose proof (tnext_neq i ltac:(lia)) as NE.
  destruct I as [I|[I|[]]]; apply pair_equal_spec in I as (<- & <-); unfold twire, tplace; cbn [fst snd torus_V]; rewrite tprev_next by lia;
    (split; [intros Q; apply pair_equal_spec in Q; lia|]); repeat split; lia.
Qed.
Lemma wire_a : forall i, i < q -> twire q torus_V (i, 0) (tnext i, 1).
Proof. intros i Hi. apply torus_wires_ok, in_flat_map. exists i. split; [apply in_seq; lia|left; auto]. Qed.
Lemma wire_b : forall i, i < q -> twire q torus_V (i, 3) (tnext i, 2).
Proof. intros i Hi. apply torus_wires_ok, in_flat_map. exists i. split; [apply in_seq; lia|right; left; auto]. Qed.
Lemma twire_sym : forall n V s t, twire n V s t -> twire n V t s.
Proof. intros n V s t (N & A & B & E). repeat split; auto; apply A || apply B. Qed.

Definition torus_faces : list (list (nat * nat)) :=
  map (fun i => (i, 1)) (seq 0 q) :: map (fun i => (q - 1 - i, 3)) (seq 0 q) :: map (fun i => [(i, 0); (tnext i, 2)]) (seq 0 q).
Definition torus_col (e : nat) : nat := if Nat.even q then (if e <? q then 0 else 1) else 0.
Definition torus_comps : nat := if Nat.even q then 2 else 1.

Lemma torus_step : forall i, i + 1 < q -> tacross q torus_V i (i + 1) /\ tacross q torus_V (q + i) (q + (i + 1)).
Proof.
  intros i Hi. assert (P : tprev (i + 1) = i) by (unfold tprev; destruct (Nat.eqb_spec (i + 1) 0); lia).
  assert (E : Nat.even (i + 1) = negb (Nat.even i)) by (rewrite Nat.add_1_r, Nat.even_succ, <- Nat.negb_even; auto).
  destruct (Nat.even i) eqn:Ei.
  - split; [exists (i + 1), 1|exists (i + 1), 2]; unfold torus_V, ta, tb; cbn [Nat.modulo Nat.divmod Nat.add Nat.sub fst snd]; rewrite ?P, E, ?Ei; cbn; rewrite ?P, ?E, ?Ei; cbn; repeat split; lia.
  - split; [exists (i + 1), 2|exists (i + 1), 1]; unfold torus_V, ta, tb; cbn [Nat.modulo Nat.divmod Nat.add Nat.sub fst snd]; rewrite ?P, E, ?Ei; cbn; rewrite ?P, ?E, ?Ei; cbn; repeat split; lia.
Qed.
Lemma torus_conn : forall i, i < q -> clos_refl_sym_trans nat (tacross q torus_V) 0 i /\ clos_refl_sym_trans nat (tacross q torus_V) q (q + i).
Proof.
  induction i as [|i IH]; intros Hi; [split; [apply rst_refl|rewrite Nat.add_0_r; apply rst_refl]|].
  destruct (IH ltac:(lia)) as (I1 & I2). destruct (torus_step i ltac:(lia)) as (S1 & S2). rewrite Nat.add_1_r in *.
  split; [eapply rst_trans; [exact I1|]|eapply rst_trans; [exact I2|]]; apply rst_step; auto.
Qed.
Lemma torus_join : Nat.even q = false -> tacross q torus_V 0 (2 * q - 1).
Proof.
  intros E. exists 0, 0. unfold torus_V, ta, tb, tprev. cbn [Nat.eqb Nat.even]. assert (E' : Nat.even (q - 1) = true).
  { destruct q as [|q']; [lia|]. rewrite Nat.even_succ, <- Nat.negb_even in E. cbn. rewrite Nat.sub_0_r. destruct (Nat.even q'); [reflexivity|discriminate]. }
  cbn. rewrite E'. repeat split; lia.
Qed.

Lemma torus_table : table q torus_V torus_comps torus_faces torus_col.
Proof.
  constructor; auto.
  - intros c p Hc Hp. pose proof (tprev_lt c Hc) as L. destruct (tab c Hc), (tab _ L), (small4 p Hp) as [->|[->|[->| ->]]]; cbn [torus_V]; lia.
  - intros e He. assert (X : exists i, i < q /\ (ta i = e \/ tb i = e)).
    { destruct (Nat.lt_ge_cases e q) as [L|L]; [exists e|exists (e - q)]; (split; [lia|]); [destruct (tab e); lia|destruct (tab (e - q)); lia]. }
    destruct X as (i & Hi & [Q|Q]).
    + destruct (wire_a i Hi) as (N & A & B & E). do 2 eexists. split; [exact N|]. split; auto. split; auto. rewrite <- E. split; exact Q.
    + destruct (wire_b i Hi) as (N & A & B & E). do 2 eexists. split; [exact N|]. split; auto. split; auto. rewrite <- E. split; exact Q.
  - intros c Hc. pose proof (tprev_lt c Hc) as L. pose proof (tprev_neq c Hc) as N. cbn [torus_V]. destruct (tab c Hc), (tab _ L); lia.
  - intros f I. destruct I as [<-|[<-|I]].
    + split; [destruct q; [lia|discriminate]|]. apply cyclic_seq; [lia| |].
      * intros i Hi. unfold turn. cbn. destruct (tnext_cases i ltac:(lia)) as [(L & Q)|(L & Q)]; [|lia]. rewrite <- Q. apply wire_a. lia.
      * unfold turn. cbn. destruct (tnext_cases (q - 1) ltac:(lia)) as [(L & Q)|(L & Q)]; [lia|]. pose proof (wire_a (q - 1) ltac:(lia)) as W. rewrite Q in W. exact W.
    + split; [destruct q; [lia|discriminate]|]. apply cyclic_seq; [lia| |].
      * intros i Hi. unfold turn. cbn [fst snd]. apply twire_sym. destruct (tnext_cases (q - 1 - (i + 1)) ltac:(lia)) as [(L & Q)|(L & Q)]; [|lia].
        replace (q - 1 - i) with (tnext (q - 1 - (i + 1))) by lia. apply wire_b. lia.
      * unfold turn. cbn [fst snd]. apply twire_sym. destruct (tnext_cases (q - 1) ltac:(lia)) as [(L & Q)|(L & Q)]; [lia|].
        replace (q - 1 - (q - 1)) with (tnext (q - 1)) by lia. rewrite Nat.sub_0_r. apply wire_b. lia.
    + apply in_map_iff in I as (i & <- & J). apply in_seq in J. split; [discriminate|]. apply cyclic2; unfold turn; cbn; [apply wire_b; lia|apply twire_sym, wire_a; lia].
  - unfold torus_faces. cbn [concat]. rewrite !app_length, !map_length, !seq_length. rewrite (length_flat2 _ _ 2), seq_length by reflexivity. lia.
  - intros c p Hc Hp. unfold torus_faces. cbn [concat]. destruct (small4 p Hp) as [->|[->|[->| ->]]].
    + apply in_or_app. right. apply in_or_app. right. apply in_concat. exists [(c, 0); (tnext c, 2)]. split; [apply in_map_iff; exists c; split; auto; apply in_seq; lia|left; auto].
    + apply in_or_app. left. apply in_map_iff. exists c. split; auto. apply in_seq; lia.
    + apply in_or_app. right. apply in_or_app. right. apply in_concat. exists [(tprev c, 0); (tnext (tprev c), 2)]. pose proof (tprev_lt c Hc). split; [apply in_map_iff; exists (tprev c); split; auto; apply in_seq; lia|].
      right. left. rewrite tnext_prev; auto.
    + apply in_or_app. right. apply in_or_app. left. apply in_map_iff. exists (q - 1 - c). split; [f_equal; lia|apply in_seq; lia].
  - intros s I. unfold torus_faces in I. cbn [concat] in I. inv_places; subst; unfold tplace; cbn [fst snd]; try lia.
    inv_places; subst; cbn [fst snd]; pose proof (tnext_lt i); lia.
  - unfold torus_faces. cbn [length]. rewrite map_length, seq_length. lia.
  - intros f [<-|[<-|I]]; [rewrite map_length, seq_length; lia|rewrite map_length, seq_length; lia|]. apply in_map_iff in I as (i & <- & _). cbn. lia.
  - intros c Hc. unfold torus_col. destruct (Nat.even q) eqn:E; auto. unfold torus_V. pose proof (tprev_lt c Hc) as L.
    assert (PE : Nat.even (tprev c) = negb (Nat.even c)).
    { unfold tprev. destruct (Nat.eqb_spec c 0) as [->|]; [|destruct c; [lia|]; rewrite Nat.even_succ, <- Nat.negb_even, negb_involutive; f_equal; lia].
      clear - E Hq. destruct q; [lia|]. cbn [Nat.even negb]. rewrite Nat.even_succ, <- Nat.negb_even in E. rewrite <- (negb_involutive (Nat.even (S n - 1))). cbn. rewrite Nat.sub_0_r, E. reflexivity. }
    unfold ta, tb. rewrite PE. destruct (Nat.even c); cbn [negb].
    + split; repeat match goal with |- context [?a <? ?b] => destruct (Nat.ltb_spec a b) end; auto; lia.
    + split; repeat match goal with |- context [?a <? ?b] => destruct (Nat.ltb_spec a b) end; auto; lia.
  - intros e He. unfold torus_col, torus_comps. destruct (Nat.even q); [destruct (e <? q)|]; lia.
  - intros i Hi. unfold torus_col, torus_comps in *. destruct (Nat.even q); [|exists 0; lia]. destruct i as [|[|i]]; [exists 0|exists q|lia]; (split; [lia|]).
    + destruct (Nat.ltb_spec 0 q); lia.
    + destruct (Nat.ltb_spec q q); lia.
  - assert (A : forall e, e < 2 * q -> clos_refl_sym_trans nat (tacross q torus_V) (if e <? q then 0 else q) e).
    { intros e He. destruct (Nat.ltb_spec e q); [apply torus_conn; auto|]. destruct (torus_conn (e - q) ltac:(lia)) as (_ & K). replace (q + (e - q)) with e in K by lia. auto. }
    assert (J : Nat.even q = false -> clos_refl_sym_trans nat (tacross q torus_V) 0 q).
    { intros E. pose proof (torus_join E) as T. eapply rst_trans; [apply rst_step; exact T|]. apply rst_sym. destruct (torus_conn (q - 1) ltac:(lia)) as (_ & K). replace (q + (q - 1)) with (2 * q - 1) in K by lia. auto. }
    intros e e' He He' Q. pose proof (A e He) as A1. pose proof (A e' He') as A2. unfold torus_col in Q. destruct (Nat.even q) eqn:E.
    + destruct (e <? q), (e' <? q); try discriminate; (eapply rst_trans; [apply rst_sym; exact A1|exact A2]).
    + specialize (J eq_refl). destruct (e <? q), (e' <? q).
      * eapply rst_trans; [apply rst_sym; exact A1|exact A2].
      * eapply rst_trans; [apply rst_sym; exact A1|]. eapply rst_trans; [exact J|exact A2].
      * eapply rst_trans; [apply rst_sym; exact A1|]. eapply rst_trans; [apply rst_sym; exact J|exact A2].
      * eapply rst_trans; [apply rst_sym; exact A1|exact A2].
  - intros c Hc. destruct (wire_a (c - 1) ltac:(lia)) as (_ & _ & _ & E). destruct (tnext_cases (c - 1) ltac:(lia)) as [(L & Q)|(L & Q)]; [|lia]. rewrite Q in E. cbn [fst snd] in E.
    exists (c - 1), 1, 0. replace (c - 1 + 1) with c in E by lia. repeat split; auto; lia.
  - unfold torus_comps. destruct (Nat.even q); [lia|]. lia.
Qed.

Definition torus_X (c : nat) : crossing := pd_build_cross (torus_V c 0) (torus_V c 1) (torus_V c 2) (torus_V c 3).
Lemma even_mod : forall i, (i mod 2 =? 0) = Nat.even i.
Proof.
  intros i. destruct (Nat.Even_or_Odd i) as [(k & ->)|(k & ->)].
  - rewrite Nat.even_mul. cbn [Nat.even orb]. rewrite Nat.mul_comm, Nat.mod_mul by lia. reflexivity.
  - rewrite Nat.even_add, Nat.even_mul. cbn [Nat.even orb Bool.eqb]. rewrite Nat.add_comm, Nat.mul_comm, Nat.mod_add by lia. reflexivity.
Qed.
Lemma torus_writes_ok : forall c x, In (c, x) (torus_writes q) -> c < q /\ x = torus_X c.
Proof.
  intros c x [I|I].
  - apply pair_equal_spec in I as (<- & <-). split; [lia|]. rewrite even_mod. unfold torus_X, torus_V, ta, tb, tprev. cbn [Nat.eqb Nat.even].
    assert (E' : Nat.even (q - 1) = negb (Nat.even q)) by (destruct q as [|q']; [lia|]; rewrite Nat.even_succ, <- Nat.negb_even, negb_involutive; f_equal; lia).
    rewrite E'. destruct (Nat.even q); cbn [negb]; f_equal; lia.
  - apply in_map_iff in I as (i & Q & J). apply in_seq in J. rewrite even_mod in Q. cbv zeta in Q.
    destruct (Nat.Even_or_Odd i) as [(k & K)|(k & K)].
    + assert (E : Nat.even i = true) by (rewrite K, Nat.even_mul; reflexivity). rewrite E in Q. replace (i / 2) with k in Q by (rewrite K, Nat.mul_comm, Nat.div_mul; lia). rewrite <- K in Q.
      apply pair_equal_spec in Q as (<- & <-). split; [lia|]. rewrite !Nat.mod_small by lia. unfold torus_X, torus_V, ta, tb, tprev. destruct (Nat.eqb_spec i 0); [lia|].
      assert (E' : Nat.even (i - 1) = false) by (replace (i - 1) with (2 * (k - 1) + 1) by lia; rewrite Nat.even_add, Nat.even_mul; reflexivity).
      rewrite E, E'. f_equal; lia.
    + assert (E : Nat.even i = false) by (rewrite K, Nat.even_add, Nat.even_mul; reflexivity). rewrite E in Q. replace ((i - 1) / 2) with k in Q by (rewrite K, Nat.add_sub, Nat.mul_comm, Nat.div_mul; lia).
      apply pair_equal_spec in Q as (<- & <-). rewrite <- K. split; [lia|]. rewrite !Nat.mod_small by lia. unfold torus_X, torus_V, ta, tb, tprev. destruct (Nat.eqb_spec i 0); [lia|].
      assert (E' : Nat.even (i - 1) = true) by (replace (i - 1) with (2 * k) by lia; rewrite Nat.even_mul; reflexivity).
      rewrite E, E'. f_equal; lia.
Qed.
Lemma torus_writes_all : forall c, c < q -> exists x, In (c, x) (torus_writes q).
Proof.
  intros c Hc. destruct (Nat.eq_dec c 0) as [->|Z]; [eexists; left; reflexivity|]. unfold torus_writes.
  destruct (c mod 2 =? 0) eqn:E.
  - eexists. right. apply in_map_iff. exists c. split; [|apply in_seq; lia]. rewrite E. f_equal. rewrite even_mod in E. apply Nat.even_spec in E as (k & ->). rewrite (Nat.mul_comm 2 k), Nat.div_mul; lia.
  - eexists. right. apply in_map_iff. exists c. split; [|apply in_seq; lia]. rewrite E. f_equal. rewrite even_mod in E. assert (O : Nat.odd c = true) by (rewrite <- Nat.negb_even, E; auto).
    apply Nat.odd_spec in O as (k & ->). rewrite Nat.add_sub, (Nat.mul_comm 2 k), Nat.div_mul; lia.
Qed.
Lemma torus_ok : built_as (pd_build_torus_knot 2 q) q torus_comps (torus_wires q).
Proof.
  unfold pd_build_torus_knot. cbn [Nat.eqb]. destruct (Nat.ltb_spec q 2); [lia|]. cbn [negb]. replace (q * (2 - 1)) with q by lia.
  rewrite <- (app_nil_r (torus_writes q)). rewrite (with_crossings_ok q (torus_writes q) [] torus_X); auto.
  - cbn [bind]. apply (table_built q torus_V (fun c => c) (fun _ => 0) (fun e => e) (fun e => e)) with (FS := torus_faces) (col := torus_col).
    + split; auto.
    + intros; lia.
    + auto.
    + auto.
    + intros c p Hc Hp. rewrite Nat.add_0_r, Nat.mod_small by auto. destruct (small4 p Hp) as [->|[->|[->| ->]]]; reflexivity.
    + apply torus_table.
    + unfold torus_comps. destruct (Nat.even q); lia.
    + apply torus_wires_ok.
  - rewrite app_nil_r. intros (c, x) I. apply torus_writes_ok in I. apply I.
  - intros c Hc _. destruct (torus_writes_all c Hc) as (x & I). destruct (torus_writes_ok c x I) as (_ & <-). auto.
  - intros c x I _. apply torus_writes_ok in I. apply I.
  - intros c x [].
Qed.
End Torus.
