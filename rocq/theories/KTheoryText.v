(** The text of a KnotTheory code is read back. *)
From Coq Require Import List NArith ZArith Lia Bool Arith String.
From Verif Require Import Base Iterators Perm Pd TextIO TextProofs Build KTheory.
Import ListNotations.
Open Scope nat_scope.
Open Scope res_scope.

Definition kt_item (v : four) : text :=
  let '(a, b, c, e) := v in
  txt "X[" ++ show a ++ txt "," ++ show b ++ txt "," ++ show c ++ txt "," ++ show e ++ txt "]".
Definition fits (v : four) : Prop := let '(a, b, c, e) := v in (a <= ulong_max /\ b <= ulong_max /\ c <= ulong_max /\ e <= ulong_max)%N.

Lemma scan_ul : forall f n rest, (n <= ulong_max)%N -> no_digit rest -> scan (ULong :: f) (show n ++ rest) = (Num n :: fst (scan f rest), snd (scan f rest)).
Proof. intros f n rest H K. cbn [scan]. rewrite scan_number by auto. reflexivity. Qed.
Lemma scan_lit : forall f c s, scan (Lit c :: f) (c :: s) = scan f s.
Proof. intros. cbn [scan]. rewrite Nat.eqb_refl. reflexivity. Qed.
Lemma scan_ws_digits : forall f n s, scan (Ws :: f) (show n ++ s) = scan f (show n ++ s).
Proof. intros. cbn [scan]. rewrite skip_digits. reflexivity. Qed.
Lemma scan_ws : forall f c s, isspace c = false -> scan (Ws :: f) (c :: s) = scan f (c :: s).
Proof. intros f c s H. cbn [scan skip]. rewrite H. reflexivity. Qed.

Definition four_dirs : list dir := [Ws; ULong; Lit 44; Ws; ULong; Lit 44; Ws; ULong; Lit 44; Ws; ULong; Ws; Lit 93].
Lemma scan_four : forall a b c e rest, fits (a, b, c, e) ->
  scan four_dirs (show a ++ 44 :: show b ++ 44 :: show c ++ 44 :: show e ++ 93 :: rest) = ([Num a; Num b; Num c; Num e], rest).
Proof.
  intros a b c e rest (Ha & Hb & Hc & He). unfold four_dirs.
  do 3 (rewrite scan_ws_digits, scan_ul by (auto; reflexivity); rewrite scan_lit). rewrite scan_ws_digits, scan_ul by (auto; reflexivity).
  rewrite scan_ws by reflexivity. rewrite scan_lit. reflexivity.
Qed.
Lemma kt_next_dirs : kt_next = Ws :: Lit 88 :: Lit 91 :: four_dirs. Proof. reflexivity. Qed.
Lemma kt_first_dirs : kt_first = Ws :: Lit 80 :: Lit 68 :: Ws :: Lit 91 :: Ws :: Lit 88 :: Lit 91 :: four_dirs. Proof. reflexivity. Qed.
Lemma item_text : forall a b c e rest, kt_item (a, b, c, e) ++ rest = 88 :: 91 :: show a ++ 44 :: show b ++ 44 :: show c ++ 44 :: show e ++ 93 :: rest.
Proof. intros. unfold kt_item. change (txt "X[") with [88; 91]. change (txt ",") with [44]. change (txt "]") with [93]. cbn [app]. repeat (rewrite <- app_assoc; cbn [app]). reflexivity. Qed.
Lemma num4_next : forall a b c e rest, fits (a, b, c, e) -> num4 kt_next (kt_item (a, b, c, e) ++ rest) = Some (a, b, c, e, rest).
Proof. intros a b c e rest F. rewrite item_text, kt_next_dirs. unfold num4. rewrite scan_ws by reflexivity. rewrite !scan_lit, scan_four by auto. reflexivity. Qed.
Lemma num4_first : forall a b c e rest, fits (a, b, c, e) -> num4 kt_first (txt "PD[" ++ kt_item (a, b, c, e) ++ rest) = Some (a, b, c, e, rest).
Proof.
  intros a b c e rest F. rewrite item_text, kt_first_dirs. unfold num4. change (txt "PD[") with [80; 68; 91]. cbn [app].
  rewrite scan_ws by reflexivity. rewrite !scan_lit. rewrite scan_ws by reflexivity. rewrite scan_lit. rewrite scan_ws by reflexivity. rewrite !scan_lit, scan_four by auto. reflexivity.
Qed.

Definition kt_text (vs : list four) : text :=
  match vs with
  | [] => txt "PD[]" ++ [10]
  | v :: vs' => txt "PD[" ++ kt_item v ++ flat_map (fun v => txt "," ++ kt_item v) vs' ++ txt "]" ++ [10]
  end.
Lemma more_text : forall vs fuel used rest, Forall fits vs -> (N.of_nat used + N.of_nat (List.length vs) <= 9990)%N -> List.length vs < fuel ->
  kt_more fuel used (flat_map (fun v => txt "," ++ kt_item v) vs ++ txt "]" ++ rest) = Ok (Some (vs, rest)).
Proof.
  induction vs as [|v vs IH]; intros fuel used rest F U H; (destruct fuel as [|fuel]; [cbn in H; lia|]).
  - reflexivity.
  - inversion F as [|? ? F1 F2]; subst. destruct v as (((a, b), c), e). cbn [flat_map]. rewrite <- !app_assoc. change (txt ",") with [44] at 1. cbn [app kt_more]. rewrite Nat.eqb_refl.
    rewrite num4_next by auto. cbn [List.length] in U, H. destruct (N.eqb_spec (N.of_nat used) 9990) as [Q|Q]; [lia|]. change (txt "," ) with [44] in IH. rewrite IH by (auto; lia). reflexivity.
Qed.
Lemma flat_length : forall vs : list four, List.length vs <= List.length (flat_map (fun v => txt "," ++ kt_item v) vs).
Proof. induction vs as [|v vs IH]; cbn [flat_map List.length]; [lia|]. rewrite !app_length. change (List.length (txt ",")) with 1. lia. Qed.
Lemma scan_text : forall vs rest, Forall fits vs -> vs <> [] -> (N.of_nat (List.length vs) <= 9990)%N -> kt_scan (kt_text vs ++ rest) = Ok (Some (vs, 10 :: rest)).
Proof.
  intros [|v vs] rest F N U; [congruence|]. inversion F as [|? ? F1 F2]; subst. destruct v as (((a, b), c), e). unfold kt_scan, kt_text. rewrite <- !app_assoc. rewrite num4_first by auto.
  rewrite more_text; auto; [cbn [List.length] in U; lia|]. rewrite app_length. pose proof (flat_length vs). lia.
Qed.
