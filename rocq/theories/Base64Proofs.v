(** Lemmas for the base-64 encoder. *)
From Coq Require Import List ZArith Lia Bool Arith.
From Verif Require Import Base Base64 HashSpec.
Import ListNotations.
Open Scope Z_scope.

Definition below (n : Z) : list Z := map Z.of_nat (seq 0 (Z.to_nat n)).
Lemma in_below : forall n x, 0 <= x < n -> In x (below n).
Proof.
  intros n x H. apply in_map_iff. exists (Z.to_nat x). split; [lia|]. apply in_seq. lia.
Qed.

Definition char_check (i : Z) : bool :=
  let c := b64char i in
  (base64_value c =? i) &&
  (((65 <=? c) && (c <=? 90)) || ((97 <=? c) && (c <=? 122)) || ((48 <=? c) && (c <=? 57)) || (c =? 43) || (c =? 47))%nat.
Lemma char_all : forallb char_check (below 64) = true.
Proof. vm_compute. reflexivity. Qed.
Lemma char_ok : forall i, 0 <= i < 64 -> base64_value (b64char i) = i /\ base64_char (b64char i).
Proof.
  intros i H. pose proof char_all as A. rewrite forallb_forall in A. specialize (A i (in_below 64 i H)).
  unfold char_check in A. apply andb_true_iff in A as (A & B). apply Z.eqb_eq in A. split; auto. unfold base64_char.
  repeat match goal with
  | K : (_ || _)%bool = true |- _ => apply orb_true_iff in K as [K|K]
  | K : (_ && _)%bool = true |- _ => apply andb_true_iff in K as (? & ?)
  | K : (_ <=? _)%nat = true |- _ => apply Nat.leb_le in K
  | K : (_ =? _)%nat = true |- _ => apply Nat.eqb_eq in K
  end; auto.
Qed.

Definition mix_check (p : Z * Z) : bool :=
  let (a, b) := p in
  (Z.shiftr a 2 =? a / 4) &&
  (Z.lor (Z.shiftl (Z.land a 3) 4) (Z.shiftr (Z.land b 240) 4) =? a mod 4 * 16 + b / 16) &&
  (Z.lor (Z.shiftl (Z.land a 15) 2) (Z.shiftr (Z.land b 192) 6) =? a mod 16 * 4 + b / 64) &&
  (Z.land a 63 =? a mod 64).
Lemma mix_all : forallb mix_check (list_prod (below 256) (below 256)) = true.
Proof. vm_compute. reflexivity. Qed.
Lemma mix_ok : forall a b, byte a -> byte b ->
  Z.shiftr a 2 = a / 4 /\
  Z.lor (Z.shiftl (Z.land a 3) 4) (Z.shiftr (Z.land b 240) 4) = a mod 4 * 16 + b / 16 /\
  Z.lor (Z.shiftl (Z.land a 15) 2) (Z.shiftr (Z.land b 192) 6) = a mod 16 * 4 + b / 64 /\
  Z.land a 63 = a mod 64.
Proof.
  intros a b Ha Hb. pose proof mix_all as A. rewrite forallb_forall in A.
  specialize (A (a, b) (in_prod _ _ _ _ (in_below 256 a Ha) (in_below 256 b Hb))).
  unfold mix_check in A. rewrite !andb_true_iff, !Z.eqb_eq in A. tauto.
Qed.

Lemma block_ok : forall a b c, byte a -> byte b -> byte c -> exists w x y z, encodeblock a b c = [w; x; y; z] /\
  base64_char w /\ base64_char x /\ base64_char y /\ base64_char z /\
  base64_value w = a / 4 /\ base64_value x = a mod 4 * 16 + b / 16 /\
  base64_value y = b mod 16 * 4 + c / 64 /\ base64_value z = c mod 64.
Proof.
  intros a b c Ha Hb Hc. unfold byte in *.
  destruct (mix_ok a b Ha Hb) as (A1 & A2 & _). destruct (mix_ok b c Hb Hc) as (_ & _ & A3 & _).
  destruct (mix_ok c c Hc Hc) as (_ & _ & _ & A4).
  unfold encodeblock. rewrite A1, A2, A3, A4.
  pose proof (Z.div_mod a 4). pose proof (Z.mod_pos_bound a 4). pose proof (Z.div_mod b 16).
  pose proof (Z.mod_pos_bound b 16). pose proof (Z.div_mod c 64). pose proof (Z.mod_pos_bound c 64).
  destruct (char_ok (a / 4)) as (V1 & C1); [lia|]. destruct (char_ok (a mod 4 * 16 + b / 16)) as (V2 & C2); [lia|].
  destruct (char_ok (b mod 16 * 4 + c / 64)) as (V3 & C3); [lia|]. destruct (char_ok (c mod 64)) as (V4 & C4); [lia|].
  do 4 eexists. split; [reflexivity|]. auto 10.
Qed.

Lemma encode_ok : forall data n, length data = (3 * n)%nat -> Forall byte data -> base64_text data (base64encode data).
Proof.
  intros data n. revert data. induction n as [|n IH]; intros data L F.
  - destruct data; [constructor|cbn in L; lia].
  - destruct data as [|a [|b [|c data]]]; cbn in L; try lia.
    inversion F as [|? ? Fa F1]; subst. inversion F1 as [|? ? Fb F2]; subst. inversion F2 as [|? ? Fc F3]; subst.
    destruct (block_ok a b c Fa Fb Fc) as (w & x & y & z & E & C1 & C2 & C3 & C4 & V1 & V2 & V3 & V4).
    cbn [base64encode]. rewrite E. cbn [app]. constructor; auto.
    + rewrite V1, V2, V3, V4.
      pose proof (Z.div_mod a 4). pose proof (Z.div_mod b 16). pose proof (Z.div_mod c 64). lia.
    + apply IH; auto. lia.
Qed.

Lemma text_length : forall data text, base64_text data text -> (3 * length text = 4 * length data)%nat.
Proof. intros data text H. induction H; cbn [length]; lia. Qed.
Lemma text_inj : forall data text, base64_text data text -> Forall byte data ->
  forall data', Forall byte data' -> base64_text data' text -> data' = data.
Proof.
  intros data text H. induction H as [|a b c data w x y z text E _ _ _ _ _ IH]; intros F data' F' H'.
  - inversion H'. auto.
  - inversion H' as [|a' b' c' data2 ? ? ? ? ? E' ? ? ? ? H2]; subst.
    inversion F as [|? ? Fa F1]; subst. inversion F1 as [|? ? Fb F2]; subst. inversion F2 as [|? ? Fc F3]; subst.
    inversion F' as [|? ? Fa' F1']; subst. inversion F1' as [|? ? Fb' F2']; subst. inversion F2' as [|? ? Fc' F3']; subst.
    unfold byte in *. rewrite <- E in E'. assert (a' = a) by lia. assert (b' = b) by lia. assert (c' = c) by lia.
    subst. f_equal. f_equal. f_equal. auto.
Qed.

Lemma base64encode_app : forall n a b, length a = (3 * n)%nat -> base64encode (a ++ b) = base64encode a ++ base64encode b.
Proof.
  induction n as [|n IH]; intros a b L.
  - destruct a; [reflexivity|cbn in L; lia].
  - destruct a as [|x [|y [|z a]]]; cbn in L; try lia. cbn [base64encode app]. rewrite IH by lia. reflexivity.
Qed.
Lemma encode_length : forall n a, length a = (3 * n)%nat -> length (base64encode a) = (4 * n)%nat.
Proof.
  induction n as [|n IH]; intros a L.
  - destruct a; [reflexivity|cbn in L; lia].
  - destruct a as [|x [|y [|z a]]]; cbn in L; try lia. cbn [base64encode encodeblock app length]. rewrite IH by lia. lia.
Qed.
Lemma back_all : forallb (fun c => negb ((((65 <=? c) && (c <=? 90)) || ((97 <=? c) && (c <=? 122)) || ((48 <=? c) && (c <=? 57)) ||
  (c =? 43) || (c =? 47))%nat) || (b64char (base64_value c) =? c)%nat) (seq 0 123) = true.
Proof. vm_compute. reflexivity. Qed.
Lemma back_ok : forall c, base64_char c -> b64char (base64_value c) = c.
Proof.
  intros c H. pose proof back_all as A. rewrite forallb_forall in A. unfold base64_char in H.
  assert (I : In c (seq 0 123)) by (apply in_seq; lia). apply A in I. apply orb_true_iff in I as [I|I].
  - exfalso. apply negb_true_iff in I. rewrite !orb_false_iff, !andb_false_iff in I.
    rewrite !Nat.leb_gt, !Nat.eqb_neq in I. lia.
  - apply Nat.eqb_eq in I. auto.
Qed.
Lemma value_char : forall x y, base64_char x -> base64_char y -> base64_value x = base64_value y -> x = y.
Proof. intros x y Hx Hy E. rewrite <- (back_ok x Hx), <- (back_ok y Hy), E. auto. Qed.

Lemma text_chars : forall data text, base64_text data text -> Forall base64_char text.
Proof. intros data text H. induction H; repeat (constructor; auto). Qed.

(** the first 31 characters of the text of 24 bytes: all but the last six bits *)
Lemma cut_text : forall a b, length a = 24%nat -> length b = 24%nat -> Forall byte a -> Forall byte b ->
  firstn 31 (base64encode a) = firstn 31 (base64encode b) <->
  firstn 23 a = firstn 23 b /\ nth 23 a 0 / 64 = nth 23 b 0 / 64.
Proof.
  intros a b La Lb Fa Fb.
  assert (S : forall a, length a = 24%nat -> Forall byte a -> exists u x y z, a = u ++ [x; y; z] /\ length u = 21%nat /\
    Forall byte u /\ byte x /\ byte y /\ byte z).
  { clear. intros a L F. exists (firstn 21 a). pose proof (firstn_skipn 21 a) as E.
    assert (Ls : length (skipn 21 a) = 3%nat) by (rewrite skipn_length; lia).
    destruct (skipn 21 a) as [|x [|y [|z [|? ?]]]]; try discriminate. exists x, y, z. rewrite <- E in F.
    apply Forall_app in F as (F1 & F2). split; auto. split; [rewrite firstn_length; lia|]. split; auto.
    inversion F2 as [|? ? Fx F3]; subst. inversion F3 as [|? ? Fy F4]; subst. inversion F4; subst. auto. }
  destruct (S a La Fa) as (u & x & y & z & -> & Lu & Fu & Fx & Fy & Fz).
  destruct (S b Lb Fb) as (u' & x' & y' & z' & -> & Lu' & Fu' & Fx' & Fy' & Fz').
  destruct (block_ok x y z Fx Fy Fz) as (c1 & c2 & c3 & c4 & E & C1 & C2 & C3 & C4 & V1 & V2 & V3 & V4).
  destruct (block_ok x' y' z' Fx' Fy' Fz') as (c1' & c2' & c3' & c4' & E' & C1' & C2' & C3' & C4' & V1' & V2' & V3' & V4').
  rewrite !(base64encode_app 7) by lia. cbn [base64encode app]. rewrite E, E'. cbn [app].
  pose proof (encode_length 7 u ltac:(lia)) as Eu. pose proof (encode_length 7 u' ltac:(lia)) as Eu'.
  assert (G : forall A (p q : list A) r s n, length p = n -> length q = n -> p ++ r = q ++ s <-> p = q /\ r = s).
  { clear. intros A p q r s n Lp Lq. split; [|intros (-> & ->); auto]. revert q n Lp Lq.
    induction p as [|x p IH]; intros [|y q] n Lp Lq H; cbn in Lp, Lq; try lia; auto.
    cbn in H. injection H as -> H. destruct (IH q (length q)) with (2 := eq_refl (length q)) as (-> & ->); auto. lia. }
  assert (F31 : forall (t : list nat) p q r s, length t = 28%nat -> firstn 31 (t ++ [p; q; r; s]) = t ++ [p; q; r]).
  { intros t p q r s L. rewrite firstn_app, L. rewrite firstn_all2 by lia. reflexivity. }
  assert (F23 : forall (t : list Z) p q r, length t = 21%nat -> firstn 23 (t ++ [p; q; r]) = t ++ [p; q]).
  { intros t p q r L. rewrite firstn_app, L. rewrite firstn_all2 by lia. reflexivity. }
  rewrite !F31 by lia. rewrite !F23 by lia. rewrite (G _ _ _ _ _ 28%nat) by lia. rewrite (G _ u u' _ _ 21%nat) by lia.
  rewrite !app_nth2 by lia. rewrite Lu, Lu'. cbn [nth Nat.sub].
  assert (U : base64encode u = base64encode u' <-> u = u').
  { split; [|intros ->; auto]. intros Q. pose proof (encode_ok u 7 ltac:(lia) Fu) as T. 
    pose proof (encode_ok u' 7 ltac:(lia) Fu') as T'. rewrite Q in T. eapply text_inj; eauto. }
  rewrite U. unfold byte in *.
  pose proof (Z.div_mod x 4). pose proof (Z.mod_pos_bound x 4). pose proof (Z.div_mod x' 4). pose proof (Z.mod_pos_bound x' 4).
  pose proof (Z.div_mod y 16). pose proof (Z.mod_pos_bound y 16). pose proof (Z.div_mod y' 16). pose proof (Z.mod_pos_bound y' 16).
  pose proof (Z.div_mod z 64). pose proof (Z.mod_pos_bound z 64). pose proof (Z.div_mod z' 64). pose proof (Z.mod_pos_bound z' 64).
  split.
  - intros (-> & Q). injection Q as Q1 Q2 Q3. rewrite Q1, V1' in V1. rewrite Q2, V2' in V2. rewrite Q3, V3' in V3.
    assert (x = x') by lia. subst x'. assert (y = y') by lia. subst y'. split; [auto|lia].
  - intros ((-> & Q) & Q3). injection Q as <- <-. split; auto. f_equal; [|f_equal; [|f_equal]]; apply value_char; auto; congruence.
Qed.
