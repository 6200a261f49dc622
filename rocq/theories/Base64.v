(** Model of the base-64 encoder used for hash texts (src/pdcode.c lines 1259-1287). *)
From Coq Require Import List ZArith.
From Verif Require Import Base.
Import ListNotations.
Open Scope Z_scope.

(** cb64, src/pdcode.c line 1262: A-Z, a-z, 0-9, +, / as ASCII codes *)
Definition cb64 : list nat :=
  seq 65 26 ++ seq 97 26 ++ seq 48 10 ++ [43%nat; 47%nat].
Definition b64char (i : Z) : nat := nth (Z.to_nat i) cb64 0%nat.

(** encodeblock with len = 3, src/pdcode.c lines 1269-1275, on three unsigned chars *)
Definition encodeblock (a b c : Z) : list nat :=
  [ b64char (Z.shiftr a 2);
    b64char (Z.lor (Z.shiftl (Z.land a 3) 4) (Z.shiftr (Z.land b 240) 4));
    b64char (Z.lor (Z.shiftl (Z.land b 15) 2) (Z.shiftr (Z.land c 192) 6));
    b64char (Z.land c 63) ].

(** base64encode, src/pdcode.c lines 1277-1287: [data] has 24 bytes *)
Fixpoint base64encode (data : list Z) : list nat :=
  match data with
  | a :: b :: c :: data' => encodeblock a b c ++ base64encode data'
  | _ => []
  end.
