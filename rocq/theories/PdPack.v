(** Model of src/pd_pack.c. *)
From Coq Require Import List ZArith Lia Bool Arith.
From Verif Require Import Base Iterators Pd PdCross PdEdges PdRegen.
Import ListNotations.
Open Scope nat_scope.
Open Scope res_scope.

(** pd_indexbits, src/pd_pack.c lines 58-62: ceil(log2(2n)).  Simplification: the floating-point
    computation is taken to be exact, as it is for arguments below 2^32. *)
Definition pd_indexbits (n : nat) : nat := Nat.log2_up (2 * n).

Definition sign_bits (signed : bool) : nat := if signed then 1 else 0.

(** pd_packbits, lines 64-70.  The products are not reduced modulo 2^32: pd_pack and pd_unpack
    below are undefined (int ofs) when there are 2^31 bits or more. *)
Definition pd_packbits (n : nat) (signed : bool) : nat :=
  n * (4 + 4 * pd_indexbits n + sign_bits signed).
Definition too_many_bits (n : nat) (signed : bool) : bool :=
  (2 ^ 31 <=? Z.of_nat (pd_packbits n signed))%Z.

(** one word of pd_packbitstring, lines 92-104: the loop over thisofs *)
Fixpoint set_bits (w ofs : Z) (bits : list nat) : Z :=
  match bits with
  | [] => w
  | b :: r => set_bits (if b =? 1 then Z.setbit w ofs else w) (ofs + 1) r
  end.
(** the loop over thisint, lines 90-108.  [count] is packints = ceil(nints/32). *)
Fixpoint pack_words (count : nat) (bits : list nat) : list Z :=
  match count with
  | 0 => []
  | S c => set_bits 0 0 (firstn 32 bits) :: pack_words c (skipn 32 bits)
  end.
Definition word_count (nbits : nat) : nat := (nbits + 31) / 32.
(** pd_packbitstring, lines 79-115: an empty string reaches assert(1 == 0) *)
Definition pd_packbitstring (bits : list nat) : res (list Z) :=
  assert (forallb (fun b => (b =? 1) || (b =? 0)) bits);
  assert (negb (length bits =? 0));
  Ok (pack_words (word_count (length bits)) bits).

(** pd_unpackbitstring, lines 117-151: [left] bits remain to be read *)
Definition word_bits (w : Z) (n : nat) : list nat :=
  map (fun j => if Z.testbit w (Z.of_nat j) then 1 else 0) (seq 0 n).
Fixpoint unpack_words (count left : nat) (words : list Z) : res (list nat) :=
  match count with
  | 0 => Ok []
  | S c =>
      match words with
      | [] => UB
      | w :: ws => do r <- unpack_words c (left - 32) ws; Ok (word_bits w (Nat.min 32 left) ++ r)
      end
  end.
Definition pd_unpackbitstring (words : list Z) (nbits : nat) : res (list nat) :=
  assert (negb (nbits =? 0));
  unpack_words (word_count nbits) nbits words.

(** pd_idx_bitencode, lines 153-177 *)
Fixpoint idx_bits (w i : nat) : list nat :=
  match w with
  | 0 => []
  | S w' => i mod 2 :: idx_bits w' (i / 2)
  end.
Definition pd_idx_bitencode (i n : nat) : res (list nat) :=
  assert (i <? 2 * n);
  Ok (idx_bits (pd_indexbits n) i).

(** pd_idx_bitdecode, lines 179-196.  Simplification: no wrap-around; the value is below
    2^pd_indexbits(n), which is far below 2^32 whenever there are fewer than 2^31 bits. *)
Fixpoint idx_loop (bits : list nat) (i placeval : nat) : nat :=
  match bits with
  | [] => i
  | b :: r => idx_loop r (i + b * placeval) (placeval * 2)
  end.
Definition pd_idx_bitdecode (bits : list nat) : nat := idx_loop bits 0 1.

(** pd_crossing_bitencode, lines 198-243.  The buffer allocated on line 211 has (4+4*idxbits)
    elements of sizeof(unsigned int), plus one when the crossings are signed, bytes: see
    Thm_Pack.bitcode_fits. *)
Definition encode_place (d : pd) (cr : nat) (c : crossing) (k : nat) : res (list nat) :=
  do E <- get (p_edge d) (cedge c k);
  do idx <- pd_idx_bitencode (cedge c k) (ncross d);
  Ok ((if (e_head E =? cr) && (e_headpos E =? k) then 1 else 0) :: idx).
Definition pd_crossing_bitencode (d : pd) (signed : bool) (cr : nat) : res (list nat) :=
  do c <- get (p_cross d) cr;
  assert (negb signed || negb (orient_eqb (csign c) Unset));
  do places <- map_ok (encode_place d cr c) [0; 1; 2; 3];
  Ok ((if signed then [if orient_eqb (csign c) Pos then 1 else 0] else []) ++ concat places).

(** pd_pack, lines 286-350.  The first word is the number of crossings, negated modulo 2^32 when
    the crossings are signed. *)
Definition pd_pack (d : pd) : res (list Z) :=
  do c0 <- get (p_cross d) 0; (* pd->cross[0].sign, line 297 *)
  let signed := negb (orient_eqb (csign c0) Unset) in
  assert (forallb (fun c => Bool.eqb (orient_eqb (csign c) Unset) (negb signed)) (p_cross d));
  if too_many_bits (ncross d) signed then UB
  else
    do bits <- map_ok (pd_crossing_bitencode d signed) (seq 0 (ncross d));
    do words <- pd_packbitstring (concat bits);
    let n := Z.of_nat (ncross d) in
    Ok ((if signed then (- n) mod 2 ^ 32 else n)%Z :: words).

(** pd_crossing_bitdecode, lines 245-284: the loop over k, which consumes its part of the bit
    string from the front.  The edge number read is an index into the array pd->edge. *)
Definition set_cedge (c : crossing) (k e : nat) : crossing :=
  match k with
  | 0 => mkCross e (ce1 c) (ce2 c) (ce3 c) (csign c)
  | 1 => mkCross (ce0 c) e (ce2 c) (ce3 c) (csign c)
  | 2 => mkCross (ce0 c) (ce1 c) e (ce3 c) (csign c)
  | _ => mkCross (ce0 c) (ce1 c) (ce2 c) e (csign c)
  end.
Fixpoint decode_places (idxbits cr : nat) (ks : list nat) (bits : list nat) (c : crossing) (es : list edge) :
    res (crossing * list edge * list nat) :=
  match ks with
  | [] => Ok (c, es, bits)
  | k :: ks' =>
      match bits with
      | [] => UB
      | b :: r =>
          if length r <? idxbits then UB
          else
            let e := pd_idx_bitdecode (firstn idxbits r) in
            assert ((b =? 0) || (b =? 1));
            do E <- get es e;
            let E' := if b =? 1 then mkEdge cr k (e_tail E) (e_tailpos E)
                      else mkEdge (e_head E) (e_headpos E) cr k in
            decode_places idxbits cr ks' (skipn idxbits r) (set_cedge c k e) (upd e E' es)
      end
  end.
(** a record of pd_code_new: calloc, and PD_NEG_ORIENTATION is 0 (plcTopology.h) *)
Definition zero_cross : crossing := mkCross 0 0 0 0 Neg.
Definition zero_edge : edge := mkEdge 0 0 0 0.
Definition pd_crossing_bitdecode (idxbits cr : nat) (signed : bool) (bits : list nat) (es : list edge) :
    res (crossing * list edge * list nat) :=
  if signed then
    match bits with
    | [] => UB
    | b :: r =>
        assert ((b =? 0) || (b =? 1));
        decode_places idxbits cr [0; 1; 2; 3] r (mkCross 0 0 0 0 (if b =? 1 then Pos else Neg)) es
    end
  else decode_places idxbits cr [0; 1; 2; 3] bits zero_cross es.

(** the loop over the crossings, lines 412-417 *)
Fixpoint decode_crossings (idxbits : nat) (signed : bool) (todo cr : nat) (bits : list nat) (es : list edge) :
    res (list crossing * list edge) :=
  match todo with
  | 0 => Ok ([], es)
  | S t =>
      do r <- pd_crossing_bitdecode idxbits cr signed bits es;
      let '(c, es', bits') := r in
      do q <- decode_crossings idxbits signed t (S cr) bits' es';
      Ok (c :: fst q, snd q)
  end.

(** pd_unpack, lines 374-429.  (int)(bitform[0]) = -2^31 overflows on line 393. *)
Definition to_int (w : Z) : Z := if (w <? 2 ^ 31)%Z then w else (w - 2 ^ 32)%Z.
Definition pd_unpack_table (signed : bool) (n : nat) (words : list Z) : res pd :=
  assert (negb (n =? 0)); (* pd_code_new *)
  if too_many_bits n signed then UB
  else
    let mv := maxverts_of n in
    do bits <- pd_unpackbitstring words (pd_packbits n signed);
    do r <- decode_crossings (pd_indexbits n) signed n 0 bits (repeat zero_edge (2 * mv + 1));
    Ok (mkPd mv 0 [32] (firstn (2 * n) (snd r)) (fst r) [] []).
Definition pd_unpack (words : list Z) : res pd :=
  match words with
  | [] => UB
  | w :: ws =>
      let i := to_int w in
      if (i =? - 2 ^ 31)%Z then UB
      else
        let signed := negb (0 <? i)%Z in
        do d <- pd_unpack_table signed (Z.to_nat (Z.abs i)) ws;
        do d' <- pd_regenerate d;
        do b <- pd_ok d';
        assert b;
        Ok d'
  end.
