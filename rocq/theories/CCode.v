(** Model of the crossing codes of Millett and Ewing: the writer (src/plcTopology.c lines 98-281) and, in the program that
    computes HOMFLY polynomials, the reader and the consistency check (src/pllmpoly02.c lines 133-178, 350-366, 527-598 and
    1610-1673).  The computation of the polynomial itself is not modelled. *)
From Coq Require Import List NArith ZArith Lia Bool Arith.
From Verif Require Import Base Iterators Pd PdCross OverUnder TextIO.
Import ListNotations.
Open Scope nat_scope.
Open Scope res_scope.

(** * Writing *)

(** the characters a, b, c, d, + and - *)
Definition ch_a := 97. Definition ch_b := 98. Definition ch_c := 99. Definition ch_d := 100.
Definition ch_plus := 43. Definition ch_minus := 45.

(** pd_millet_ewing_positions, src/plcTopology.c lines 102-188: the letters of the two ends of an edge, head first.  If the
    edge is not found at the crossing pd_error reports it and the letter stays unset: [UB]. *)
Definition pd_millet_ewing_positions (d : pd) (e : nat) : res (nat * nat) :=
  do E <- get (p_edge d) e;
  do o <- pd_overstrand_pos d (e_head E);
  do u <- pd_understrand_pos d (e_head E);
  do x <- get (p_cross d) (e_head E);
  do h <- (if cedge x (fst o) =? e then Ok ch_c
           else if cedge x (fst u) =? e then Ok (if orient_eqb (csign x) Pos then ch_b else ch_d)
           else UB);
  do o <- pd_overstrand_pos d (e_tail E);
  do u <- pd_understrand_pos d (e_tail E);
  do x <- get (p_cross d) (e_tail E);
  do t <- (if cedge x (snd o) =? e then Ok ch_a
           else if cedge x (snd u) =? e then Ok (if orient_eqb (csign x) Pos then ch_d else ch_b)
           else UB);
  Ok (h, t).

(** where edge [e] goes to, and where it comes from: lines 221-250; crossings are numbered from 1 *)
Definition to_head (d : pd) (e : nat) : res text :=
  do E <- get (p_edge d) e;
  do l <- pd_millet_ewing_positions d e;
  Ok (show_nat (e_head E + 1) ++ [fst l]).
Definition to_tail (d : pd) (e : nat) : res text :=
  do E <- get (p_edge d) e;
  do l <- pd_millet_ewing_positions d e;
  Ok (show_nat (e_tail E + 1) ++ [snd l]).

(** the line of one crossing in two pieces, as they are printed: lines 207-258 *)
Definition line_start (d : pd) (cr : nat) : res text :=
  do x <- get (p_cross d) cr;
  Ok (show_nat (cr + 1) ++ [if orient_eqb (csign x) Pos then ch_plus else ch_minus]).
Definition line_rest (d : pd) (cr : nat) : res text :=
  do x <- get (p_cross d) cr;
  do o <- pd_overstrand d cr;
  do a <- to_head d (snd o);
  do c <- to_tail d (fst o);
  do u <- pd_understrand d cr;
  do bd <- (if orient_eqb (csign x) Pos then
              do b <- to_tail d (fst u);
              do f <- to_head d (snd u);
              Ok (b, f)
            else
              do b <- to_head d (snd u);
              do f <- to_tail d (fst u);
              Ok (b, f));
  Ok (a ++ fst bd ++ c ++ snd bd ++ [10]).

(** snprintf at the end of the buffer.  A text that does not fit with its final zero is cut off, and the next write is
    beyond the buffer: [UB] (Thm_CCode shows that this happens only without crossings, when there is no buffer). *)
Definition put (size : nat) (buf t : text) : res text :=
  if List.length buf + List.length t <? size then Ok (buf ++ t) else UB.

Fixpoint ccode_lines (d : pd) (size : nat) (crs : list nat) (buf : text) : res text :=
  match crs with
  | [] => Ok buf
  | cr :: crs' =>
      do s <- line_start d cr;
      do buf <- put size buf s;
      do r <- line_rest d cr;
      do buf <- put size buf r;
      ccode_lines d size crs' buf
  end.

(** pdcode_to_ccode, lines 193-281.  The size of the buffer is an int: [UB] from 2^23 crossings on. *)
Definition pdcode_to_ccode (d : pd) : res text :=
  if (N.of_nat (ncross d) <? 8388608)%N then
    do buf <- ccode_lines d (256 * ncross d) (seq 0 (ncross d)) [];
    put (256 * ncross d) buf [10; 10]
  else UB.

(** * Reading *)

Definition XCNT := 250.
(** conversion to short *)
Definition short (z : Z) : Z := ((z + 32768) mod 65536 - 32768)%Z.
(** the character at the pointer: the text is followed by EOFCHR *)
Definition peek (s : text) : nat := match s with [] => 0 | c :: _ => c end.
Fixpoint skip_newlines (s : text) : text :=
  match s with
  | c :: s' => if c =? 10 then skip_newlines s' else s
  | [] => []
  end.
Fixpoint skip_digits (s : text) : text :=
  match s with
  | c :: s' => if isdigit c then skip_digits s' else s
  | [] => []
  end.
(** lines 542-545: a number in a variable of type short *)
Fixpoint short_digits (i : Z) (s : text) : Z * text :=
  match s with
  | c :: s' => if isdigit c then short_digits (short (short (i * 10) + Z.of_nat (c - 48))) s' else (i, s)
  | [] => (i, [])
  end.

(** lines 540-567: the [j] connections that remain to be read on a line; the bytes stored and the text left; [None] if the
    text cannot be parsed *)
Fixpoint read_ends (j : nat) (s : text) (bytes : list nat) : option (list nat * text) :=
  match j with
  | 0 => Some (bytes, s)
  | S j' =>
      match s with
      | [] => Some (bytes, s)
      | _ =>
          let '(i, s) := short_digits 0 s in
          if (i =? 0)%Z then None
          else
            let bytes := bytes ++ [Z.to_nat ((i - 1) mod 256)] in
            match s with
            | [] => read_ends j' s bytes
            | c :: s' => if (c <? ch_a) || (ch_d <? c) then None else read_ends j' s' (bytes ++ [(c - ch_a) * 2])
            end
      end
  end.

(** crsbuf as the list of the bytes that were stored, and sign *)
Record crs := mkCrs { c_num : nat; c_sign : list nat; c_bytes : list nat }.

(** lines 527-573: the loop over the lines.  [fuel] bounds the number of lines. *)
Fixpoint read_lines (fuel : nat) (s : text) (k : crs) : res (option (crs * text)) :=
  match fuel with
  | 0 => Fuel
  | S fuel' =>
      if (peek s =? 10) || (peek s =? 0) then Ok (Some (k, s))
      else if c_num k =? XCNT then Ok None
      else
        let s := skip_digits s in
        let next sg s :=
          match read_ends 4 s (c_bytes k) with
          | None => Ok None
          | Some (bytes, s) =>
              read_lines fuel' (if peek s =? 10 then tl s else s) (mkCrs (c_num k + 1) (c_sign k ++ [sg]) bytes)
          end in
        if peek s =? ch_plus then next 6 (tl s)
        else if peek s =? ch_minus then next 2 (tl s)
        else if peek s =? 0 then next 0 s
        else Ok None
  end.

(** what plc_lmpoly does before it computes: *)
Inductive reading :=
| OneCrossing                       (* the polynomial of the unknot is returned at once, lines 154-176 *)
| Refused                           (* NULL is returned *)
| Read (k : crs).                   (* the crossings have been read *)

(** the first line is skipped if it is not the first crossing: lines 516-526; the buffer nbuf has 82 bytes *)
Fixpoint to_newline (s : text) : text * text :=
  match s with
  | c :: s' => if c =? 10 then ([], s) else let r := to_newline s' in (c :: fst r, snd r)
  | [] => ([], [])
  end.
Definition skip_name (s : text) : res text :=
  if negb (peek s =? 49) || (negb (peek (tl s) =? ch_plus) && negb (peek (tl s) =? ch_minus)) then
    let r := to_newline s in
    if 82 <=? List.length (fst r) then UB else Ok (snd r)
  else Ok s.

(** lines 133-178, 350-366 and 516-598 without the consistency check.  When the text ends before an empty line the program
    starts again from the beginning and never ends: [Fuel]. *)
Definition lmpoly_read (code : text) : res reading :=
  if count_occ Nat.eq_dec code 10 =? 3 then Ok OneCrossing
  else
    do s <- skip_name (skip_newlines (firstn (Z.to_nat 10239) code));
    let s := if peek s =? 10 then tl s else s in
    do r <- read_lines (S (List.length s)) s (mkCrs 0 [] []);
    match r with
    | None => Ok Refused
    | Some (k, s) => if peek s =? 0 then Fuel else Ok (Read k)
    end.

(** * The consistency check *)

(** the byte crsbuf[i][j]: bytes that were never stored are 0 *)
Definition byte (k : crs) (i j : nat) : res nat :=
  if 8 * i + j <? 8 * (XCNT + 1) then Ok (nth (8 * i + j) (c_bytes k) 0) else UB.
(** sign[i] *)
Definition sign_byte (k : crs) (i : nat) : res nat := if i <? XCNT then Ok (nth i (c_sign k) 0) else UB.

(** lines 1622-1662: follow a strand from branch [vbrnch] of crossing [vnum]; the marks afterwards.  [Fail] stands for
    return(1), after which the program stops. *)
Fixpoint follow (fuel : nat) (k : crs) (marks : list nat) (i vnum vbrnch : nat) : res (list nat) :=
  match fuel with
  | 0 => Fuel
  | S fuel' =>
      do m <- get marks i;
      if negb (m =? 0) then Ok marks
      else
        let marks := upd i 1 marks in
        let i := vnum in
        let j := vbrnch in
        do vnum <- byte k i j;
        do vbrnch <- byte k i (Nat.lor j 1);
        assert (vnum <? c_num k);
        do x <- byte k vnum vbrnch;
        do y <- byte k vnum (Nat.lor vbrnch 1);
        assert ((x =? i) && (y =? j));
        assert (negb (vbrnch =? 0));
        do s <- sign_byte k vnum;
        assert (negb (vbrnch =? Nat.land s 6));
        follow fuel' k marks (2 * vnum + Nat.land (vbrnch / 2) 1) vnum (Nat.lxor vbrnch 4)
  end.
(** line 1664: the first strand not marked *)
Fixpoint first_zero (marks : list nat) : res nat :=
  match marks with
  | [] => UB
  | m :: marks' => if m =? 0 then Ok 0 else do i <- first_zero marks'; Ok (S i)
  end.
(** lines 1620-1669 *)
Fixpoint strands (fuel : nat) (k : crs) (marks : list nat) (i vnum vbrnch : nat) (lowx : Z) : res Z :=
  match fuel with
  | 0 => Fuel
  | S fuel' =>
      if i =? 2 * c_num k then Ok lowx
      else
        do marks <- follow (S (S (2 * c_num k))) k marks i vnum vbrnch;
        do i <- first_zero marks;
        let vnum := i / 2 in
        do vbrnch <- (if Nat.odd i then do s <- sign_byte k vnum; Ok (Nat.land s 6) else Ok 0);
        strands fuel' k marks i vnum vbrnch (lowx - 1)
  end.
(** conchk, lines 1610-1673: the value left in lowx.  The array local_cbuf has 2 * XCNT entries, and entry 2 * numcrs is
    written: [UB] with XCNT crossings. *)
Definition conchk (k : crs) : res Z :=
  if 2 * XCNT <=? 2 * c_num k then UB
  else strands (S (2 * c_num k)) k (repeat 0 (2 * c_num k + 1)) 0 0 0 1.
