(** Model of pd_write and pd_read (src/pdcode.c lines 2877-2997 and 3117-3638). *)
From Coq Require Import List NArith ZArith Lia Bool Arith Ascii String.
From Verif Require Import Base Iterators Perm Pd PdCross PdHash OverUnder.
Import ListNotations.
Open Scope nat_scope.
Open Scope res_scope.

(** * Text *)

(** A text is the list of its bytes. *)
Definition text := list nat.
Definition txt (s : string) : text := map nat_of_ascii (list_ascii_of_string s).

(** printf with %u or %lu *)
Fixpoint show_digits (k : nat) (n : N) (acc : text) : text :=
  match k with
  | 0 => acc
  | S k' =>
      let acc' := 48 + N.to_nat (n mod 10) :: acc in
      if (n <? 10)%N then acc' else show_digits k' (n / 10) acc'
  end.
Definition show (n : N) : text := show_digits (S (N.size_nat n)) n [].
Definition show_nat (n : nat) : text := show (N.of_nat n).

(** isspace and isdigit in the C locale *)
Definition isspace (c : nat) : bool := (c =? 32) || ((9 <=? c) && (c <=? 13)).
Definition isdigit (c : nat) : bool := (48 <=? c) && (c <=? 57).
Fixpoint skip (s : text) : text :=
  match s with
  | c :: s' => if isspace c then skip s' else s
  | [] => []
  end.

(** scanf: a format is a list of directives.  White space in the format skips white space in the input, any other
    character must match.  [AnyStr w] is %ws, [SetStr w f] is %w[...] *)
Inductive dir := Ws | Lit (c : nat) | ULong | AChar | AnyStr (w : nat) | SetStr (w : nat) (f : nat -> bool).
Inductive value := Num (n : N) | Str (s : text).

(** %lu: white space, perhaps a sign, and digits; strtoul gives ULONG_MAX when the number is too large *)
Definition ulong_max : N := 18446744073709551615.
Fixpoint read_digits (acc : N) (s : text) : N * text :=
  match s with
  | c :: s' => if isdigit c then read_digits (10 * acc + N.of_nat (c - 48)) s' else (acc, s)
  | [] => (acc, [])
  end.
Definition to_ulong (neg : bool) (v : N) : N :=
  if (ulong_max <? v)%N then ulong_max else if neg then ((ulong_max + 1 - v) mod (ulong_max + 1))%N else v.
Definition scan_ulong (s : text) : option (N * text) :=
  let s := skip s in
  let '(neg, s) := match s with
                   | c :: s' => if c =? 43 then (false, s') else if c =? 45 then (true, s') else (false, s)
                   | [] => (false, [])
                   end in
  match s with
  | c :: _ => if isdigit c then let r := read_digits 0 s in Some (to_ulong neg (fst r), snd r) else None
  | [] => None
  end.
Fixpoint span (w : nat) (f : nat -> bool) (s : text) : text * text :=
  match w, s with
  | S w', c :: s' => if f c then let r := span w' f s' in (c :: fst r, snd r) else ([], s)
  | _, _ => ([], s)
  end.
(** the conversions made and the rest of the input.  Simplification: after a failure the rest of the input is not
    used by the callers (a failed %lu may also have read a sign). *)
Fixpoint scan (f : list dir) (s : text) : list value * text :=
  match f with
  | [] => ([], s)
  | Ws :: f' => scan f' (skip s)
  | Lit c :: f' => match s with
                   | x :: s' => if x =? c then scan f' s' else ([], s)
                   | [] => ([], [])
                   end
  | ULong :: f' => match scan_ulong s with
                   | Some (n, s') => let r := scan f' s' in (Num n :: fst r, snd r)
                   | None => ([], s)
                   end
  | AChar :: f' => match s with
                   | c :: s' => let r := scan f' s' in (Num (N.of_nat c) :: fst r, snd r)
                   | [] => ([], [])
                   end
  | AnyStr w :: f' => let p := span w (fun c => negb (isspace c)) (skip s) in
                      match fst p with
                      | [] => ([], s)
                      | h => let r := scan f' (snd p) in (Str h :: fst r, snd r)
                      end
  | SetStr w g :: f' => let p := span w g s in
                        match fst p with
                        | [] => ([], s)
                        | h => let r := scan f' (snd p) in (Str h :: fst r, snd r)
                        end
  end.
(** formats with %lu and %c *)
Fixpoint fmt_of (l : list ascii) : list dir :=
  match l with
  | [] => []
  | ("%" :: "l" :: "u" :: l')%char => ULong :: fmt_of l'
  | ("%" :: "c" :: l')%char => AChar :: fmt_of l'
  | a :: l' => (if isspace (nat_of_ascii a) then Ws else Lit (nat_of_ascii a)) :: fmt_of l'
  end.
Definition fmt (s : string) : list dir := fmt_of (list_ascii_of_string s).

(** * Writing *)

(** the numbers PD_UNSET_IDX and PD_UNSET_POS of an edge that belongs to no crossing: in the model its positions are 4 *)
Definition show_end (c p : nat) : text :=
  show (if p =? 4 then 4294967295%N else N.of_nat c) ++ txt "," ++ show_nat p.
Definition sign_text (s : orient) : text := match s with Pos => txt "+" | Neg => txt "-" | Unset => [] end.
(** lines 2919-2935 *)
Definition cross_line (x : crossing) : text :=
  flat_map (fun e => show_nat e ++ txt " ") [ce0 x; ce1 x; ce2 x; ce3 x] ++ sign_text (csign x) ++ [10].
(** lines 2941-2947 *)
Definition edge_line (E : edge) : text :=
  show_end (e_tail E) (e_tailpos E) ++ txt " -> " ++ show_end (e_head E) (e_headpos E) ++ txt " " ++ [10].
(** lines 2953-2966; the tag is a char *)
Definition tag_byte (t : Z) : nat := Z.to_nat (t mod 256).
Definition comp_line (c : component) : text :=
  show_nat (List.length (cp_edge c)) ++ txt " : " ++ flat_map (fun e => show_nat e ++ txt " ") (cp_edge c) ++
  txt "tag " ++ [tag_byte (cp_tag c)] ++ [10].
(** lines 2972-2994 *)
Definition face_line (f : face) : text :=
  show_nat (List.length f) ++ txt " : " ++
  flat_map (fun a => (match snd a with Pos => txt "+ " | _ => txt "- " end) ++ show_nat (fst a) ++ txt " ") f ++ [10].
(** pd_write, lines 2877-2997: what is written to the file *)
Definition pd_write (d : pd) : text :=
  if (p_maxv d <? ncross d) || (MAXEDGES d <? nedges d) || (MAXCOMPONENTS d <? ncomps d) || (MAXFACES d <? nfaces d)
  then txt "INVALID PD CODE" ++ [10]
  else
    txt "pd " ++ p_hash d ++ txt " " ++ show_nat (p_uid d) ++ [10] ++
    txt "nv " ++ show_nat (ncross d) ++ [10] ++ flat_map cross_line (p_cross d) ++
    txt "ne " ++ show_nat (nedges d) ++ [10] ++ flat_map edge_line (p_edge d) ++
    txt "nc " ++ show_nat (ncomps d) ++ [10] ++ flat_map comp_line (p_comp d) ++
    txt "nf " ++ show_nat (nfaces d) ++ [10] ++ flat_map face_line (p_face d).

(** * Reading *)

(** pd_read returns NULL ([None]) on a bad format; the remaining input is given with the result *)
Definition try_ {A B} (e : res (option A)) (f : A -> res (option B)) : res (option B) :=
  do o <- e; match o with Some a => f a | None => Ok None end.
Notation "'try' x <- e ; f" := (try_ e (fun x => f)) (at level 200, x pattern, e at level 100, f at level 200, right associativity)
  : res_scope.
(** one fscanf that has to convert one number, or four *)
Definition num1 (f : list dir) (s : text) : option (N * text) :=
  match scan f s with ([Num a], s') => Some (a, s') | _ => None end.
Definition num4 (f : list dir) (s : text) : option (N * N * N * N * text) :=
  match scan f s with ([Num a; Num b; Num c; Num e], s') => Some (a, b, c, e, s') | _ => None end.
(** the cast to pd_idx_t or pd_pos_t *)
Definition idx (n : N) : nat := N.to_nat (n mod 4294967296).

(** fgets(pd_line,4096,infile), line 3139: at most 4095 characters, up to and including a newline *)
Fixpoint take_line (w : nat) (s : text) : text * text :=
  match w, s with
  | S w', c :: s' => if c =? 10 then ([c], s') else let r := take_line w' s' in (c :: fst r, snd r)
  | _, _ => ([], s)
  end.
(** the characters a-zA-Z0-9+/ *)
Definition hash_char (c : nat) : bool :=
  ((97 <=? c) && (c <=? 122)) || ((65 <=? c) && (c <=? 90)) || isdigit c || (c =? 43) || (c =? 47).
(** lines 3151-3233: hash and uid from the first line.  The hash is stored in an array of 32 characters, with a
    terminating 0. *)
Definition line_width : nat := Z.to_nat 4095.
Definition read_header (line : text) : res (option (text * N)) :=
  let hash_template := fmt " pd " ++ [SetStr 32 hash_char] ++ fmt " %lu " in
  let r := fst (scan hash_template line) in
  if match r with Str h :: _ => 32 <=? List.length h | _ => false end then UB
  else
    match r with
    | [Str h; Num u] => Ok (Some (h, u))
    | _ =>
        match fst (scan (fmt " pd " ++ [AnyStr (S line_width)] ++ fmt " %lu ") line) with
        | [] => match fst (scan (fmt " " ++ [AnyStr 32] ++ fmt " ") line) with
                | [Str w] => if list_eqb w (txt "pd") then Ok (Some (txt "unset", ulong_max)) else Ok None
                | _ => Ok None
                end
        | _ => Ok None
        end
    end.

(** [k] records, each read by [f] *)
Fixpoint read_many {A} (f : text -> res (option (A * text))) (k : nat) (s : text) : res (option (list A * text)) :=
  match k with
  | 0 => Ok (Some ([], s))
  | S k' =>
      try (a, s1) <- f s;
      try (l, s2) <- read_many f k' s1;
      Ok (Some (a :: l, s2))
  end.
(** fscanf with " %lu " into an index *)
Definition read_idx (s : text) : res (option (nat * text)) :=
  try (a, s1) <- Ok (num1 (fmt " %lu ") s);
  Ok (Some (idx a, s1)).

(** lines 3329-3363: one crossing.  The format " %lu " also skips the newline. *)
Definition read_cross (s : text) : res (option (crossing * text)) :=
  try (a, s1) <- read_idx s;
  try (b, s2) <- read_idx s1;
  try (c, s3) <- read_idx s2;
  try (e, s4) <- read_idx s3;
  let '(sg, s5) := match s4 with
                   | x :: s' => if x =? 43 then (Pos, s') else if x =? 45 then (Neg, s') else (Unset, s4)
                   | [] => (Unset, [])
                   end in
  Ok (Some (mkCross a b c e sg, s5)).

(** lines 3394-3415: one edge *)
Definition read_edge (s : text) : res (option (edge * text)) :=
  try (a, b, c, e, s1) <- Ok (num4 (fmt " %lu,%lu -> %lu,%lu ") s);
  Ok (Some (mkEdge (idx c) (idx e) (idx a) (idx b), s1)).

(** a byte as a (signed) char *)
Definition as_char (c : nat) : Z := if 128 <=? c then (Z.of_nat c - 256)%Z else Z.of_nat c.
(** ungetc((int)(testchar)): the byte 255 is EOF, which is not put back *)
Definition unget (c : nat) (s : text) : text := if c =? 255 then s else c :: s.
(** lines 3447-3527: the components, with the tag the next untagged one gets.  At the end of the file testchar is
    read uninitialised. *)
Definition read_comp (maxe : nat) (next_tag : Z) (s : text) : res (option (component * Z * text)) :=
  try (n, s1) <- Ok (num1 (fmt " %lu : ") s);
  if maxe <? idx n then Ok None
  else
    try (es, s2) <- read_many read_idx (idx n) s1;
    match skip s2 with
    | [] => UB
    | c :: s3 =>
        if c =? 116 then
          try (t, s4) <- Ok (num1 (fmt " tag %c ") (c :: s3));
          Ok (Some (mkComp es (as_char (N.to_nat t)), next_tag, s4))
        else Ok (Some (mkComp es next_tag, (next_tag + 1)%Z, unget c s3))
    end.
Fixpoint read_comps (maxe k : nat) (next_tag : Z) (s : text) : res (option (list component * text)) :=
  match k with
  | 0 => Ok (Some ([], s))
  | S k' =>
      try (c, t, s1) <- read_comp maxe next_tag s;
      try (l, s2) <- read_comps maxe k' t s1;
      Ok (Some (c :: l, s2))
  end.

(** lines 3594-3624: one edge of a face.  The format is " %1[+-]s ": the s after the set is a literal which does not
    match, unless an s follows the sign *)
Definition plus_minus (c : nat) : bool := (c =? 43) || (c =? 45).
Definition read_face_edge (s : text) : res (option ((nat * orient) * text)) :=
  match scan (fmt " " ++ [SetStr 1 plus_minus] ++ fmt "s ") s with
  | ([Str o], s1) =>
      try (e, s2) <- read_idx s1;
      Ok (Some ((e, match o with c :: _ => if c =? 43 then Pos else Neg | [] => Neg end), s2))
  | _ => Ok None
  end.
(** lines 3560-3626 *)
Definition read_face (maxe : nat) (s : text) : res (option (face * text)) :=
  try (n, s1) <- Ok (num1 (fmt " %lu : ") s);
  if maxe <? idx n then Ok None
  else read_many read_face_edge (idx n) s1.

(** lines 3265-3302: a diagram without crossings.  exit(1) at the end of the file is [Fail]. *)
Fixpoint after_tag (s : text) : option text :=
  match s with
  | [] => None
  | c :: s' =>
      if list_eqb (firstn 3 s) (txt "tag") then Some (skipn 3 s) else after_tag s'
  end.
Fixpoint upto_p (s : text) : text :=
  match s with
  | c :: s' => if c =? 112 then s else upto_p s'
  | [] => []
  end.
Definition read_unknot (s : text) : res (option pd * text) :=
  match after_tag s with
  | None => Fail
  | Some s1 =>
      let '(t, s2) := match scan (fmt " %c ") s1 with
                      | ([Num t], s2) => (as_char (N.to_nat t), s2)
                      | (_, s2) => (65%Z, s2)
                      end in
      do u <- pd_build_unknot0;
      do c <- get (p_comp u) 0;
      Ok (Some (with_comps u (upd 0 (mkComp (cp_edge c) t) (p_comp u))), upto_p s2)
  end.

(** strstr(hash,"unset") != NULL *)
Fixpoint has_unset (h : text) : bool :=
  list_eqb (firstn 5 h) (txt "unset") || match h with [] => false | _ :: h' => has_unset h' end.

(** lines 3306-3626: the rest of the code of a diagram with [n] > 0 crossings *)
Definition read_body (h : text) (u : N) (n : nat) (s : text) : res (option (pd * text)) :=
  let new := mkPd (maxverts_of n) (N.to_nat u) h [] [] [] [] in
  if p_maxv new <? n then Ok None
  else
    try (cs, s1) <- read_many read_cross n s;
    try (ne, s2) <- Ok (num1 (fmt " ne %lu ") s1);
    if MAXEDGES new <? idx ne then Ok None
    else
      try (es, s3) <- read_many read_edge (idx ne) s2;
      try (nc, s4) <- Ok (num1 (fmt "nc %lu ") s3);
      if MAXCOMPONENTS new <? idx nc then Ok None
      else
        try (cps, s5) <- read_comps (MAXEDGES new) (idx nc) 65%Z s4;
        try (nf, s6) <- Ok (num1 (fmt " nf %lu ") s5);
        if MAXFACES new <? idx nf then Ok None
        else
          try (fs, s7) <- read_many (read_face (MAXEDGES new)) (idx nf) s6;
          Ok (Some (mkPd (maxverts_of n) (N.to_nat u) h es cs cps fs, s7)).

(** pd_read, lines 3117-3638 with err = NULL: the diagram read (None for NULL) and the input that is left.
    Simplification: after NULL the input left is given as empty, its value is not modelled.  Running out of memory is
    not modelled either. *)
Definition pd_read (s : text) : res (option pd * text) :=
  match skip s with
  | [] => Ok (None, [])
  | s1 =>
      let '(line, s2) := take_line line_width s1 in
      do hu <- read_header line;
      match hu with
      | None => Ok (None, [])
      | Some (h, u) =>
          match num1 (fmt " nv %lu ") s2 with
          | None => Ok (None, [])
          | Some (n, s3) =>
              if idx n =? 0 then read_unknot s3
              else
                do r <- read_body h u (idx n) s3;
                match r with
                | None => Ok (None, [])
                | Some (d, s4) =>
                    do d1 <- pd_regenerate_crossings d;
                    do b <- pd_ok d1;
                    assert b;
                    do d2 <- (if has_unset (p_hash d1) then pd_regenerate_hash d1 else Ok d1);
                    Ok (Some d2, s4)
                end
          end
      end
  end.
