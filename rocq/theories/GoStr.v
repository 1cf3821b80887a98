(** GoStr.v - the parts of Go's standard library (unicode/utf8, strings,
    strconv) that /repo calls.  They are not part of /repo: this file is the
    trusted reading of the library (Go 1.16, the version named in
    /repo/go.mod:3).  Every definition names the library function it stands for
    and where /repo uses it. *)
From Coq Require Import Lia.
From Verif Require Export Base.

(** Library behaviour that depends on Unicode tables or on the runtime; every
    theorem quantifies over it.
    - [lib_fold a b]: unicode.SimpleFold orbit test for a<b, b non-ASCII
      (strings.EqualFold);
    - [lib_print r]: strconv.IsPrint or the "graphic list", r >= 0x80;
    - [lib_grow c]: capacity that append asks for when a slice of capacity c is full. *)
Class GoLib := {
  lib_fold : Z -> Z -> bool;
  lib_print : Z -> bool;
  lib_grow : nat -> nat
}.

(** unicode/utf8 constants: RuneError, RuneSelf, MaxRune. *)
Definition RuneError : Z := 0xFFFD.
Definition MaxRune : Z := 0x10FFFF.

(** utf8.first / utf8.acceptRanges: for a lead byte of a multi-byte sequence,
    its length and the range of the second byte. *)
Definition lead_info (s0 : Z) : option (nat * Z * Z) :=
  if s0 <? 0xC2 then None
  else if s0 <=? 0xDF then Some (2%nat, 0x80, 0xBF)
  else if s0 =? 0xE0 then Some (3%nat, 0xA0, 0xBF)
  else if s0 =? 0xED then Some (3%nat, 0x80, 0x9F)
  else if s0 <=? 0xEF then Some (3%nat, 0x80, 0xBF)
  else if s0 =? 0xF0 then Some (4%nat, 0x90, 0xBF)
  else if s0 <=? 0xF3 then Some (4%nat, 0x80, 0xBF)
  else if s0 =? 0xF4 then Some (4%nat, 0x80, 0x8F)
  else None.

Definition in_byte (lo : Z) (b : byte) (hi : Z) : bool := (lo <=? bz b) && (bz b <=? hi).

(** utf8.DecodeRuneInString: the first rune and its width; (RuneError,0) for "",
    (RuneError,1) for an ill-formed sequence.  The bit operations on the payload
    bits are written as arithmetic ([s0&0x1F] = [s0-0xC0] etc.). *)
Definition decode_rune (s : bytes) : Z * nat :=
  match s with
  | [] => (RuneError, 0%nat)
  | b0 :: t0 =>
    if bz b0 <? 0x80 then (bz b0, 1%nat)
    else match lead_info (bz b0) with
    | None => (RuneError, 1%nat)
    | Some (sz, lo, hi) =>
      if Nat.ltb (length s) sz then (RuneError, 1%nat)
      else match t0 with
      | [] => (RuneError, 1%nat)
      | b1 :: t1 =>
        if negb (in_byte lo b1 hi) then (RuneError, 1%nat)
        else if Nat.leb sz 2 then ((bz b0 - 0xC0) * 64 + (bz b1 - 0x80), 2%nat)
        else match t1 with
        | [] => (RuneError, 1%nat)
        | b2 :: t2 =>
          if negb (in_byte 0x80 b2 0xBF) then (RuneError, 1%nat)
          else if Nat.leb sz 3 then
            ((bz b0 - 0xE0) * 4096 + (bz b1 - 0x80) * 64 + (bz b2 - 0x80), 3%nat)
          else match t2 with
          | [] => (RuneError, 1%nat)
          | b3 :: _ =>
            if negb (in_byte 0x80 b3 0xBF) then (RuneError, 1%nat)
            else ((bz b0 - 0xF0) * 262144 + (bz b1 - 0x80) * 4096
                  + (bz b2 - 0x80) * 64 + (bz b3 - 0x80), 4%nat)
          end
        end
      end
    end
  end.

(** utf8.RuneStart *)
Definition rune_start (b : byte) : bool := negb (in_byte 0x80 b 0xBF).

(** The search loop of utf8.DecodeLastRuneInString: from [start-1] down to [lim]
    for a byte that can start a rune; [lim-1] if there is none. *)
Fixpoint last_start (k : nat) (s : bytes) (start lim : Z) : Z :=
  match k with
  | O => start
  | S k' =>
    if start <? lim then start
    else if rune_start (nth (Z.to_nat start) s x00) then start
    else last_start k' s (start - 1) lim
  end.

(** utf8.DecodeLastRuneInString: last rune and its width. *)
Definition decode_last_rune (s : bytes) : Z * nat :=
  let en := slen s in
  if en =? 0 then (RuneError, 0%nat)
  else
    let start := en - 1 in
    let r := bz (nth (Z.to_nat start) s x00) in
    if r <? 0x80 then (r, 1%nat)
    else
      let lim := Z.max 0 (en - 4) in
      let start := last_start 5 s (start - 1) lim in
      let start := Z.max 0 start in
      let '(r, size) := decode_rune (slice s start en) in
      if start + Z.of_nat size =? en then (r, size) else (RuneError, 1%nat).

(** utf8.RuneLen *)
Definition rune_len (r : Z) : Z :=
  if r <? 0 then -1
  else if r <=? 0x7F then 1
  else if r <=? 0x7FF then 2
  else if (0xD800 <=? r) && (r <=? 0xDFFF) then -1
  else if r <=? 0xFFFF then 3
  else if r <=? MaxRune then 4
  else -1.

(** utf8.ValidRune *)
Definition valid_rune (r : Z) : bool :=
  ((0 <=? r) && (r <? 0xD800)) || ((0xDFFF <? r) && (r <=? MaxRune)).

(** string(r) / utf8.EncodeRune *)
Definition encode_rune (r : Z) : bytes :=
  let r := if valid_rune r then r else RuneError in
  if r <=? 0x7F then [zb r]
  else if r <=? 0x7FF then [zb (0xC0 + r / 64); zb (0x80 + r mod 64)]
  else if r <=? 0xFFFF then
    [zb (0xE0 + r / 4096); zb (0x80 + (r / 64) mod 64); zb (0x80 + r mod 64)]
  else
    [zb (0xF0 + r / 262144); zb (0x80 + (r / 4096) mod 64);
     zb (0x80 + (r / 64) mod 64); zb (0x80 + r mod 64)].

(** [for i, r := range s]: the list of (byte index, rune) pairs, starting to
    count at [i]; [skip] bytes still belong to the previous rune. *)
Fixpoint range_from (s : bytes) (skip : nat) (i : Z) : list (Z * Z) :=
  match s with
  | [] => []
  | _ :: t =>
    match skip with
    | S k => range_from t k (i + 1)
    | O => let '(r, w) := decode_rune s in (i, r) :: range_from t (Nat.pred w) (i + 1)
    end
  end.
Definition range_str (s : bytes) : list (Z * Z) := range_from s 0 0.
(** []rune(s) *)
Definition runes (s : bytes) : list Z := map snd (range_str s).

(** strings.HasPrefix / strings.HasSuffix *)
Fixpoint has_prefix (s p : bytes) : bool :=
  match p, s with
  | [], _ => true
  | x :: p', y :: s' => Byte.eqb x y && has_prefix s' p'
  | _ :: _, [] => false
  end.
Definition has_suffix (s p : bytes) : bool :=
  (slen p <=? slen s) && bytes_eqb (skipn (length s - length p) s) p.

(** strings.Index ([None] is -1) *)
Fixpoint index (s sub : bytes) : option Z :=
  if has_prefix s sub then Some 0
  else match s with
       | [] => None
       | _ :: t => match index t sub with Some i => Some (i + 1) | None => None end
       end.
(** strings.Contains *)
Definition contains (s sub : bytes) : bool :=
  match index s sub with Some _ => true | None => false end.

(** strings.IndexRune(s,r) >= 0, i.e. strings.ContainsRune *)
Definition contains_rune (s : bytes) (r : Z) : bool :=
  if (0 <=? r) && (r <? 0x80) then existsb (fun b => bz b =? r) s
  else if r =? RuneError then existsb (fun ir => snd ir =? RuneError) (range_str s)
  else if negb (valid_rune r) then false
  else contains s (encode_rune r).

(** strings.IndexAny: first rune of s that IndexRune finds in chars. (The
    library's ASCII fast paths are not modelled separately.) *)
Fixpoint index_any_loop (l : list (Z * Z)) (chars : bytes) : option Z :=
  match l with
  | [] => None
  | (i, c) :: t => if contains_rune chars c then Some i else index_any_loop t chars
  end.
Definition index_any (s chars : bytes) : option Z := index_any_loop (range_str s) chars.

(** strings.EqualFold: the comparison of one rune pair, and the loop.  [k] bounds
    the number of runes; [length s] iterations always suffice. *)
Definition fold_eq1 {L : GoLib} (sr tr : Z) : bool :=
  if tr =? sr then true
  else
    let lo := Z.min sr tr in
    let hi := Z.max sr tr in
    if hi <? 0x80 then (0x41 <=? lo) && (lo <=? 0x5A) && (hi =? lo + 32)
    else lib_fold lo hi.
Fixpoint equal_fold_loop {L : GoLib} (k : nat) (s t : bytes) : bool :=
  match k with
  | O => bytes_eqb s t
  | S k' =>
    match s, t with
    | [], _ | _, [] => bytes_eqb s t
    | _, _ =>
      let '(sr, sw) := decode_rune s in
      let '(tr, tw) := decode_rune t in
      if fold_eq1 sr tr then equal_fold_loop k' (skipn sw s) (skipn tw t) else false
    end
  end.
Definition equal_fold {L : GoLib} (s t : bytes) : bool := equal_fold_loop (length s) s t.

(** strings.ReplaceAll(s, "\r\n", "\n") (scanner.go:310) *)
Fixpoint replace_crlf (s : bytes) : bytes :=
  match s with
  | [] => []
  | b :: t =>
    match t with
    | b' :: t' => if Byte.eqb b x0d && Byte.eqb b' x0a then x0a :: replace_crlf t'
                  else b :: replace_crlf t
    | [] => [b]
    end
  end.
(** strings.Split(s, "\n") (scanner.go:310); never empty. *)
Fixpoint split_nl (s : bytes) : list bytes :=
  match s with
  | [] => [[]]
  | b :: t =>
    if Byte.eqb b x0a then [] :: split_nl t
    else match split_nl t with
         | l :: ls => (b :: l) :: ls
         | [] => [[b]]
         end
  end.
(** strings.Count(s, "\t") (scanner.go:315) *)
Definition count_byte (b : byte) (s : bytes) : Z := slen (filter (Byte.eqb b) s).

(** strings.Join *)
Fixpoint join (l : list bytes) (sep : bytes) : bytes :=
  match l with
  | [] => []
  | [x] => x
  | x :: t => x ++ sep ++ join t sep
  end.

(** strconv.QuoteToGraphic, strconv.QuoteRuneToGraphic, strings.Trim(_, "'"). *)
Definition hex_digit (z : Z) : byte :=
  if z <? 10 then zb (0x30 + z) else zb (0x61 + (z - 10)).
Definition is_graphic {L : GoLib} (r : Z) : bool :=
  if r <? 0x80 then (0x20 <=? r) && (r <? 0x7F) else lib_print r.
Definition escape_rune {L : GoLib} (r quote : Z) : bytes :=
  if (r =? quote) || (r =? 0x5C) then x5c :: encode_rune r
  else if is_graphic r then encode_rune r
  else if r =? 7 then lit "\a"
  else if r =? 8 then lit "\b"
  else if r =? 12 then lit "\f"
  else if r =? 10 then lit "\n"
  else if r =? 13 then lit "\r"
  else if r =? 9 then lit "\t"
  else if r =? 11 then lit "\v"
  else if r <? 0x20 then lit "\x" ++ [hex_digit (r / 16); hex_digit (r mod 16)]
  else
    let r := if valid_rune r then r else RuneError in
    if r <? 0x10000 then
      lit "\u" ++ map (fun k => hex_digit ((r / 16 ^ k) mod 16)) [3; 2; 1; 0]
    else
      lit "\U" ++ map (fun k => hex_digit ((r / 16 ^ k) mod 16)) [7; 6; 5; 4; 3; 2; 1; 0].
Fixpoint quote_body {L : GoLib} (s : bytes) (skip : nat) : bytes :=
  match s with
  | [] => []
  | b :: t =>
    match skip with
    | S k => quote_body t k
    | O =>
      let '(r, w) := decode_rune s in
      (if (r =? RuneError) && Nat.eqb w 1
       then lit "\x" ++ [hex_digit (bz b / 16); hex_digit (bz b mod 16)]
       else escape_rune r 0x22)
      ++ quote_body t (Nat.pred w)
    end
  end.
Definition quote_str {L : GoLib} (s : bytes) : bytes := x22 :: quote_body s 0 ++ [x22].
Definition quote_rune_graphic {L : GoLib} (r : Z) : bytes :=
  let r := if valid_rune r then r else RuneError in
  x27 :: escape_rune r 0x27 ++ [x27].
Fixpoint trim_left_quote (s : bytes) : bytes :=
  match s with
  | b :: t => if Byte.eqb b x27 then trim_left_quote t else s
  | [] => []
  end.
Definition trim_quote (s : bytes) : bytes := rev (trim_left_quote (rev (trim_left_quote s))).
