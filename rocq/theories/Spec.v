(** Spec.v - the vocabulary in which properties are stated.  Nothing here is
    taken from the model except the result type, the state and the effect of
    setting the position ([moveto], State.v). *)
From Verif Require Export State.

(** ** UTF-8 (RFC 3629) *)

(** Unicode scalar values. *)
Definition is_scalar (r : Z) : Prop := 0 <= r <= 0xD7FF \/ 0xE000 <= r <= 0x10FFFF.

(** The encoding of a scalar value. *)
Definition utf8 (r : Z) : bytes :=
  if r <? 0x80 then [zb r]
  else if r <? 0x800 then [zb (0xC0 + r / 64); zb (0x80 + r mod 64)]
  else if r <? 0x10000 then
    [zb (0xE0 + r / 4096); zb (0x80 + (r / 64) mod 64); zb (0x80 + r mod 64)]
  else
    [zb (0xF0 + r / 262144); zb (0x80 + (r / 4096) mod 64);
     zb (0x80 + (r / 64) mod 64); zb (0x80 + r mod 64)].

Definition utf8s (rs : list Z) : bytes := flat_map utf8 rs.

(** Well-formed UTF-8 text. *)
Definition wf_text (s : bytes) : Prop := exists rs, Forall is_scalar rs /\ s = utf8s rs.

(** No encoded scalar value stands at the start of [s]. *)
Definition ill_formed_at (s : bytes) : Prop := forall r t, is_scalar r -> s <> utf8 r ++ t.

(** The runes of a Go string with the bytes they stand for: an encoded scalar
    value is one rune, a byte that starts none is one U+FFFD. *)
Inductive chunked : bytes -> list (Z * bytes) -> Prop :=
| ck_nil : chunked [] []
| ck_rune r s l : is_scalar r -> chunked s l -> chunked (utf8 r ++ s) ((r, utf8 r) :: l)
| ck_bad b s l : ill_formed_at (b :: s) -> chunked s l ->
    chunked (b :: s) ((0xFFFD, [b]) :: l).

(** Bytes covered by a list of chunks. *)
Definition chunk_bytes (l : list (Z * bytes)) : bytes := flat_map snd l.

(** ** Scanner states *)

(** The text is [a ++ b] and the scanner stands between [a] and [b].  The length
    of a Go string is an int. *)
Definition at_split (s : st) (a b : bytes) : Prop :=
  full (sc s) = a ++ b /\ pos (sc s) = slen a /\ slen (a ++ b) < 2 ^ 63.

(** Position inside the text. *)
Definition in_text (s : st) : Prop :=
  0 <= pos (sc s) <= slen (full (sc s)) /\ slen (full (sc s)) < 2 ^ 63.

(** [m] run in [s] answers yes and moves the scanner by [d] bytes. *)
Definition yes_by (m : M bool) (s : st) (d : Z) : Prop :=
  m s = Ok (true, moveto (pos (sc s) + d) s).
(** [m] run in [s] answers no and leaves everything as it was. *)
Definition no (m : M bool) (s : st) : Prop := m s = Ok (false, s).

(** ** Specification of the rune operations

    [l] are the chunks behind the scanner, [P] the property asked for. *)

(** "consume exactly one rune that satisfies P" *)
Definition one_rune (P : Z -> Prop) (m : M bool) (s : st) (l : list (Z * bytes)) : Prop :=
  match l with
  | [] => no m s
  | (v, c) :: _ => (P v -> yes_by m s (slen c)) /\ (~ P v -> no m s)
  end.

(** "go to the first rune that satisfies P" *)
Definition to_first (P : Z -> Prop) (m : M bool) (s : st) (l : list (Z * bytes)) : Prop :=
  (forall l1 v c l2, l = l1 ++ (v, c) :: l2 -> Forall (fun x => ~ P (fst x)) l1 -> P v ->
     yes_by m s (slen (chunk_bytes l1)))
  /\ (Forall (fun x => ~ P (fst x)) l -> no m s).

(** [l1] is the maximal run of chunks at the start of [l] that satisfy P. *)
Definition max_run (P : Z -> Prop) (l l1 l2 : list (Z * bytes)) : Prop :=
  l = l1 ++ l2 /\ Forall (fun x => P (fst x)) l1 /\
  (l2 = [] \/ exists v c l3, l2 = (v, c) :: l3 /\ ~ P v).

(** "skip the maximal run, yes iff something was skipped" *)
Definition skip_run (P : Z -> Prop) (m : M bool) (s : st) (l : list (Z * bytes)) : Prop :=
  forall l1 l2, max_run P l l1 l2 ->
    (l1 = [] -> no m s) /\ (l1 <> [] -> yes_by m s (slen (chunk_bytes l1))).

(** ** Looking backwards

    The text before the scanner is [h ++ utf8s rs] where the runes [rs] can be
    recognised from the end; U+FFFD and ill-formed bytes are where it stops. *)
Definition visible (r : Z) : Prop := is_scalar r /\ r <> 0xFFFD.
Definition blocked (h : bytes) : Prop := forall r t, visible r -> h <> t ++ utf8 r.

(** "go back behind the last rune that satisfies P" *)
Definition to_last (P : Z -> Prop) (m : M bool) (s : st) (rs : list Z) : Prop :=
  (forall r1 v r2, rs = r1 ++ v :: r2 -> Forall (fun x => ~ P x) r2 -> P v ->
     yes_by m s (- slen (utf8s r2)))
  /\ (Forall (fun x => ~ P x) rs -> no m s).

(** ** Case folding *)
Definition case_pair (a b : Z) : Prop := 0x41 <= a <= 0x5A /\ b = a + 32.
Definition same_fold {L : GoLib} (a b : Z) : Prop :=
  a = b \/
  (a < 0x80 /\ b < 0x80 /\ (case_pair a b \/ case_pair b a)) \/
  ((0x80 <= a \/ 0x80 <= b) /\ lib_fold (Z.min a b) (Z.max a b) = true).
(** Two strings are equal under folding: same number of runes, pairwise equal. *)
Definition fold_equal {L : GoLib} (x y : bytes) : Prop :=
  exists lx ly, chunked x lx /\ chunked y ly /\
    Forall2 (fun p q => same_fold (fst p) (fst q)) lx ly.

(** The last rune of a string and its bytes. *)
Inductive last_chunk : bytes -> Z -> bytes -> Prop :=
| lc_rune h r : is_scalar r -> last_chunk (h ++ utf8 r) r (utf8 r)
| lc_bad h b : (forall r t, is_scalar r -> h ++ [b] <> t ++ utf8 r) ->
    last_chunk (h ++ [b]) 0xFFFD [b].

(** "step back over exactly one rune that satisfies P"; [a] is the text before
    the scanner. *)
Definition one_rune_back (P : Z -> Prop) (m : M bool) (s : st) (a : bytes) : Prop :=
  (a = [] -> no m s) /\
  (forall v c, last_chunk a v c -> (P v -> yes_by m s (- slen c)) /\ (~ P v -> no m s)).

(** ** Numbers *)

(** Value of an ASCII digit in base 8, 10 or 16. *)
Definition digit_val (base : Z) (b : byte) : option Z :=
  let v := bz b in
  let d := if (0x30 <=? v) && (v <=? 0x39) then v - 0x30
           else if (0x61 <=? v) && (v <=? 0x66) then v - 0x61 + 10
           else if (0x41 <=? v) && (v <=? 0x46) then v - 0x41 + 10
           else base in
  if d <? base then Some d else None.
Definition is_base (base : Z) : Prop := base = 8 \/ base = 10 \/ base = 16.
(** Digits [ds], most significant first, continuing the number [acc]. *)
Fixpoint horner (base acc : Z) (ds : bytes) : Z :=
  match ds with
  | [] => acc
  | d :: t => horner base (acc * base + match digit_val base d with Some v => v | None => 0 end) t
  end.
Definition is_digit (base : Z) (b : byte) : Prop := exists v, digit_val base b = Some v.
Definition no_digit_at (base : Z) (t : bytes) : Prop :=
  forall d t', t = d :: t' -> ~ is_digit base d.

(** [m] run in [s] answers [x], stands at [p] and has not touched the text. *)
Definition answers {A} (m : M A) (s : st) (x : A) (p : Z) : Prop :=
  exists s', m s = Ok (x, s') /\ pos (sc s') = p /\ full (sc s') = full (sc s)
             /\ trk (sc s') = trk (sc s).

(** The spellings of the ReadBool formats. *)
Definition bool_spellings (format : bytes) : option (list (bytes * bool)) :=
  if bytes_eqb format [] || bytes_eqb format (lit "*") then
    Some [(lit "true", true); (lit "True", true); (lit "TRUE", true);
          (lit "false", false); (lit "False", false); (lit "FALSE", false)]
  else if bytes_eqb format (lit "l") then Some [(lit "true", true); (lit "false", false)]
  else if bytes_eqb format (lit "U") then Some [(lit "TRUE", true); (lit "FALSE", false)]
  else if bytes_eqb format (lit "Cc") then Some [(lit "True", true); (lit "False", false)]
  else None.

(** Positional notation with lower case letters (strconv.FormatInt). *)
Definition digit_char (v : Z) : byte := if v <? 10 then zb (0x30 + v) else zb (0x61 + (v - 10)).
Fixpoint print_loop (k : nat) (base v : Z) : bytes :=
  match k with
  | O => []
  | S k' => if v <? base then [digit_char v]
            else print_loop k' base (v / base) ++ [digit_char (v mod base)]
  end.
(** 64 digits are enough for 64 bits. *)
Definition print_uint (base v : Z) : bytes := print_loop 64 base v.
Definition print_int (base v : Z) : bytes :=
  if v <? 0 then x2d :: print_uint base (- v) else print_uint base v.

(** ** Scoped operations *)

(** Between two positions, whichever comes first. *)
Definition span (p q : Z) : token := mkTok (Z.min p q) (Z.max p q).
Definition part (s : st) (p q : Z) : bytes := slice (full (sc s)) (Z.min p q) (Z.max p q).

(** The wrapped code is arbitrary; it is only assumed to have stayed in the text. *)
Definition stays (s s' : st) : Prop := in_text s /\ in_text s' /\ full (sc s') = full (sc s).

(** Number of occurrences of a byte. *)
Definition occ (c : byte) (s : bytes) : Z := Z.of_nat (count_occ Byte.byte_eq_dec s c).

(** A client loop: call [m] up to [n] times, collecting the runes, until it fails. *)
Fixpoint walk (m : M (Z * option err)) (n : nat) : M (list Z) :=
  match n with
  | O => ret []
  | S n' => let* x := m in
            match snd x with
            | None => let* l := walk m n' in ret (fst x :: l)
            | Some _ => ret []
            end
  end.

(** [x] ends in something that equals [str] under folding. *)
Definition fold_suffix {L : GoLib} (x str : bytes) : Prop :=
  exists c d, x = c ++ d /\ slen d = slen str /\ fold_equal d str.

(** The digits [ds] are the longest run at the start of [t] whose value
    satisfies [fits]. *)
Definition longest_digits (base : Z) (fits : Z -> Prop) (t ds : bytes) : Prop :=
  exists u, t = ds ++ u /\ Forall (is_digit base) ds /\ fits (horner base 0 ds) /\
    (no_digit_at base u \/
     exists d u', u = d :: u' /\ is_digit base d /\ ~ fits (horner base 0 (ds ++ [d]))).

(** An optional sign, [true] for minus. *)
Inductive sign_split : bytes -> bool -> bytes -> bytes -> Prop :=
| ss_neg t : sign_split (x2d :: t) true [x2d] t
| ss_pos t : sign_split (x2b :: t) false [x2b] t
| ss_none t : (forall u, t <> x2d :: u) -> (forall u, t <> x2b :: u) -> sign_split t false [] t.
Definition sgn (neg : bool) (u : Z) : Z := if neg then - u else u.
(** Ranges of the bit sizes. *)
Definition int_fits (bits v : Z) : Prop := - 2 ^ (bits - 1) <= v < 2 ^ (bits - 1).
Definition uint_fits (bits v : Z) : Prop := 0 <= v < 2 ^ bits.
Definition is_size (bits : Z) : Prop := bits = 8 \/ bits = 16 \/ bits = 32 \/ bits = 64.

(** RevWhile*: back over the maximal run [r2] of matching runes at the end of
    [rs]; the answer is yes unless there is no text before the position. *)
Definition rev_run (P : Z -> Prop) (m : M bool) (s : st) (rs : list Z) : Prop :=
  forall r1 r2, rs = r1 ++ r2 -> Forall P r2 -> (r1 = [] \/ exists r3 v, r1 = r3 ++ [v] /\ ~ P v) ->
    (rs = [] -> no m s) /\ (rs <> [] -> yes_by m s (- slen (utf8s r2))).
