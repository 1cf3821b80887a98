(** ReadVal.v - read.go. *)
From Verif Require Export Scanner.

(** read.go:10-16 (ReadRune) *)
Definition read_rune : M (Z * option err) :=
  let* t := s_tail in
  let '(r, i) := decode_rune t in
  if r =? RuneError then let* e := error_for (lit "rune") in ret (RuneError, e)
  else let* ok := move (Z.of_nat i) in
       let* e := error_if_false ok (lit "rune") in ret (r, e).
(** read.go:19-25 (RevReadRune) *)
Definition rev_read_rune : M (Z * option err) :=
  let* h := s_head in
  let '(r, i) := decode_last_rune h in
  if r =? RuneError then let* e := error_for (lit "rune") in ret (r, e)
  else let* ok := move (- Z.of_nat i) in
       let* e := error_if_false ok (lit "rune") in ret (r, e).

(** read.go:34-62 (ReadBool) *)
Definition read_bool_strs (tstr fstr : bytes) : M (bool * option err) :=
  let* t := if_str tstr in
  if t then ret (true, None)
  else let* f := if_str fstr in
       if f then ret (false, None)
       else let* e := error_for (lit "bool") in ret (false, e).
Definition read_bool (format : bytes) : M (bool * option err) :=
  if bytes_eqb format [] || bytes_eqb format (lit "*") then
    let* t := if_any [lit "true"; lit "True"; lit "TRUE"] in
    if t then ret (true, None)
    else let* f := if_any [lit "false"; lit "False"; lit "FALSE"] in
         if f then ret (false, None)
         else let* e := error_for (lit "bool") in ret (false, e)
  else if bytes_eqb format (lit "l") then read_bool_strs (lit "true") (lit "false")
  else if bytes_eqb format (lit "U") then read_bool_strs (lit "TRUE") (lit "FALSE")
  else if bytes_eqb format (lit "Cc") then read_bool_strs (lit "True") (lit "False")
  else ret (false, Some (EOther (lit "invalid format"))).

(** read.go:135-158 (octValue, decValue, hexValue) *)
Definition oct_value (r : Z) : Z := if in_range 0x30 r 0x37 then r - 0x30 else -1.
Definition dec_value (r : Z) : Z := if in_range 0x30 r 0x39 then r - 0x30 else -1.
Definition hex_value (r : Z) : Z :=
  if in_range 0x30 r 0x39 then r - 0x30
  else if in_range 0x61 r 0x66 then (r - 0x61) + 10
  else if in_range 0x41 r 0x46 then (r - 0x41) + 10
  else -1.
Definition char_func (base : Z) : option (Z -> Z) :=
  if base =? 8 then Some oct_value
  else if base =? 10 then Some dec_value
  else if base =? 16 then Some hex_value
  else None.

(** read.go:80-93, 176-188: ranges of the bit sizes. *)
Definition int_bounds (bits : Z) : option (Z * Z) :=
  if bits =? 8 then Some (-128, 127)
  else if bits =? 16 then Some (-32768, 32767)
  else if bits =? 32 then Some (-2147483648, 2147483647)
  else if bits =? 64 then Some (-9223372036854775808, 9223372036854775807)
  else None.
Definition uint_max (bits : Z) : option Z :=
  if bits =? 8 then Some 255
  else if bits =? 16 then Some 65535
  else if bits =? 32 then Some 4294967295
  else if bits =? 64 then Some 18446744073709551615
  else None.

(** read.go:105-125: the digit loop of ReadInt; state (i64, n), int64 arithmetic. *)
Fixpoint read_int_loop (cf : Z -> Z) (base mn mx : Z) (neg : bool)
    (l : list (Z * Z)) (i64 n : Z) : Z * Z :=
  match l with
  | [] => (i64, n)
  | (i, r) :: t =>
    let v := cf r in
    if v =? -1 then (i64, n)
    else if neg then
      let tmp := wrap64 (wrap64 (i64 * base) - v) in
      if (i64 <? tmp) || (tmp <? mn) then (i64, n)
      else read_int_loop cf base mn mx neg t tmp i
    else
      let tmp := wrap64 (wrap64 (i64 * base) + v) in
      if (tmp <? i64) || (mx <? tmp) then (i64, n)
      else read_int_loop cf base mn mx neg t tmp i
  end.
(** read.go:67-133 (ReadInt) *)
Definition read_int (base bits : Z) : M (Z * option err) :=
  match char_func base with
  | None => ret (0, Some (EOther (lit "invalid base value " ++ itoa base)))
  | Some cf =>
    match int_bounds bits with
    | None => ret (0, Some (EOther (lit "invalid bitSize value " ++ itoa bits)))
    | Some (mn, mx) =>
      let* marker := mark in
      let* neg := if_rune 0x2D in
      (if neg then ret true else if_rune 0x2B) ;;
      let* t := s_tail in
      let '(i64, n) := read_int_loop cf base mn mx neg (range_str t) 0 (-1) in
      if n =? -1 then
        to_marker marker ;;
        let* e := error_for (lit "integer") in ret (0, e)
      else
        move (n + 1) ;; ret (i64, None)
    end
  end.

(** read.go:193-206: the digit loop of ReadUint, uint64 arithmetic. *)
Fixpoint read_uint_loop (cf : Z -> Z) (base mx : Z) (l : list (Z * Z)) (u64 n : Z) : Z * Z :=
  match l with
  | [] => (u64, n)
  | (i, r) :: t =>
    let v := cf r in
    if v =? -1 then (u64, n)
    else
      let tmp := wrapu64 (wrapu64 (u64 * base) + v) in
      if (tmp <? u64) || (mx <? tmp) then (u64, n)
      else read_uint_loop cf base mx t tmp i
  end.
(** read.go:163-213 (ReadUint) *)
Definition read_uint (base bits : Z) : M (Z * option err) :=
  match char_func base with
  | None => ret (0, Some (EOther (lit "invalid base value " ++ itoa base)))
  | Some cf =>
    match uint_max bits with
    | None => ret (0, Some (EOther (lit "invalid bitSize value " ++ itoa bits)))
    | Some mx =>
      let* t := s_tail in
      let '(u64, n) := read_uint_loop cf base mx (range_str t) 0 (-1) in
      if n =? -1 then let* e := error_for (lit "unsigned integer") in ret (0, e)
      else move (n + 1) ;; ret (u64, None)
    end
  end.
