(** Scanner.v - scanner.go, scanner_rev.go, intl.go, token.go, error.go and the
    Use/Trace helpers of reader.go:33-73. *)
From Verif Require Export State.

(* ------------------------------------------------------------------ state *)

(** scanner.go:299-301 (Tail): slicing panics if pos is out of range. *)
Definition s_tail : M bytes := fun s =>
  if (0 <=? pos (sc s)) && (pos (sc s) <=? slen (full (sc s)))
  then Ok (skipn (Z.to_nat (pos (sc s))) (full (sc s)), s) else Panic.
(** scanner.go:304-306 (Head) *)
Definition s_head : M bytes := fun s =>
  if (0 <=? pos (sc s)) && (pos (sc s) <=? slen (full (sc s)))
  then Ok (firstn (Z.to_nat (pos (sc s))) (full (sc s)), s) else Panic.
(** scanner.go:395-397 (Mark) *)
Definition mark : M Z := gets (fun s => pos (sc s)).
(** scanner.go:321-331 (Move); the sum is an int64. *)
Definition move (n : Z) : M bool := fun s =>
  let npos := wrap64 (pos (sc s) + n) in
  if (npos <? 0) || (slen (full (sc s)) <? npos) then Ok (false, s)
  else Ok (true, moveto npos s).
(** scanner.go:373-382 (ToMarker); the guard is the one written in the code. *)
Definition to_marker (m : Z) : M bool := fun s =>
  if (m <? 0) && (slen (full (sc s)) <=? m) then Ok (false, s)
  else Ok (true, moveto m s).
(** scanner.go:385-392 (ToEnd, ToStart) *)
Definition to_end : M bool := fun s => to_marker (slen (full (sc s))) s.
Definition to_start : M bool := to_marker 0.
(** scanner.go:358-365 (AtEnd, AtStart) *)
Definition at_end : M bool := gets (fun s => slen (full (sc s)) =? pos (sc s)).
Definition at_start : M bool := gets (fun s => pos (sc s) =? 0).

(** scanner.go:309-318 (LineCol); the empty-split branch cannot be taken but is kept; the column is an int64. *)
Definition line_col (tab : Z) : M (Z * Z) :=
  let* h := s_head in
  let lines := split_nl (replace_crlf h) in
  match lines with
  | [] => ret (0, 0)
  | _ =>
    let lst := last lines [] in
    let tabs := count_byte x09 lst in
    let n := wrap64 ((slen lst - tabs) + wrap64 (tabs * tab)) in
    ret (slen lines, wrap64 (n + 1))
  end.

(* ------------------------------------------------------------------- intl *)

(** intl.go:9-35 (revItr).  One call of next(): decode the last rune of Str; stop
    at RuneError (also at a genuine U+FFFD), otherwise the loop body sees (Str,Val)
    and the following next() cuts the rune off.  [rev_iter] lists the (Str,Val)
    pairs the loop body sees and the final Str; every step cuts at least one byte,
    so [length str] steps suffice ([n] is only the recursion bound). *)
Fixpoint rev_iter (n : nat) (str : bytes) : list (bytes * Z) * bytes :=
  let '(v, vi) := decode_last_rune str in
  if v =? RuneError then ([], str)
  else match n with
       | O => ([], str)
       | S n' =>
         let '(items, final) := rev_iter n' (firstn (length str - vi) str) in
         ((str, v) :: items, final)
       end.
Definition rev_items (str : bytes) : list (bytes * Z) * bytes := rev_iter (length str) str.

(** intl.go:39-48 (getPrefix) *)
Fixpoint get_prefix_loop (str : bytes) (n : Z) (l : list (Z * Z)) (count : Z) : bytes * bool :=
  match l with
  | [] => (str, false)
  | (i, _) :: t =>
    if count =? n then (firstn (Z.to_nat i) str, true)
    else get_prefix_loop str n t (count + 1)
  end.
Definition get_prefix (str : bytes) (n : Z) : bytes * bool :=
  get_prefix_loop str n (range_str str) 0.

(** intl.go:50-59 (midSubString), intl.go:61-65 (subStringFrom) *)
Fixpoint mid_loop (str : bytes) (from : Z) (l : list (Z * Z)) (c : Z) : bytes :=
  match l with
  | [] => []
  | (i, _) :: t => if c =? from then skipn (Z.to_nat i) str else mid_loop str from t (c + 1)
  end.
Definition mid_sub_string (str : bytes) (from : Z) : bytes := mid_loop str from (range_str str) 0.
Definition sub_string_from (str : bytes) (from n : Z) : bytes :=
  fst (get_prefix (mid_sub_string str from) n).

(** scanner.go:206-208 (inRange) *)
Definition in_range (mn v mx : Z) : bool := (mn <=? v) && (v <=? mx).

(* ----------------------------------------------------------------- string *)

(** scanner.go:72-77 (If) *)
Definition if_str (str : bytes) : M bool :=
  let* t := s_tail in
  if has_prefix t str then move (slen str) else ret false.
(** scanner.go:81-88 (IfAny) *)
Fixpoint if_any (strs : list bytes) : M bool :=
  match strs with
  | [] => ret false
  | x :: xs => let* ok := if_str x in if ok then ret true else if_any xs
  end.
(** scanner.go:92-98 (To) *)
Definition to_str (str : bytes) : M bool :=
  let* t := s_tail in
  match index t str with
  | Some i => move i
  | None => ret false
  end.
(** scanner.go:61-67 (ScanString) *)
Definition scan_string (n : Z) : M (bytes * bool) :=
  let* t := s_tail in
  let '(sub, ok) := get_prefix t n in
  if ok then let* ok' := move (slen sub) in ret (sub, ok') else ret (sub, false).

(* ------------------------------------------------------------------- fold *)

(** scanner.go:103-110 (IfFold): slicing Tail()[:i] panics if i > len. *)
Definition if_fold {L : GoLib} (str : bytes) : M bool :=
  let i := slen str in
  let* t := s_tail in
  if slen t <? i then panic
  else if equal_fold (firstn (length str) t) str then move i else ret false.
(** scanner.go:114-124 (ToFold); the loop counter is n. *)
Fixpoint to_fold_loop {L : GoLib} (sub str : bytes) (k : nat) (n : Z) : option Z :=
  if slen sub <? slen str + n then None
  else if equal_fold (slice sub n (n + slen str)) str then Some n
  else match k with
       | O => None
       | S k' => to_fold_loop sub str k' (n + 1)
       end.
Definition to_fold {L : GoLib} (str : bytes) : M bool :=
  let* t := s_tail in
  match to_fold_loop t str (length t) 0 with
  | Some n => move n
  | None => ret false
  end.

(* ------------------------------------------------------------------- rune *)

(** scanner.go:129-135 (IfRune); DecodeRuneInString never returns width -1. *)
Definition if_rune (r : Z) : M bool :=
  let* t := s_tail in
  let '(first, i) := decode_rune t in
  if negb (first =? r) then ret false else move (Z.of_nat i).

(** The loops [for i, v := range s.Tail()] that stop at the first rune for which
    [p] holds. *)
Fixpoint find_rune (p : Z -> bool) (l : list (Z * Z)) : option Z :=
  match l with
  | [] => None
  | (i, v) :: t => if p v then Some i else find_rune p t
  end.

(** scanner.go:140-147 (ToRune) *)
Definition to_rune (r : Z) : M bool :=
  let* t := s_tail in
  match find_rune (fun v => v =? r) (range_str t) with
  | Some i => move i
  | None => ret false
  end.
(** scanner.go:151-162 (WhileRune) *)
Definition while_rune (r : Z) : M bool :=
  let* t := s_tail in
  if slen t =? 0 then ret false
  else match find_rune (fun v => negb (v =? r)) (range_str t) with
       | Some i => move i
       | None => to_end
       end.

(* ---------------------------------------------------------------- anyrune *)

(** scanner.go:167-174 (IfAnyRune): for _, r := range str { if s.IfRune(r) .. } *)
Fixpoint if_any_rune_loop (rs : list Z) : M bool :=
  match rs with
  | [] => ret false
  | r :: rs' => let* ok := if_rune r in if ok then ret true else if_any_rune_loop rs'
  end.
Definition if_any_rune (str : bytes) : M bool := if_any_rune_loop (runes str).
(** scanner.go:178-184 (ToAnyRune) *)
Definition to_any_rune (str : bytes) : M bool :=
  let* t := s_tail in
  match index_any t str with
  | Some i => move i
  | None => ret false
  end.
(** scanner.go:188-202 (WhileAnyRune); ends with a bare [return true]. *)
Definition while_any_rune (str : bytes) : M bool :=
  let* t := s_tail in
  if slen t =? 0 then ret false
  else match find_rune (fun v => negb (contains_rune str v)) (range_str t) with
       | Some i => if i =? 0 then ret false else move i
       | None => ret true
       end.

(* ---------------------------------------------------------------- between *)

(** scanner.go:212-221 (IfBetween) *)
Definition if_between (mn mx : Z) : M bool :=
  let* t := s_tail in
  if slen t =? 0 then ret false
  else let '(v, i) := decode_rune t in
       if negb (in_range mn v mx) then ret false else move (Z.of_nat i).
(** scanner.go:225-236 (ToBetween) *)
Definition to_between (mn mx : Z) : M bool :=
  let* t := s_tail in
  if slen t =? 0 then ret false
  else match find_rune (fun v => in_range mn v mx) (range_str t) with
       | Some i => move i
       | None => ret false
       end.
(** scanner.go:240-251 (WhileBetween) *)
Definition while_between (mn mx : Z) : M bool :=
  let* t := s_tail in
  if slen t =? 0 then ret false
  else match find_rune (fun v => negb (in_range mn v mx)) (range_str t) with
       | Some i => move i
       | None => to_end
       end.

(* ------------------------------------------------------------------ match *)

(** scanner.go:255 (MatchFunc) is a pure function of the rune here. *)
(** scanner.go:259-265 (IfMatch) *)
Definition if_match (check : Z -> bool) : M bool :=
  let* t := s_tail in
  let '(first, i) := decode_rune t in
  if negb (Nat.eqb i 0) && check first then move (Z.of_nat i) else ret false.
(** scanner.go:269-276 (ToMatch) *)
Definition to_match (check : Z -> bool) : M bool :=
  let* t := s_tail in
  match find_rune check (range_str t) with
  | Some i => move i
  | None => ret false
  end.
(** scanner.go:280-295 (WhileMatch); ends with [return false]. *)
Definition while_match (check : Z -> bool) : M bool :=
  let* t := s_tail in
  if slen t =? 0 then ret false
  else match find_rune (fun v => negb (check v)) (range_str t) with
       | Some i => if i =? 0 then ret false else move i
       | None => ret false
       end.

(* -------------------------------------------------------------- MoveRunes *)

(** scanner.go:334-355 (MoveRunes); the width of the last rune is recomputed
    with RuneLen from its value. *)
Fixpoint move_runes_fwd (n : Z) (l : list (Z * Z)) (c : Z) : option Z :=
  match l with
  | [] => None
  | (i, r) :: t => if n =? c + 1 then Some (i + rune_len r) else move_runes_fwd n t (c + 1)
  end.
Fixpoint move_runes_rev (init n : Z) (l : list (bytes * Z)) (c : Z) : option Z :=
  match l with
  | [] => None
  | (str, v) :: t =>
    if n =? c - 1 then Some (- ((init - slen str) + rune_len v))
    else move_runes_rev init n t (c - 1)
  end.
Definition move_runes (n : Z) : M bool :=
  if 0 <? n then
    let* t := s_tail in
    match move_runes_fwd n (range_str t) 0 with
    | Some d => move d
    | None => ret false
    end
  else if n <? 0 then
    let* h := s_head in
    match move_runes_rev (slen h) n (fst (rev_items h)) 0 with
    | Some d => move d
    | None => ret false
    end
  else ret true.

(* ---------------------------------------------------------------- reverse *)

(** scanner_rev.go:10-14 (NewRevScanner) *)
Definition new_rev_scanner (str : bytes) : scanner := mkSc str (slen str) None.

(** scanner_rev.go:19-24 (RevIf) *)
Definition rev_if (str : bytes) : M bool :=
  let* h := s_head in
  if has_suffix h str then move (- slen str) else ret false.
(** scanner_rev.go:28-35 (RevIfAny) *)
Fixpoint rev_if_any (strs : list bytes) : M bool :=
  match strs with
  | [] => ret false
  | x :: xs => let* ok := rev_if x in if ok then ret true else rev_if_any xs
  end.

(** Loops over revItr that stop at the first (Str,Val) for which [p] holds; the
    result is itr.pos() there (intl.go:33-35). *)
Fixpoint find_rev (p : bytes -> Z -> bool) (init : Z) (l : list (bytes * Z)) : option Z :=
  match l with
  | [] => None
  | (str, v) :: t => if p str v then Some (init - slen str) else find_rev p init t
  end.

(** scanner_rev.go:39-48 (RevTo) *)
Definition rev_to (str : bytes) : M bool :=
  let* h := s_head in
  match find_rev (fun s _ => has_suffix s str) (slen h) (fst (rev_items h)) with
  | Some p => move (- p)
  | None => ret false
  end.
(** scanner_rev.go:53-61 (RevIfFold): head[len(head)-i:] panics if i > len. *)
Definition rev_if_fold {L : GoLib} (str : bytes) : M bool :=
  let* h := s_head in
  if slen h <? slen str then panic
  else if equal_fold (skipn (length h - length str) h) str then move (- slen str) else ret false.
(** scanner_rev.go:65-76 (RevToFold): itr.Str[len(itr.Str)-i:] panics if too short. *)
Fixpoint rev_to_fold_loop {L : GoLib} (str : bytes) (init : Z) (l : list (bytes * Z)) : M bool :=
  match l with
  | [] => ret false
  | (s, _) :: t =>
    if slen s <? slen str then panic
    else if equal_fold (skipn (length s - length str) s) str then move (- (init - slen s))
    else rev_to_fold_loop str init t
  end.
Definition rev_to_fold {L : GoLib} (str : bytes) : M bool :=
  let* h := s_head in rev_to_fold_loop str (slen h) (fst (rev_items h)).
(** scanner_rev.go:81-87 (RevIfRune) *)
Definition rev_if_rune (r : Z) : M bool :=
  let* h := s_head in
  let '(lst, i) := decode_last_rune h in
  if negb (lst =? r) then ret false else move (- Z.of_nat i).
(** scanner_rev.go:92-101 (RevToRune) *)
Definition rev_to_rune (r : Z) : M bool :=
  let* h := s_head in
  match find_rev (fun _ v => v =? r) (slen h) (fst (rev_items h)) with
  | Some p => move (- p)
  | None => ret false
  end.
(** The common shape of scanner_rev.go:105-121, 149-164, 191-207, 234-250
    (RevWhileRune, RevWhileAnyRune, RevWhileBetween, RevWhileMatch): [p] is the
    rune test. *)
Definition rev_while (p : Z -> bool) : M bool :=
  let* h := s_head in
  if slen h =? 0 then ret false
  else match find_rev (fun _ v => negb (p v)) (slen h) (fst (rev_items h)) with
       | Some q => if q =? slen h then ret false else move (- q)
       | None => move (- (slen h - slen (snd (rev_items h))))
       end.
Definition rev_while_rune (r : Z) : M bool := rev_while (fun v => v =? r).
Definition rev_while_any_rune (str : bytes) : M bool := rev_while (contains_rune str).
Definition rev_while_between (mn mx : Z) : M bool := rev_while (fun v => in_range mn v mx).
Definition rev_while_match (check : Z -> bool) : M bool := rev_while check.
(** scanner_rev.go:126-132 (RevIfAnyRune) *)
Definition rev_if_any_rune (str : bytes) : M bool :=
  let* h := s_head in
  let '(lst, i) := decode_last_rune h in
  if contains_rune str lst then move (- Z.of_nat i) else ret false.
(** scanner_rev.go:136-145 (RevToAnyRune) *)
Definition rev_to_any_rune (str : bytes) : M bool :=
  let* h := s_head in
  match find_rev (fun _ v => contains_rune str v) (slen h) (fst (rev_items h)) with
  | Some p => move (- p)
  | None => ret false
  end.
(** scanner_rev.go:169-175 (RevIfBetween); the test is the one written. *)
Definition rev_if_between (mn mx : Z) : M bool :=
  let* h := s_head in
  let '(lst, i) := decode_last_rune h in
  if in_range mn lst mx then ret false else move (- Z.of_nat i).
(** scanner_rev.go:179-187 (RevToBetween) *)
Definition rev_to_between (mn mx : Z) : M bool :=
  let* h := s_head in
  match find_rev (fun _ v => in_range mn v mx) (slen h) (fst (rev_items h)) with
  | Some p => move (- p)
  | None => ret false
  end.
(** scanner_rev.go:212-218 (RevIfMatch); the test is the one written. *)
Definition rev_if_match (check : Z -> bool) : M bool :=
  let* h := s_head in
  let '(lst, i) := decode_last_rune h in
  if check lst then ret false else move (- Z.of_nat i).
(** scanner_rev.go:222-230 (RevToMatch) *)
Definition rev_to_match (check : Z -> bool) : M bool :=
  let* h := s_head in
  match find_rev (fun _ v => check v) (slen h) (fst (rev_items h)) with
  | Some p => move (- p)
  | None => ret false
  end.

(* ------------------------------------------------------------------ token *)

(** token.go:14-20 (MakeToken) *)
Definition make_token (a b : Z) : token := if b <? a then mkTok b a else mkTok a b.
(** token.go:23-34 (After, Before, Len); Len is an int subtraction. *)
Definition tok_after (t oth : token) : bool := t_to oth <=? t_from t.
Definition tok_before (t oth : token) : bool := t_to t <=? t_from oth.
Definition tok_len (t : token) : Z := wrap64 (t_to t - t_from t).
(** token.go:53-55 (Covers) *)
Definition tok_covers (t sub : token) : bool := (t_from t <=? t_from sub) && (t_to sub <=? t_to t).
(** token.go:37-45 (Merge) *)
Definition tok_merge (t oth : token) : token :=
  let f := if t_from oth <? t_from t then t_from oth else t_from t in
  let e := if t_to t <? t_to oth then t_to oth else t_to t in
  mkTok f e.
(** token.go:48-50 (Clashes) *)
Definition tok_clashes (t oth : token) : bool :=
  negb (tok_before t oth) && negb (tok_after t oth)
  && negb (tok_covers t oth) && negb (tok_covers oth t).
(** token.go:58-60 (Split) *)
Definition tok_split (t sep : token) : token * token :=
  (make_token (t_from t) (t_from sep), make_token (t_to sep) (t_to t)).
(** token.go:63-65 (String) *)
Definition tok_string (t : token) : bytes :=
  lit "[" ++ itoa (t_from t) ++ lit "-" ++ itoa (t_to t) ++ lit ")".

(** token.go:68-70 (Get): s.full[from:to], panics if out of range. *)
Definition get_tok (t : token) : M bytes := fun s =>
  if (0 <=? t_from t) && (t_from t <=? t_to t) && (t_to t <=? slen (full (sc s)))
  then Ok (slice (full (sc s)) (t_from t) (t_to t), s) else Panic.
(** token.go:96-98 (Since) *)
Definition since (m : Z) : M bytes := let* p := mark in get_tok (make_token m p).

(* ----------------------------------------------------------------- scopes *)

(** scanner.go:29-36 (Scope) *)
Definition scope (f : M bool) : M bool :=
  let* m := mark in
  let* r := f in
  if r then ret true else (to_marker m ;; ret false).
(** scanner.go:39-47 (Trace) *)
Definition trace (f : M bool) : M (bytes * bool) :=
  let* m := mark in
  let* r := f in
  let* str := since m in
  if r then ret (str, true) else (to_marker m ;; ret (str, false)).
(** scanner.go:50-56 (While); [n] is fuel for the loop. *)
Fixpoint while_loop (n : nat) (f : M bool) : M unit :=
  match n with
  | O => out_of_fuel
  | S n' => let* r := f in if r then while_loop n' f else ret tt
  end.
Definition while_f (n : nat) (f : M bool) : M bool :=
  let* a := mark in
  while_loop n f ;;
  let* b := mark in
  ret (a <? b).
(** token.go:74-82 (Tokenize) *)
Definition tokenize (f : M bool) : M (token * bool) :=
  let* a := mark in
  let* r := f in
  let* b := mark in
  if r then ret (make_token a b, true)
  else (to_marker a ;; ret (make_token a b, false)).
(** token.go:101-107 (Capture) *)
Definition capture (f : M bool) : M (bytes * bool) :=
  let* tr := tokenize f in
  if snd tr then let* str := get_tok (fst tr) in ret (str, true) else ret ([], false).
(** reader.go:35-42, 46-53 (Use, UseFunc): [rd] is the Read method / function. *)
Definition use (rd : M (option err)) : M (option err) :=
  let* m := mark in
  let* e := rd in
  match e with
  | None => ret None
  | Some x => to_marker m ;; ret (Some x)
  end.
(** reader.go:56-73 (TraceUse, TraceUseFunc) *)
Definition trace_use (rd : M (option err)) : M (bytes * option err) :=
  let* m := mark in
  let* e := rd in
  match e with
  | None => let* str := since m in ret (str, None)
  | Some x => to_marker m ;; let* str := since m in ret (str, Some x)
  end.
(** token.go:85-93 (TokenizeUse) *)
Definition tokenize_use (rd : M (option err)) : M (token * option err) :=
  let* a := mark in
  let* e := rd in
  match e with
  | None => let* b := mark in ret (make_token a b, None)
  | Some x => to_marker a ;; let* b := mark in ret (make_token a b, Some x)
  end.
(** token.go:110-116 (CaptureUse) *)
Definition capture_use (rd : M (option err)) : M (bytes * option err) :=
  let* te := tokenize_use rd in
  match snd te with
  | None => let* str := get_tok (fst te) in ret (str, None)
  | Some x => ret ([], Some x)
  end.

(* ------------------------------------------------------------------ error *)

(** error.go:22-24 (ErrorFor), error.go:27-32 (ErrorIfFalse) *)
Definition error_for (name : bytes) : M (option err) :=
  let* m := mark in ret (Some (EReadError m name)).
Definition error_if_false (ok : bool) (name : bytes) : M (option err) :=
  if ok then ret None else error_for name.
