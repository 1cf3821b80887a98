(** Watch.v - a Scanner with a Tracker of the user (tracker.go:8-10, scanner.go:11).  The Tracker has a state of its
    own, [w_x], and may change the Baskets, too.  The definitions that call Move or ToMarker are those of Scanner.v,
    ReadVal.v and Reader.v word for word, over states with [w_x]; only [moveto], [modh] and [on_sub] are written anew.
    C151_basket_is_a_tracker proves that with the Tracker that updates a Basket they are those of the other files.
    This file is not imported, its names are written with the prefix Watch. *)
From Verif Require Import Reader.

Record wst (X : Type) := mkW { w_st : st; w_x : X }.
Arguments mkW {X}. Arguments w_st {X}. Arguments w_x {X}.

Section Watch.
Context {X : Type}.
(** Update(m): what it makes of the objects and of its own state *)
Context (up : Z -> heap * X -> heap * X).

Definition sc (w : wst X) : scanner := State.sc (w_st w).
Definition hp (w : wst X) : heap := State.hp (w_st w).
Definition M (A : Type) : Type := wst X -> res (A * wst X).
Definition ret {A} (a : A) : M A := fun s => Ok (a, s).
Definition panic {A} : M A := fun _ => Panic.
Definition out_of_fuel {A} : M A := fun _ => Fuel.
Definition bind {A B} (m : M A) (k : A -> M B) : M B :=
  fun s => match m s with
           | Ok (a, s') => k a s'
           | Panic => Panic
           | Fuel => Fuel
           end.
Local Notation "'let*' x ':=' m 'in' k" := (bind m (fun x => k))
  (at level 200, x name, m at level 100, k at level 200, right associativity).
Local Notation "m ';;' k" := (bind m (fun _ => k)) (at level 100, right associativity).
Definition gets {A} (f : wst X -> A) : M A := fun s => Ok (f s, s).
Definition modh (f : heap -> heap) : M unit := fun s => Ok (tt, mkW (mkSt (sc s) (f (hp s))) (w_x s)).
(** scanner.go:326-329, 377-380: the position is set, and where there is a Tracker it is told. *)
Definition moveto (p : Z) (s : wst X) : wst X :=
  let c := mkSc (full (sc s)) p (trk (sc s)) in
  match trk (sc s) with
  | None => mkW (mkSt c (hp s)) (w_x s)
  | Some _ => let hx := up p (hp s, w_x s) in mkW (mkSt c (fst hx)) (snd hx)
  end.
Definition move (n : Z) : M bool := fun s =>
  let npos := wrap64 (pos (sc s) + n) in
  if (npos <? 0) || (slen (full (sc s)) <? npos) then Ok (false, s)
  else Ok (true, moveto npos s).
Definition to_marker (m : Z) : M bool := fun s =>
  if (m <? 0) && (slen (full (sc s)) <=? m) then Ok (false, s)
  else Ok (true, moveto m s).
(** scanner.go:299-301 (Tail): slicing panics if pos is out of range. *)
Definition s_tail : M bytes := fun s =>
  if (0 <=? pos (sc s)) && (pos (sc s) <=? slen (full (sc s)))
  then Ok (skipn (Z.to_nat (pos (sc s))) (full (sc s)), s) else Panic.
(** scanner.go:304-306 (Head) *)
Definition s_head : M bytes := fun s =>
  if (0 <=? pos (sc s)) && (pos (sc s) <=? slen (full (sc s)))
  then Ok (firstn (Z.to_nat (pos (sc s))) (full (sc s)), s) else Panic.
(** scanner.go:395-397 (Mark) *)
Definition mark : M Z := gets (fun s => pos (sc s)).
(** scanner.go:385-392 (ToEnd, ToStart) *)
Definition to_end : M bool := fun s => to_marker (slen (full (sc s))) s.
Definition to_start : M bool := to_marker 0.
(** scanner.go:358-365 (AtEnd, AtStart) *)
Definition at_end : M bool := gets (fun s => slen (full (sc s)) =? pos (sc s)).
Definition at_start : M bool := gets (fun s => pos (sc s) =? 0).
(** scanner.go:309-318 (LineCol); the empty-split branch cannot be taken but is kept; the column is an int64. *)
Definition line_col (tab : Z) : M (Z * Z) :=
  let* h := s_head in
  let lines := split_nl (replace_crlf h) in
  match lines with
  | [] => ret (0, 0)
  | _ =>
    let lst := last lines [] in
    let tabs := count_byte x09 lst in
    let n := wrap64 ((slen lst - tabs) + wrap64 (tabs * tab)) in
    ret (slen lines, wrap64 (n + 1))
  end.
(** scanner.go:72-77 (If) *)
Definition if_str (str : bytes) : M bool :=
  let* t := s_tail in
  if has_prefix t str then move (slen str) else ret false.
(** scanner.go:81-88 (IfAny) *)
Fixpoint if_any (strs : list bytes) : M bool :=
  match strs with
  | [] => ret false
  | x :: xs => let* ok := if_str x in if ok then ret true else if_any xs
  end.
(** scanner.go:92-98 (To) *)
Definition to_str (str : bytes) : M bool :=
  let* t := s_tail in
  match index t str with
  | Some i => move i
  | None => ret false
  end.
(** scanner.go:61-67 (ScanString) *)
Definition scan_string (n : Z) : M (bytes * bool) :=
  let* t := s_tail in
  let '(sub, ok) := get_prefix t n in
  if ok then let* ok' := move (slen sub) in ret (sub, ok') else ret (sub, false).
(** scanner.go:103-110 (IfFold): slicing Tail()[:i] panics if i > len. *)
Definition if_fold {L : GoLib} (str : bytes) : M bool :=
  let i := slen str in
  let* t := s_tail in
  if slen t <? i then panic
  else if equal_fold (firstn (length str) t) str then move i else ret false.
(** scanner.go:114-124 (ToFold); the loop counter is n. *)
Definition to_fold {L : GoLib} (str : bytes) : M bool :=
  let* t := s_tail in
  match to_fold_loop t str (length t) 0 with
  | Some n => move n
  | None => ret false
  end.
(** scanner.go:129-135 (IfRune); DecodeRuneInString never returns width -1. *)
Definition if_rune (r : Z) : M bool :=
  let* t := s_tail in
  let '(first, i) := decode_rune t in
  if negb (first =? r) then ret false else move (Z.of_nat i).
(** scanner.go:140-147 (ToRune) *)
Definition to_rune (r : Z) : M bool :=
  let* t := s_tail in
  match find_rune (fun v => v =? r) (range_str t) with
  | Some i => move i
  | None => ret false
  end.
(** scanner.go:151-162 (WhileRune) *)
Definition while_rune (r : Z) : M bool :=
  let* t := s_tail in
  if slen t =? 0 then ret false
  else match find_rune (fun v => negb (v =? r)) (range_str t) with
       | Some i => move i
       | None => to_end
       end.
(** scanner.go:167-174 (IfAnyRune): for _, r := range str { if s.IfRune(r) .. } *)
Fixpoint if_any_rune_loop (rs : list Z) : M bool :=
  match rs with
  | [] => ret false
  | r :: rs' => let* ok := if_rune r in if ok then ret true else if_any_rune_loop rs'
  end.
Definition if_any_rune (str : bytes) : M bool := if_any_rune_loop (runes str).
(** scanner.go:178-184 (ToAnyRune) *)
Definition to_any_rune (str : bytes) : M bool :=
  let* t := s_tail in
  match index_any t str with
  | Some i => move i
  | None => ret false
  end.
(** scanner.go:188-202 (WhileAnyRune); ends with a bare [return true]. *)
Definition while_any_rune (str : bytes) : M bool :=
  let* t := s_tail in
  if slen t =? 0 then ret false
  else match find_rune (fun v => negb (contains_rune str v)) (range_str t) with
       | Some i => if i =? 0 then ret false else move i
       | None => ret true
       end.
(** scanner.go:212-221 (IfBetween) *)
Definition if_between (mn mx : Z) : M bool :=
  let* t := s_tail in
  if slen t =? 0 then ret false
  else let '(v, i) := decode_rune t in
       if negb (in_range mn v mx) then ret false else move (Z.of_nat i).
(** scanner.go:225-236 (ToBetween) *)
Definition to_between (mn mx : Z) : M bool :=
  let* t := s_tail in
  if slen t =? 0 then ret false
  else match find_rune (fun v => in_range mn v mx) (range_str t) with
       | Some i => move i
       | None => ret false
       end.
(** scanner.go:240-251 (WhileBetween) *)
Definition while_between (mn mx : Z) : M bool :=
  let* t := s_tail in
  if slen t =? 0 then ret false
  else match find_rune (fun v => negb (in_range mn v mx)) (range_str t) with
       | Some i => move i
       | None => to_end
       end.
(** scanner.go:259-265 (IfMatch) *)
Definition if_match (check : Z -> bool) : M bool :=
  let* t := s_tail in
  let '(first, i) := decode_rune t in
  if negb (Nat.eqb i 0) && check first then move (Z.of_nat i) else ret false.
(** scanner.go:269-276 (ToMatch) *)
Definition to_match (check : Z -> bool) : M bool :=
  let* t := s_tail in
  match find_rune check (range_str t) with
  | Some i => move i
  | None => ret false
  end.
(** scanner.go:280-295 (WhileMatch); ends with [return false]. *)
Definition while_match (check : Z -> bool) : M bool :=
  let* t := s_tail in
  if slen t =? 0 then ret false
  else match find_rune (fun v => negb (check v)) (range_str t) with
       | Some i => if i =? 0 then ret false else move i
       | None => ret false
       end.
(** scanner.go:334-355 (MoveRunes); the width of the last rune is recomputed
    with RuneLen from its value. *)
Definition move_runes (n : Z) : M bool :=
  if 0 <? n then
    let* t := s_tail in
    match move_runes_fwd n (range_str t) 0 with
    | Some d => move d
    | None => ret false
    end
  else if n <? 0 then
    let* h := s_head in
    match move_runes_rev (slen h) n (fst (rev_items h)) 0 with
    | Some d => move d
    | None => ret false
    end
  else ret true.
(** scanner_rev.go:19-24 (RevIf) *)
Definition rev_if (str : bytes) : M bool :=
  let* h := s_head in
  if has_suffix h str then move (- slen str) else ret false.
(** scanner_rev.go:28-35 (RevIfAny) *)
Fixpoint rev_if_any (strs : list bytes) : M bool :=
  match strs with
  | [] => ret false
  | x :: xs => let* ok := rev_if x in if ok then ret true else rev_if_any xs
  end.
(** scanner_rev.go:39-48 (RevTo) *)
Definition rev_to (str : bytes) : M bool :=
  let* h := s_head in
  match find_rev (fun s _ => has_suffix s str) (slen h) (fst (rev_items h)) with
  | Some p => move (- p)
  | None => ret false
  end.
(** scanner_rev.go:53-61 (RevIfFold): head[len(head)-i:] panics if i > len. *)
Definition rev_if_fold {L : GoLib} (str : bytes) : M bool :=
  let* h := s_head in
  if slen h <? slen str then panic
  else if equal_fold (skipn (length h - length str) h) str then move (- slen str) else ret false.
(** scanner_rev.go:65-76 (RevToFold): itr.Str[len(itr.Str)-i:] panics if too short. *)
Fixpoint rev_to_fold_loop {L : GoLib} (str : bytes) (init : Z) (l : list (bytes * Z)) : M bool :=
  match l with
  | [] => ret false
  | (s, _) :: t =>
    if slen s <? slen str then panic
    else if equal_fold (skipn (length s - length str) s) str then move (- (init - slen s))
    else rev_to_fold_loop str init t
  end.
Definition rev_to_fold {L : GoLib} (str : bytes) : M bool :=
  let* h := s_head in rev_to_fold_loop str (slen h) (fst (rev_items h)).
(** scanner_rev.go:81-87 (RevIfRune) *)
Definition rev_if_rune (r : Z) : M bool :=
  let* h := s_head in
  let '(lst, i) := decode_last_rune h in
  if negb (lst =? r) then ret false else move (- Z.of_nat i).
(** scanner_rev.go:92-101 (RevToRune) *)
Definition rev_to_rune (r : Z) : M bool :=
  let* h := s_head in
  match find_rev (fun _ v => v =? r) (slen h) (fst (rev_items h)) with
  | Some p => move (- p)
  | None => ret false
  end.
(** The common shape of scanner_rev.go:105-121, 149-164, 191-207, 234-250
    (RevWhileRune, RevWhileAnyRune, RevWhileBetween, RevWhileMatch): [p] is the
    rune test. *)
Definition rev_while (p : Z -> bool) : M bool :=
  let* h := s_head in
  if slen h =? 0 then ret false
  else match find_rev (fun _ v => negb (p v)) (slen h) (fst (rev_items h)) with
       | Some q => if q =? slen h then ret false else move (- q)
       | None => move (- (slen h - slen (snd (rev_items h))))
       end.
Definition rev_while_rune (r : Z) : M bool := rev_while (fun v => v =? r).
Definition rev_while_any_rune (str : bytes) : M bool := rev_while (contains_rune str).
Definition rev_while_between (mn mx : Z) : M bool := rev_while (fun v => in_range mn v mx).
Definition rev_while_match (check : Z -> bool) : M bool := rev_while check.
(** scanner_rev.go:126-132 (RevIfAnyRune) *)
Definition rev_if_any_rune (str : bytes) : M bool :=
  let* h := s_head in
  let '(lst, i) := decode_last_rune h in
  if contains_rune str lst then move (- Z.of_nat i) else ret false.
(** scanner_rev.go:136-145 (RevToAnyRune) *)
Definition rev_to_any_rune (str : bytes) : M bool :=
  let* h := s_head in
  match find_rev (fun _ v => contains_rune str v) (slen h) (fst (rev_items h)) with
  | Some p => move (- p)
  | None => ret false
  end.
(** scanner_rev.go:169-175 (RevIfBetween); the test is the one written. *)
Definition rev_if_between (mn mx : Z) : M bool :=
  let* h := s_head in
  let '(lst, i) := decode_last_rune h in
  if in_range mn lst mx then ret false else move (- Z.of_nat i).
(** scanner_rev.go:179-187 (RevToBetween) *)
Definition rev_to_between (mn mx : Z) : M bool :=
  let* h := s_head in
  match find_rev (fun _ v => in_range mn v mx) (slen h) (fst (rev_items h)) with
  | Some p => move (- p)
  | None => ret false
  end.
(** scanner_rev.go:212-218 (RevIfMatch); the test is the one written. *)
Definition rev_if_match (check : Z -> bool) : M bool :=
  let* h := s_head in
  let '(lst, i) := decode_last_rune h in
  if check lst then ret false else move (- Z.of_nat i).
(** scanner_rev.go:222-230 (RevToMatch) *)
Definition rev_to_match (check : Z -> bool) : M bool :=
  let* h := s_head in
  match find_rev (fun _ v => check v) (slen h) (fst (rev_items h)) with
  | Some p => move (- p)
  | None => ret false
  end.
(** token.go:68-70 (Get): s.full[from:to], panics if out of range. *)
Definition get_tok (t : token) : M bytes := fun s =>
  if (0 <=? t_from t) && (t_from t <=? t_to t) && (t_to t <=? slen (full (sc s)))
  then Ok (slice (full (sc s)) (t_from t) (t_to t), s) else Panic.
(** token.go:96-98 (Since) *)
Definition since (m : Z) : M bytes := let* p := mark in get_tok (make_token m p).
(** scanner.go:29-36 (Scope) *)
Definition scope (f : M bool) : M bool :=
  let* m := mark in
  let* r := f in
  if r then ret true else (to_marker m ;; ret false).
(** scanner.go:39-47 (Trace) *)
Definition trace (f : M bool) : M (bytes * bool) :=
  let* m := mark in
  let* r := f in
  let* str := since m in
  if r then ret (str, true) else (to_marker m ;; ret (str, false)).
(** scanner.go:50-56 (While); [n] is fuel for the loop. *)
Fixpoint while_loop (n : nat) (f : M bool) : M unit :=
  match n with
  | O => out_of_fuel
  | S n' => let* r := f in if r then while_loop n' f else ret tt
  end.
Definition while_f (n : nat) (f : M bool) : M bool :=
  let* a := mark in
  while_loop n f ;;
  let* b := mark in
  ret (a <? b).
(** token.go:74-82 (Tokenize) *)
Definition tokenize (f : M bool) : M (token * bool) :=
  let* a := mark in
  let* r := f in
  let* b := mark in
  if r then ret (make_token a b, true)
  else (to_marker a ;; ret (make_token a b, false)).
(** token.go:101-107 (Capture) *)
Definition capture (f : M bool) : M (bytes * bool) :=
  let* tr := tokenize f in
  if snd tr then let* str := get_tok (fst tr) in ret (str, true) else ret ([], false).
(** reader.go:35-42, 46-53 (Use, UseFunc): [rd] is the Read method / function. *)
Definition use (rd : M (option err)) : M (option err) :=
  let* m := mark in
  let* e := rd in
  match e with
  | None => ret None
  | Some x => to_marker m ;; ret (Some x)
  end.
(** reader.go:56-73 (TraceUse, TraceUseFunc) *)
Definition trace_use (rd : M (option err)) : M (bytes * option err) :=
  let* m := mark in
  let* e := rd in
  match e with
  | None => let* str := since m in ret (str, None)
  | Some x => to_marker m ;; let* str := since m in ret (str, Some x)
  end.
(** token.go:85-93 (TokenizeUse) *)
Definition tokenize_use (rd : M (option err)) : M (token * option err) :=
  let* a := mark in
  let* e := rd in
  match e with
  | None => let* b := mark in ret (make_token a b, None)
  | Some x => to_marker a ;; let* b := mark in ret (make_token a b, Some x)
  end.
(** token.go:110-116 (CaptureUse) *)
Definition capture_use (rd : M (option err)) : M (bytes * option err) :=
  let* te := tokenize_use rd in
  match snd te with
  | None => let* str := get_tok (fst te) in ret (str, None)
  | Some x => ret ([], Some x)
  end.
(** error.go:22-24 (ErrorFor), error.go:27-32 (ErrorIfFalse) *)
Definition error_for (name : bytes) : M (option err) :=
  let* m := mark in ret (Some (EReadError m name)).
Definition error_if_false (ok : bool) (name : bytes) : M (option err) :=
  if ok then ret None else error_for name.
(** read.go:10-16 (ReadRune) *)
Definition read_rune : M (Z * option err) :=
  let* t := s_tail in
  let '(r, i) := decode_rune t in
  if r =? RuneError then let* e := error_for (lit "rune") in ret (RuneError, e)
  else let* ok := move (Z.of_nat i) in
       let* e := error_if_false ok (lit "rune") in ret (r, e).
(** read.go:19-25 (RevReadRune) *)
Definition rev_read_rune : M (Z * option err) :=
  let* h := s_head in
  let '(r, i) := decode_last_rune h in
  if r =? RuneError then let* e := error_for (lit "rune") in ret (r, e)
  else let* ok := move (- Z.of_nat i) in
       let* e := error_if_false ok (lit "rune") in ret (r, e).
(** read.go:34-62 (ReadBool) *)
Definition read_bool_strs (tstr fstr : bytes) : M (bool * option err) :=
  let* t := if_str tstr in
  if t then ret (true, None)
  else let* f := if_str fstr in
       if f then ret (false, None)
       else let* e := error_for (lit "bool") in ret (false, e).
Definition read_bool (format : bytes) : M (bool * option err) :=
  if bytes_eqb format [] || bytes_eqb format (lit "*") then
    let* t := if_any [lit "true"; lit "True"; lit "TRUE"] in
    if t then ret (true, None)
    else let* f := if_any [lit "false"; lit "False"; lit "FALSE"] in
         if f then ret (false, None)
         else let* e := error_for (lit "bool") in ret (false, e)
  else if bytes_eqb format (lit "l") then read_bool_strs (lit "true") (lit "false")
  else if bytes_eqb format (lit "U") then read_bool_strs (lit "TRUE") (lit "FALSE")
  else if bytes_eqb format (lit "Cc") then read_bool_strs (lit "True") (lit "False")
  else ret (false, Some (EOther (lit "invalid format"))).
(** read.go:67-133 (ReadInt) *)
Definition read_int (base bits : Z) : M (Z * option err) :=
  match char_func base with
  | None => ret (0, Some (EOther (lit "invalid base value " ++ itoa base)))
  | Some cf =>
    match int_bounds bits with
    | None => ret (0, Some (EOther (lit "invalid bitSize value " ++ itoa bits)))
    | Some (mn, mx) =>
      let* marker := mark in
      let* neg := if_rune 0x2D in
      (if neg then ret true else if_rune 0x2B) ;;
      let* t := s_tail in
      let '(i64, n) := read_int_loop cf base mn mx neg (range_str t) 0 (-1) in
      if n =? -1 then
        to_marker marker ;;
        let* e := error_for (lit "integer") in ret (0, e)
      else
        move (n + 1) ;; ret (i64, None)
    end
  end.
(** read.go:163-213 (ReadUint) *)
Definition read_uint (base bits : Z) : M (Z * option err) :=
  match char_func base with
  | None => ret (0, Some (EOther (lit "invalid base value " ++ itoa base)))
  | Some cf =>
    match uint_max bits with
    | None => ret (0, Some (EOther (lit "invalid bitSize value " ++ itoa bits)))
    | Some mx =>
      let* t := s_tail in
      let '(u64, n) := read_uint_loop cf base mx (range_str t) 0 (-1) in
      if n =? -1 then let* e := error_for (lit "unsigned integer") in ret (0, e)
      else move (n + 1) ;; ret (u64, None)
    end
  end.
(** reader.go:91-103 (anyReader.Read), [errs] collects the errors. *)
Fixpoint any_loop (rds : list (M (option err))) (m : Z) (errs : list err) : M (option err) :=
  match rds with
  | [] => to_marker m ;; ret (Some (get_deepest errs))
  | rd :: t =>
    let* e := rd in
    match e with
    | None => ret None
    | Some x => any_loop t m (errs ++ [x])
    end
  end.
(** reader.go:802-813 (seqReader.Read) *)
Fixpoint seq_loop (rds : list (M (option err))) (m : Z) : M (option err) :=
  match rds with
  | [] => ret None
  | rd :: t =>
    let* e := rd in
    match e with
    | None => seq_loop t m
    | Some x => to_marker m ;; ret (Some x)
    end
  end.
(** reader.go:843-859 (skipSeqReader.Read): the loop with the current err. *)
Fixpoint skip_loop (skip : M (option err)) (rds : list (M (option err))) (e : option err) : M (option err) :=
  match rds with
  | [] => ret e
  | rd :: t =>
    match e with
    | Some _ => ret e
    | None =>
      let* e1 := rd in
      match e1 with
      | None => let* e2 := skip in skip_loop skip t e2
      | Some _ => skip_loop skip t e1
      end
    end
  end.
Definition skip_seq (skip : M (option err)) (rds : list (M (option err))) : M (option err) :=
  let* m := mark in
  let* e := skip in
  let* e := skip_loop skip rds e in
  match e with
  | None => ret None
  | Some x => to_marker m ;; ret (Some x)
  end.
(** reader.go:1006-1010, 610-611: for r.sub.Read(s) == nil {} *)
Fixpoint rep_loop (n : nat) (rd : M (option err)) : M unit :=
  match n with
  | O => out_of_fuel
  | S n' =>
    let* e := rd in
    match e with
    | None => rep_loop n' rd
    | Some _ => ret tt
    end
  end.
(** reader.go:898-905 (timesReader.Read); [k] is the number of remaining rounds. *)
Fixpoint times_loop (k : nat) (rd : M (option err)) : M (option err) :=
  match k with
  | O => ret None
  | S k' =>
    let* e := rd in
    match e with
    | None => times_loop k' rd
    | Some x => ret (Some x)
    end
  end.
(** reader.go:754-763 (pastReader.Read): the for loop; [true] = returned nil. *)
Fixpoint past_loop (n : nat) (rd : M (option err)) : M bool :=
  match n with
  | O => out_of_fuel
  | S n' =>
    let* fin := at_end in
    if fin then ret false
    else
      let* e := rd in
      match e with
      | None => ret true
      | Some _ => move_runes 1 ;; past_loop n' rd
      end
  end.
(** reader.go:921-932 (toReader.Read) *)
Fixpoint to_loop (n : nat) (rd : M (option err)) : M bool :=
  match n with
  | O => out_of_fuel
  | S n' =>
    let* subm := mark in
    let* e := rd in
    match e with
    | None => to_marker subm ;; ret true
    | Some _ =>
      let* ok := move_runes 1 in
      if ok then to_loop n' rd else ret false
    end
  end.
(** reader.go:328-330; the new scanner has no Tracker. *)
Definition on_sub (str : bytes) (rd : M (option err)) : M (option err * bool) := fun s =>
  match (let* e := use rd in let* fin := at_end in ret (e, fin))
          (mkW (mkSt (new_scanner str) (hp s)) (w_x s)) with
  | Ok (x, s') => Ok (x, mkW (mkSt (sc s) (hp s')) (w_x s'))
  | Panic => Panic
  | Fuel => Fuel
  end.
(** reader.go:323-339, 356-371 (bodyReader.Read, bodyTailReader.Read): the for loop;
    [back] tells whether the tail is given back. *)
Fixpoint body_loop (n : nat) (m : Z) (body tl : M (option err)) (back : bool) : M bool :=
  match n with
  | O => out_of_fuel
  | S n' =>
    let* fin := at_end in
    if fin then ret false
    else
      let* t := mark in
      let* e := tl in
      match e with
      | None =>
        let* str := get_tok (make_token m t) in
        let* r := on_sub str body in
        match fst r with
        | Some _ => ret false
        | None =>
          if negb (snd r) then ret false
          else if back then to_marker t ;; ret true else ret true
        end
      | Some _ => move_runes 1 ;; body_loop n' m body tl back
      end
  end.
(** reader.go:234-238 *)
Fixpoint between_any_loop (ranges : list (Z * Z)) : M bool :=
  match ranges with
  | [] => ret false
  | (mn, mx) :: t => let* ok := if_between mn mx in if ok then ret true else between_any_loop t
  end.
(** the moves of a Wrap function *)
Fixpoint do_moves (ms : list Z) : M unit :=
  match ms with
  | [] => ret tt
  | m :: t => to_marker m ;; do_moves t
  end.
(** The Read methods.  [n] is fuel: it bounds the nesting of calls and the rounds
    of the unbounded loops. *)
Fixpoint read {L : GoLib} (n : nat) (e : env) (r : reader) {struct n} : M (option err) :=
  match n with
  | O => out_of_fuel
  | S n' =>
    let rd := read n' e in
    let reads := map rd in
    match r with
    | RAny rs => let* m := mark in any_loop (reads rs) m []                       (* 91-103 *)
    | RAnyRune str => let* ok := if_any_rune str in error_if_false ok (what e r)  (* 143-145 *)
    | RAt sub =>                                                                  (* 161-166 *)
        let* m := mark in let* x := rd sub in to_marker m ;; ret x
    | RAtEnd => let* ok := at_end in error_if_false ok (what e r)                 (* 182-184 *)
    | RBetween mn mx => let* ok := if_between mn mx in error_if_false ok (what e r) (* 201-203 *)
    | RBetweenAny ranges singles =>                                               (* 232-244 *)
        let* m := mark in
        let* ok := between_any_loop ranges in
        if ok then ret None
        else
          let* ok := if_any_rune singles in
          if ok then ret None
          else to_marker m ;; error_for (what e r)
    | RBody b t =>                                                                (* 323-339 *)
        let* m := mark in
        let* ok := body_loop n' m (rd b) (rd t) true in
        if ok then ret None else to_marker m ;; error_for (what e r)
    | RBodyTail b t =>                                                            (* 356-371 *)
        let* m := mark in
        let* ok := body_loop n' m (rd b) (rd t) false in
        if ok then ret None else to_marker m ;; error_for (what e r)
    | RBool id format =>                                                          (* 389-393 *)
        let* ve := read_bool format in
        modh (put_val id (VBool (fst ve))) ;; ret (snd ve)
    | RFold str => let* ok := if_fold str in error_if_false ok (what e r)         (* 423-425 *)
    | RHoley mn mx holes =>                                                       (* 449-455 *)
        let* t := s_tail in
        let '(v, i) := decode_rune t in
        if in_range mn v mx && negb (contains_rune holes v)
        then let* ok := move (Z.of_nat i) in error_if_false ok (what e r)
        else error_for (what e r)
    | RInt id base bits =>                                                        (* 474-478 *)
        let* ve := read_int base bits in
        modh (put_val id (VInt (fst ve))) ;; ret (snd ve)
    | RJanusBeg cell name sub =>                                                  (* 501-507 *)
        let* te := tokenize_use (rd sub) in
        match snd te with
        | None => let* str := get_tok (fst te) in modh (put_cell cell str) ;; ret None
        | Some x => ret (Some x)
        end
    | RJanusEnd cell name =>                                                      (* 518-524 *)
        let* str := gets (fun s => get_cell cell (hp s)) in
        let* ok := if_str str in
        let* x := error_if_false ok (quote_str str) in
        match x with
        | None => modh (put_cell cell []) ;; ret None
        | Some y => ret (Some y)
        end
    | RInvalid msg => ret (Some (EOther (lit "INVALID-READER: " ++ msg)))         (* 551-553 *)
    | RLit str => let* ok := if_str str in error_if_false ok (what e r)           (* 590-592 *)
    | RMany sub =>                                                                (* 608-614 *)
        let* a := mark in
        rep_loop n' (rd sub) ;;
        let* b := mark in
        error_if_false (a <? b) (what e r)
    | RMap id sub =>                                                              (* 639-645 *)
        let* te := tokenize_use (rd sub) in
        match snd te with
        | None => modh (add_event id (fst te)) ;; ret None
        | Some x => ret (Some x)
        end
    | RMatch w f => let* ok := if_match f in error_if_false ok w                  (* 662-664 *)
    | RNamed _ sub => rd sub                                                      (* 681-683 *)
    | RNot sub =>                                                                 (* 705-714 *)
        let* m := mark in
        let* x := rd sub in
        to_marker m ;;
        match x with
        | None => error_for (what e sub)
        | Some _ => move_runes 1 ;; ret None
        end
    | ROpt sub => rd sub ;; ret None                                              (* 730-733 *)
    | RPast sub =>                                                                (* 754-763 *)
        let* m := mark in
        let* ok := past_loop n' (rd sub) in
        if ok then ret None else to_marker m ;; error_for (what e r)
    | RRune c => let* ok := if_rune c in error_if_false ok (what e r)             (* 784-786 *)
    | RSeq rs => let* m := mark in seq_loop (reads rs) m                          (* 802-813 *)
    | RSkipSeq skip rs => skip_seq (rd skip) (reads rs)                           (* 843-859 *)
    | RTimes k sub => times_loop (Z.to_nat k) (rd sub)                            (* 898-905 *)
    | RTo sub =>                                                                  (* 921-932 *)
        let* m := mark in
        let* ok := to_loop n' (rd sub) in
        if ok then ret None else to_marker m ;; error_for (what e r)
    | RUint id base bits =>                                                       (* 956-960 *)
        let* ve := read_uint base bits in
        modh (put_val id (VUint (fst ve))) ;; ret (snd ve)
    | RWrap _ f =>                                                                (* 982-984 *)
        let* me := gets (fun s => f (full (sc s)) (pos (sc s))) in
        do_moves (fst me) ;; ret (snd me)
    | RZom sub => rep_loop n' (rd sub) ;; ret None                                (* 1006-1010 *)
    | RPick info b sub =>                                                         (* tracker.go:78-87 *)
        let* te := tokenize_use (rd sub) in
        match snd te with
        | None => modh (basket_add b (mkSeg info (fst te))) ;; ret None
        | Some x => ret (Some x)
        end
    | RMonitor info lg sub =>                                                     (* monitor.go:78-83 *)
        let* p := mark in
        let* ptr := gets (fun s => fst (log_enter info p (get_log lg (hp s)))) in
        modh (fun h => put_log lg (snd (log_enter info p (get_log lg h))) h) ;;
        let* x := rd sub in
        let* q := mark in
        modh (fun h => put_log lg (log_exit ptr q x (get_log lg h)) h) ;;
        ret x
    | RRule i =>                                                                  (* grammar.go:116-118 *)
        match r_reader (get_rule e i) with
        | Some sub => rd sub
        | None => panic
        end
    | RRuleName sub =>                                                            (* grammar.go:133-136 *)
        let* x := rd sub in
        error_if_false (match x with None => true | Some _ => false end) (what e r)
    | RGrammar _ pfx i =>                                                         (* grammar/json.go:69-75 etc. *)
        match r_reader (get_rule e i) with
        | None => panic
        | Some sub =>
          let* x := rd sub in
          match x with
          | None => ret None
          | Some y => ret (Some (EOther (pfx ++ err_text y)))
          end
        end
    end
  end.
End Watch.
