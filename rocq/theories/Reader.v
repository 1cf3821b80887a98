(** Reader.v - reader.go, pickReader of tracker.go, monitorReader of monitor.go,
    Rule and ruleNameReader of grammar.go. *)
From Verif Require Export ReadVal LogModel.

(** A user function of Wrap (ReadFunc, reader.go:25): given text and position it
    performs a list of ToMarker moves and returns an error or nil. (It cannot touch
    other objects; simplification.) *)
Definition read_func := bytes -> Z -> list Z * option err.

(** One constructor per Reader implementation.  Pointers to shared mutable objects
    are identities (nat): the value of Bool/Int/Uint, the string cell of a Janus
    pair, the Map function, the Basket, the Log, the Rule. *)
Inductive reader :=
| RAny (rs : list reader)                        (* reader.go:76 *)
| RAnyRune (str : bytes)                         (* reader.go:139 *)
| RAt (sub : reader)                             (* reader.go:157 *)
| RAtEnd                                         (* reader.go:179 *)
| RBetween (mn mx : Z)                           (* reader.go:196 *)
| RBetweenAny (ranges : list (Z * Z)) (singles : bytes) (* reader.go:226 *)
| RBody (body tl : reader)                       (* reader.go:318 *)
| RBodyTail (body tl : reader)                   (* reader.go:351 *)
| RBool (id : nat) (format : bytes)              (* reader.go:384 *)
| RFold (str : bytes)                            (* reader.go:419 *)
| RHoley (mn mx : Z) (holes : bytes)             (* reader.go:443 *)
| RInt (id : nat) (base bits : Z)                (* reader.go:468 *)
| RJanusBeg (cell : nat) (name : bytes) (sub : reader)  (* reader.go:495 *)
| RJanusEnd (cell : nat) (name : bytes)          (* reader.go:513 *)
| RInvalid (msg : bytes)                         (* reader.go:547 *)
| RLit (str : bytes)                             (* reader.go:586 *)
| RMany (sub : reader)                           (* reader.go:604 *)
| RMap (id : nat) (sub : reader)                 (* reader.go:634 *)
| RMatch (what : bytes) (f : Z -> bool)          (* reader.go:657 *)
| RNamed (name : bytes) (sub : reader)           (* reader.go:676 *)
| RNot (sub : reader)                            (* reader.go:701 *)
| ROpt (sub : reader)                            (* reader.go:726 *)
| RPast (sub : reader)                           (* reader.go:750 *)
| RRune (r : Z)                                  (* reader.go:780 *)
| RSeq (rs : list reader)                        (* reader.go:798 *)
| RSkipSeq (skip : reader) (rs : list reader)    (* reader.go:838 *)
| RTimes (n : Z) (sub : reader)                  (* reader.go:893 *)
| RTo (sub : reader)                             (* reader.go:917 *)
| RUint (id : nat) (base bits : Z)               (* reader.go:950 *)
| RWrap (what : bytes) (f : read_func)           (* reader.go:977 *)
| RZom (sub : reader)                            (* reader.go:1002 *)
| RPick (info : bytes) (basket : nat) (sub : reader)    (* tracker.go:72 *)
| RMonitor (info : bytes) (lg : nat) (sub : reader)     (* monitor.go:72 *)
| RRule (i : nat)                                (* grammar.go:97, a *Rule *)
| RRuleName (sub : reader)                       (* grammar.go:129 *)
| RGrammar (what errpfx : bytes) (i : nat).      (* JSONReader/MXTReader/LuaReader *)

(** grammar.go:97-100 (type Rule); a nil Reader is [None]. *)
Record rule := mkRule { r_name : bytes; r_reader : option reader }.
(** The rules reachable by pointer. *)
Definition env := list rule.
Definition rule0 : rule := mkRule [] None.
Definition get_rule (e : env) (i : nat) : rule := nth i e rule0.

(* ------------------------------------------------------------------- What *)

(** reader.go:205-214 (quoteRune, quoteBetween) *)
Definition quote_rune {L : GoLib} (r : Z) : bytes := trim_quote (quote_rune_graphic r).
Definition quote_between {L : GoLib} (mn mx : Z) : bytes :=
  if mn =? mx then quote_rune_graphic mn
  else lit "<" ++ quote_rune mn ++ quote_rune mx ++ lit ">".
(** reader.go:561 (InvalidReaderMarker) *)
Definition invalid_marker : bytes := lit "::INVALID-READER::".

(** The What methods (line of each method in the comment). *)
Fixpoint what {L : GoLib} (e : env) (r : reader) {struct r} : bytes :=
  let whats := fix whats (rs : list reader) : list bytes :=
    match rs with [] => [] | x :: t => what e x :: whats t end in
  match r with
  | RAny rs => lit "[ " ++ join (whats rs) (lit " ") ++ lit " ]"          (* 105-111 *)
  | RAnyRune str => lit "[" ++ quote_str str ++ lit "]"                   (* 147-149 *)
  | RAt sub => lit "@" ++ what e sub                                      (* 168-170 *)
  | RAtEnd => lit "@END"                                                  (* 186-188 *)
  | RBetween mn mx => quote_between mn mx                                 (* 216-218 *)
  | RBetweenAny ranges singles =>                                         (* 246-261 *)
      lit "[<" ++
      flat_map (fun p => lit " " ++ quote_rune (fst p) ++ quote_rune (snd p)) ranges ++
      (if bytes_eqb singles [] then [] else lit " " ++ quote_str singles) ++ lit " >]"
  | RBody b t => lit "-(" ++ what e b ++ lit "-" ++ what e t ++ lit ")-"  (* 341-343 *)
  | RBodyTail b t => lit "-(" ++ what e b ++ lit "-+" ++ what e t ++ lit ")-" (* 373-375 *)
  | RBool _ format => lit "bool{" ++ quote_str format ++ lit "}"          (* 395-397 *)
  | RFold str => lit "~" ++ quote_str str                                 (* 427-429 *)
  | RHoley mn mx holes => lit "(" ++ quote_between mn mx ++ lit " - " ++ quote_str holes ++ lit ")" (* 457-459 *)
  | RInt _ base bits => lit "int{" ++ itoa base ++ lit "," ++ itoa bits ++ lit "}" (* 480-482 *)
  | RJanusBeg _ name sub => lit "$" ++ name ++ lit "<" ++ what e sub      (* 509-511 *)
  | RJanusEnd _ name => lit "$" ++ name                                   (* 526-528 *)
  | RInvalid msg => invalid_marker ++ lit "{" ++ msg ++ lit "}"           (* 555-557 *)
  | RLit str => quote_str str                                             (* 594-596 *)
  | RMany sub => lit "+" ++ what e sub                                    (* 616-618 *)
  | RMap _ sub => what e sub                                              (* 647-649 *)
  | RMatch w _ => w                                                       (* 666-668 *)
  | RNamed name _ => name                                                 (* 685-687 *)
  | RNot sub => lit "!" ++ what e sub                                     (* 716-718 *)
  | ROpt sub => lit "?" ++ what e sub                                     (* 735-737 *)
  | RPast sub => lit "-->" ++ what e sub                                  (* 765-767 *)
  | RRune r => quote_rune_graphic r                                       (* 788-790 *)
  | RSeq rs => join (whats rs) (lit " ")                                  (* 815-821 *)
  | RSkipSeq skip rs =>                                                   (* 861-868 *)
      join ((lit "(>" ++ what e skip ++ lit ">") :: whats rs ++ [lit ")"]) (lit " ")
  | RTimes n sub => itoa n ++ lit "*" ++ what e sub                       (* 907-909 *)
  | RTo sub => lit "->" ++ what e sub                                     (* 934-936 *)
  | RUint _ base bits => lit "uint{" ++ itoa base ++ lit "," ++ itoa bits ++ lit "}" (* 962-964 *)
  | RWrap w _ => w                                                        (* 986-988 *)
  | RZom sub => lit "*" ++ what e sub                                     (* 1012-1014 *)
  | RPick _ _ sub => what e sub                                           (* tracker.go:89-91 *)
  | RMonitor _ _ sub => what e sub                                        (* monitor.go:85-87 *)
  | RRule i => r_name (get_rule e i)                                      (* grammar.go:120-122 *)
  | RRuleName _ => lit "rulename"                                         (* grammar.go:138-140 *)
  | RGrammar w _ _ => w                                                   (* grammar/json.go:77-79 etc. *)
  end.

(** reader.go:570-583 (HasInvalidReader, AnyHasInvalidReader) *)
Definition has_invalid_reader (str : bytes) : bool := contains str invalid_marker.
Definition any_has_invalid_reader (strs : list bytes) : bool := existsb has_invalid_reader strs.

(* ------------------------------------------------------------------- Read *)

(** error.go:12-14 (Later), reader.go:80-89 (getDeepest): starts with the zero
    ReadError, only ReadErrors count. *)
Definition err_later (m oth : Z) : bool := oth <=? m.
Fixpoint deepest_loop (errs : list err) (m : Z) (w : bytes) : err :=
  match errs with
  | [] => EReadError m w
  | EReadError m' w' :: t => if err_later m' m then deepest_loop t m' w' else deepest_loop t m w
  | EOther _ :: t => deepest_loop t m w
  end.
Definition get_deepest (errs : list err) : err := deepest_loop errs 0 [].

Definition err_text (e : err) : bytes :=
  match e with
  | EReadError m w => lit "not able to read " ++ w ++ lit " at " ++ itoa m  (* error.go:17-19 *)
  | EOther msg => msg
  end.

Definition get_cell (c : nat) (h : heap) : bytes := get [] (h_cells h) c.
Definition put_cell (c : nat) (v : bytes) (h : heap) : heap := set_cells (put [] (h_cells h) c v) h.
Definition put_val (i : nat) (v : value) (h : heap) : heap := set_vals (put VNone (h_vals h) i v) h.
Definition add_event (id : nat) (t : token) (h : heap) : heap := set_events (h_events h ++ [(id, t)]) h.
Definition modh (f : heap -> heap) : M unit := modify (fun s => with_heap (f (hp s)) s).
(** tracker.go:36-38 (Basket.Add) *)
Definition basket_add (b : nat) (seg : segment) (h : heap) : heap :=
  put_basket b (get_basket b h ++ [seg]) h.

(** Loops of Read methods, given the Read of the sub reader(s). *)

(** reader.go:91-103 (anyReader.Read), [errs] collects the errors. *)
Fixpoint any_loop (rds : list (M (option err))) (m : Z) (errs : list err) : M (option err) :=
  match rds with
  | [] => to_marker m ;; ret (Some (get_deepest errs))
  | rd :: t =>
    let* e := rd in
    match e with
    | None => ret None
    | Some x => any_loop t m (errs ++ [x])
    end
  end.
(** reader.go:802-813 (seqReader.Read) *)
Fixpoint seq_loop (rds : list (M (option err))) (m : Z) : M (option err) :=
  match rds with
  | [] => ret None
  | rd :: t =>
    let* e := rd in
    match e with
    | None => seq_loop t m
    | Some x => to_marker m ;; ret (Some x)
    end
  end.
(** reader.go:843-859 (skipSeqReader.Read): the loop with the current err. *)
Fixpoint skip_loop (skip : M (option err)) (rds : list (M (option err))) (e : option err) : M (option err) :=
  match rds with
  | [] => ret e
  | rd :: t =>
    match e with
    | Some _ => ret e
    | None =>
      let* e1 := rd in
      match e1 with
      | None => let* e2 := skip in skip_loop skip t e2
      | Some _ => skip_loop skip t e1
      end
    end
  end.
Definition skip_seq (skip : M (option err)) (rds : list (M (option err))) : M (option err) :=
  let* m := mark in
  let* e := skip in
  let* e := skip_loop skip rds e in
  match e with
  | None => ret None
  | Some x => to_marker m ;; ret (Some x)
  end.
(** reader.go:1006-1010, 610-611: for r.sub.Read(s) == nil {} *)
Fixpoint rep_loop (n : nat) (rd : M (option err)) : M unit :=
  match n with
  | O => out_of_fuel
  | S n' =>
    let* e := rd in
    match e with
    | None => rep_loop n' rd
    | Some _ => ret tt
    end
  end.
(** reader.go:898-905 (timesReader.Read); [k] is the number of remaining rounds. *)
Fixpoint times_loop (k : nat) (rd : M (option err)) : M (option err) :=
  match k with
  | O => ret None
  | S k' =>
    let* e := rd in
    match e with
    | None => times_loop k' rd
    | Some x => ret (Some x)
    end
  end.
(** reader.go:754-763 (pastReader.Read): the for loop; [true] = returned nil. *)
Fixpoint past_loop (n : nat) (rd : M (option err)) : M bool :=
  match n with
  | O => out_of_fuel
  | S n' =>
    let* fin := at_end in
    if fin then ret false
    else
      let* e := rd in
      match e with
      | None => ret true
      | Some _ => move_runes 1 ;; past_loop n' rd
      end
  end.
(** reader.go:921-932 (toReader.Read) *)
Fixpoint to_loop (n : nat) (rd : M (option err)) : M bool :=
  match n with
  | O => out_of_fuel
  | S n' =>
    let* subm := mark in
    let* e := rd in
    match e with
    | None => to_marker subm ;; ret true
    | Some _ =>
      let* ok := move_runes 1 in
      if ok then to_loop n' rd else ret false
    end
  end.
(** Runs [rd] on a fresh scanner for [str] (NewScanner(..).Use, reader.go:328-330):
    position and tracker are those of the new scanner, the heap is shared. *)
Definition on_sub (str : bytes) (rd : M (option err)) : M (option err * bool) := fun s =>
  match (let* e := use rd in let* fin := at_end in ret (e, fin))
          (mkSt (new_scanner str) (hp s)) with
  | Ok (x, s') => Ok (x, mkSt (sc s) (hp s'))
  | Panic => Panic
  | Fuel => Fuel
  end.
(** reader.go:323-339, 356-371 (bodyReader.Read, bodyTailReader.Read): the for loop;
    [back] tells whether the tail is given back. *)
Fixpoint body_loop (n : nat) (m : Z) (body tl : M (option err)) (back : bool) : M bool :=
  match n with
  | O => out_of_fuel
  | S n' =>
    let* fin := at_end in
    if fin then ret false
    else
      let* t := mark in
      let* e := tl in
      match e with
      | None =>
        let* str := get_tok (make_token m t) in
        let* r := on_sub str body in
        match fst r with
        | Some _ => ret false
        | None =>
          if negb (snd r) then ret false
          else if back then to_marker t ;; ret true else ret true
        end
      | Some _ => move_runes 1 ;; body_loop n' m body tl back
      end
  end.
(** reader.go:234-238 *)
Fixpoint between_any_loop (ranges : list (Z * Z)) : M bool :=
  match ranges with
  | [] => ret false
  | (mn, mx) :: t => let* ok := if_between mn mx in if ok then ret true else between_any_loop t
  end.
(** the moves of a Wrap function *)
Fixpoint do_moves (ms : list Z) : M unit :=
  match ms with
  | [] => ret tt
  | m :: t => to_marker m ;; do_moves t
  end.

(** The Read methods.  [n] is fuel: it bounds the nesting of calls and the rounds
    of the unbounded loops. *)
Fixpoint read {L : GoLib} (n : nat) (e : env) (r : reader) {struct n} : M (option err) :=
  match n with
  | O => out_of_fuel
  | S n' =>
    let rd := read n' e in
    let reads := map rd in
    match r with
    | RAny rs => let* m := mark in any_loop (reads rs) m []                       (* 91-103 *)
    | RAnyRune str => let* ok := if_any_rune str in error_if_false ok (what e r)  (* 143-145 *)
    | RAt sub =>                                                                  (* 161-166 *)
        let* m := mark in let* x := rd sub in to_marker m ;; ret x
    | RAtEnd => let* ok := at_end in error_if_false ok (what e r)                 (* 182-184 *)
    | RBetween mn mx => let* ok := if_between mn mx in error_if_false ok (what e r) (* 201-203 *)
    | RBetweenAny ranges singles =>                                               (* 232-244 *)
        let* m := mark in
        let* ok := between_any_loop ranges in
        if ok then ret None
        else
          let* ok := if_any_rune singles in
          if ok then ret None
          else to_marker m ;; error_for (what e r)
    | RBody b t =>                                                                (* 323-339 *)
        let* m := mark in
        let* ok := body_loop n' m (rd b) (rd t) true in
        if ok then ret None else to_marker m ;; error_for (what e r)
    | RBodyTail b t =>                                                            (* 356-371 *)
        let* m := mark in
        let* ok := body_loop n' m (rd b) (rd t) false in
        if ok then ret None else to_marker m ;; error_for (what e r)
    | RBool id format =>                                                          (* 389-393 *)
        let* ve := read_bool format in
        modh (put_val id (VBool (fst ve))) ;; ret (snd ve)
    | RFold str => let* ok := if_fold str in error_if_false ok (what e r)         (* 423-425 *)
    | RHoley mn mx holes =>                                                       (* 449-455 *)
        let* t := s_tail in
        let '(v, i) := decode_rune t in
        if in_range mn v mx && negb (contains_rune holes v)
        then let* ok := move (Z.of_nat i) in error_if_false ok (what e r)
        else error_for (what e r)
    | RInt id base bits =>                                                        (* 474-478 *)
        let* ve := read_int base bits in
        modh (put_val id (VInt (fst ve))) ;; ret (snd ve)
    | RJanusBeg cell name sub =>                                                  (* 501-507 *)
        let* te := tokenize_use (rd sub) in
        match snd te with
        | None => let* str := get_tok (fst te) in modh (put_cell cell str) ;; ret None
        | Some x => ret (Some x)
        end
    | RJanusEnd cell name =>                                                      (* 518-524 *)
        let* str := gets (fun s => get_cell cell (hp s)) in
        let* ok := if_str str in
        let* x := error_if_false ok (quote_str str) in
        match x with
        | None => modh (put_cell cell []) ;; ret None
        | Some y => ret (Some y)
        end
    | RInvalid msg => ret (Some (EOther (lit "INVALID-READER: " ++ msg)))         (* 551-553 *)
    | RLit str => let* ok := if_str str in error_if_false ok (what e r)           (* 590-592 *)
    | RMany sub =>                                                                (* 608-614 *)
        let* a := mark in
        rep_loop n' (rd sub) ;;
        let* b := mark in
        error_if_false (a <? b) (what e r)
    | RMap id sub =>                                                              (* 639-645 *)
        let* te := tokenize_use (rd sub) in
        match snd te with
        | None => modh (add_event id (fst te)) ;; ret None
        | Some x => ret (Some x)
        end
    | RMatch w f => let* ok := if_match f in error_if_false ok w                  (* 662-664 *)
    | RNamed _ sub => rd sub                                                      (* 681-683 *)
    | RNot sub =>                                                                 (* 705-714 *)
        let* m := mark in
        let* x := rd sub in
        to_marker m ;;
        match x with
        | None => error_for (what e sub)
        | Some _ => move_runes 1 ;; ret None
        end
    | ROpt sub => rd sub ;; ret None                                              (* 730-733 *)
    | RPast sub =>                                                                (* 754-763 *)
        let* m := mark in
        let* ok := past_loop n' (rd sub) in
        if ok then ret None else to_marker m ;; error_for (what e r)
    | RRune c => let* ok := if_rune c in error_if_false ok (what e r)             (* 784-786 *)
    | RSeq rs => let* m := mark in seq_loop (reads rs) m                          (* 802-813 *)
    | RSkipSeq skip rs => skip_seq (rd skip) (reads rs)                           (* 843-859 *)
    | RTimes k sub => times_loop (Z.to_nat k) (rd sub)                            (* 898-905 *)
    | RTo sub =>                                                                  (* 921-932 *)
        let* m := mark in
        let* ok := to_loop n' (rd sub) in
        if ok then ret None else to_marker m ;; error_for (what e r)
    | RUint id base bits =>                                                       (* 956-960 *)
        let* ve := read_uint base bits in
        modh (put_val id (VUint (fst ve))) ;; ret (snd ve)
    | RWrap _ f =>                                                                (* 982-984 *)
        let* me := gets (fun s => f (full (sc s)) (pos (sc s))) in
        do_moves (fst me) ;; ret (snd me)
    | RZom sub => rep_loop n' (rd sub) ;; ret None                                (* 1006-1010 *)
    | RPick info b sub =>                                                         (* tracker.go:78-87 *)
        let* te := tokenize_use (rd sub) in
        match snd te with
        | None => modh (basket_add b (mkSeg info (fst te))) ;; ret None
        | Some x => ret (Some x)
        end
    | RMonitor info lg sub =>                                                     (* monitor.go:78-83 *)
        let* p := mark in
        let* ptr := gets (fun s => fst (log_enter info p (get_log lg (hp s)))) in
        modh (fun h => put_log lg (snd (log_enter info p (get_log lg h))) h) ;;
        let* x := rd sub in
        let* q := mark in
        modh (fun h => put_log lg (log_exit ptr q x (get_log lg h)) h) ;;
        ret x
    | RRule i =>                                                                  (* grammar.go:116-118 *)
        match r_reader (get_rule e i) with
        | Some sub => rd sub
        | None => panic
        end
    | RRuleName sub =>                                                            (* grammar.go:133-136 *)
        let* x := rd sub in
        error_if_false (match x with None => true | Some _ => false end) (what e r)
    | RGrammar _ pfx i =>                                                         (* grammar/json.go:69-75 etc. *)
        match r_reader (get_rule e i) with
        | None => panic
        | Some sub =>
          let* x := rd sub in
          match x with
          | None => ret None
          | Some y => ret (Some (EOther (pfx ++ err_text y)))
          end
        end
    end
  end.

(* ----------------------------------------------------------- constructors *)

(** interface{} arguments: rune, string, Reader, or something else (with the
    text of %T). *)
Inductive arg := ARune (r : Z) | AStr (s : bytes) | AReader (r : reader) | ABad (ty : bytes).
(** reader.go:10-20 (asReader) *)
Definition as_reader (a : arg) : option reader :=
  match a with
  | ARune r => Some (RRune r)
  | AStr s => Some (RLit s)
  | AReader r => Some r
  | ABad _ => None
  end.
Definition arg_type (a : arg) : bytes :=
  match a with ARune _ => lit "int32" | AStr _ => lit "string" | AReader _ => lit "Reader" | ABad t => t end.
(** The loop of Any/Seq/SkipSeq (reader.go:118-124, 827-833, 875-881); [fname] is
    the name in the message. *)
Fixpoint as_readers (fname : bytes) (i : Z) (l : list arg) (acc : list reader) : list reader + reader :=
  match l with
  | [] => inl acc
  | a :: t =>
    match as_reader a with
    | Some r => as_readers fname (i + 1) t (acc ++ [r])
    | None => inr (RInvalid (lit "invalid " ++ fname ++ lit " parameter at " ++ itoa (i + 1)
                             ++ lit ": unknown type " ++ arg_type a))
    end
  end.
(** reader.go:116-126, 825-835, 873-883 *)
Definition mk_any (l : list arg) : reader :=
  match as_readers (lit "Any") 0 l [] with inl rs => RAny rs | inr x => x end.
Definition mk_seq (l : list arg) : reader :=
  match as_readers (lit "Seq") 0 l [] with inl rs => RSeq rs | inr x => x end.
Definition mk_skip_seq (skip : reader) (l : list arg) : reader :=
  match as_readers (lit "SkipSeq") 0 l [] with inl rs => RSkipSeq skip rs | inr x => x end.
Definition mk_one (fname : bytes) (k : reader -> reader) (a : arg) : reader :=
  match as_reader a with
  | Some r => k r
  | None => RInvalid (lit "invalid " ++ fname ++ lit " parameter: unknown type " ++ arg_type a)
  end.
(** reader.go:623-629, 741-747, 771-777, 940-946, 1019-1025 *)
Definition mk_many := mk_one (lit "Many") RMany.
Definition mk_opt := mk_one (lit "Opt") ROpt.
Definition mk_past := mk_one (lit "Past") RPast.
Definition mk_to := mk_one (lit "To") RTo.
Definition mk_zom := mk_one (lit "Zom") RZom.
(** reader.go:130-136 (AnyFold) *)
Definition any_fold (l : list bytes) : reader := RAny (map RFold l).
(** reader.go:266-284 (BetweenAny) *)
Fixpoint ranges3 (rs : list Z) : option (list (Z * Z)) :=
  match rs with
  | [] => Some []
  | mn :: sep :: mx :: t =>
    if sep =? 0x2D then match ranges3 t with Some l => Some ((mn, mx) :: l) | None => None end
    else None
  | _ => None
  end.
Definition between_any {L : GoLib} (str : bytes) : reader :=
  match ranges3 (runes str) with
  | Some l => RBetweenAny l []
  | None => RInvalid (lit "invalid init string for BetweenAny: " ++ quote_str str)
  end.
(** reader.go:290-298 (Set) *)
Definition set_reader {L : GoLib} (ranges singles : bytes) : reader :=
  match between_any ranges with
  | RBetweenAny l _ => RBetweenAny l singles
  | r => r
  end.
(** reader.go:302-315 (BuildBetweenAny) *)
Fixpoint ranges2 (rs : list Z) : option (list (Z * Z)) :=
  match rs with
  | [] => Some []
  | mn :: mx :: t => match ranges2 t with Some l => Some ((mn, mx) :: l) | None => None end
  | _ => None
  end.
Definition build_between_any (rs : list Z) : reader :=
  match ranges2 rs with
  | Some l => RBetweenAny l []
  | None => RInvalid (lit "odd number of min-max values for BetweenAny: " ++ itoa (slen rs))
  end.
(** reader.go:414-416 (Digit), 438-440 (HexDigit), 696-698 (NL), 997-999 (WS), 888-890 (SkipWSSeq) *)
Definition digit : reader := RBetween 0x30 0x39.
Definition hex_digit_reader : reader := build_between_any [0x30; 0x39; 0x61; 0x66; 0x41; 0x46].
Definition nl : reader := mk_any [AStr [x0a]; AStr [x0d; x0a]].
Definition ws : reader := RAnyRune [x20; x0d; x0a; x09].
Definition skip_ws_seq (l : list arg) : reader := mk_skip_seq (mk_zom (AReader ws)) l.
(** reader.go:533-544 (Janus): [cell] is a fresh identity. *)
Definition janus (cell : nat) (name : bytes) (r : reader) : reader * reader :=
  (RJanusBeg cell name r, RJanusEnd cell name).
