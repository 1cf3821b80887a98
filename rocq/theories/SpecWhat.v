(** SpecWhat.v - the notation of What(), read backwards: which reader a description stands for.  Nothing here refers to
    the What methods. *)
From Verif Require Export Reader Spec.
From Coq Require Import DecimalString.

(** Hexadecimal digits, lower case *)
Definition hex_of (x : byte) : option Z :=
  if (0x30 <=? bz x) && (bz x <=? 0x39) then Some (bz x - 0x30)
  else if (0x61 <=? bz x) && (bz x <=? 0x66) then Some (bz x - 0x61 + 10) else None.
Fixpoint hexes (k : nat) (s : bytes) (acc : Z) : option (Z * bytes) :=
  match k, s with
  | O, _ => Some (acc, s)
  | S k', x :: t => match hex_of x with Some d => hexes k' t (acc * 16 + d) | None => None end
  | S _, [] => None
  end.
(** One character of a Go literal: the bytes meant and what follows *)
Definition simple_escape (x : byte) : byte :=
  match x with x61 => x07 | x62 => x08 | x66 => x0c | x6e => x0a | x72 => x0d | x74 => x09 | x76 => x0b | _ => x end.
Definition one_char (s : bytes) : option (bytes * bytes) :=
  match s with
  | [] => None
  | x5c :: x78 :: t => match hexes 2 t 0 with Some (v, u) => Some ([zb v], u) | None => None end
  | x5c :: x75 :: t => match hexes 4 t 0 with Some (v, u) => Some (encode_rune v, u) | None => None end
  | x5c :: x55 :: t => match hexes 8 t 0 with Some (v, u) => Some (encode_rune v, u) | None => None end
  | x5c :: x :: t => Some ([simple_escape x], t)
  | _ => let w := snd (decode_rune s) in Some (firstn w s, skipn w s)
  end.
(** Up to the quote [q] *)
Fixpoint unquoted (k : nat) (q : byte) (s : bytes) : option (bytes * bytes) :=
  match k, s with
  | S k', x :: t =>
    if Byte.eqb x q then Some ([], t)
    else match one_char s with
         | Some (c, u) => match unquoted k' q u with Some (v, r) => Some (c ++ v, r) | None => None end
         | None => None
         end
  | _, _ => None
  end.
Definition string_of (s : bytes) : option (bytes * bytes) :=
  match s with x22 :: t => unquoted (length s) x22 t | _ => None end.
Definition rune_of (s : bytes) : option (Z * bytes) :=
  match s with
  | x27 :: t => match unquoted (length s) x27 t with Some (c, u) => Some (fst (decode_rune c), u) | None => None end
  | _ => None
  end.
Definition char_of (s : bytes) : option (Z * bytes) :=
  match one_char s with Some (c, u) => Some (fst (decode_rune c), u) | None => None end.
(** A number *)
Definition num_byte (x : byte) : bool := Byte.eqb x x2d || ((0x30 <=? bz x) && (bz x <=? 0x39)).
Fixpoint run_of (p : byte -> bool) (s : bytes) : bytes * bytes :=
  match s with x :: t => if p x then let '(a, b) := run_of p t in (x :: a, b) else ([], s) | [] => ([], []) end.
Definition number_of (s : bytes) : option (Z * bytes) :=
  let '(a, b) := run_of num_byte s in
  match NilZero.int_of_string (String.string_of_list_byte a) with Some d => Some (Z.of_int d, b) | None => None end.
(** [x] in front *)
Fixpoint skip (x s : bytes) : option bytes :=
  match x, s with
  | [], _ => Some s
  | a :: x', b :: s' => if Byte.eqb a b then skip x' s' else None
  | _ :: _, [] => None
  end.
Definition after {A} (x : string) (o : option (A * bytes)) : option (A * bytes) :=
  match o with Some (a, s) => match skip (lit x) s with Some t => Some (a, t) | None => None end | None => None end.
Arguments after {A} x%string o.
Definition then_ {A B} (o : option (A * bytes)) (f : A -> bytes -> option (B * bytes)) : option (B * bytes) :=
  match o with Some (a, s) => f a s | None => None end.
Definition gives {A B} (o : option (A * bytes)) (f : A -> B) : option (B * bytes) := then_ o (fun a s => Some (f a, s)).
(** A range: <az>, or 'a' for one character *)
Definition range_of (s : bytes) : option ((Z * Z) * bytes) :=
  match s with
  | x27 :: _ => gives (rune_of s) (fun a => (a, a))
  | x3c :: t => after ">" (then_ (char_of t) (fun a u => gives (char_of u) (fun b => (a, b))))
  | _ => None
  end.

(** The reader a description stands for; [readers_of]: descriptions with a blank behind each, up to [x]. *)
Fixpoint reader_of (k : nat) (s : bytes) : option (reader * bytes) :=
  match k with
  | O => None
  | S k' =>
    match s with
    | x22 :: _ => gives (string_of s) RLit                                             (* "ab" *)
    | x27 :: _ => gives (rune_of s) RRune                                              (* 'a' *)
    | x7e :: t => gives (string_of t) RFold                                            (* ~"ab" *)
    | x40 :: x45 :: t => match skip (lit "ND") t with Some u => Some (RAtEnd, u) | None => None end (* @END *)
    | x40 :: t => gives (reader_of k' t) RAt                                           (* @r *)
    | x3c :: _ => gives (range_of s) (fun p => RBetween (fst p) (snd p))               (* <az> *)
    | x28 :: x3e :: t =>                                                               (* (>skip> r1 r2 ) *)
      then_ (after "> " (reader_of k' t)) (fun a u => gives (readers_of k' x29 u) (RSkipSeq a))
    | x28 :: t =>                                                                      (* (<az> - "bc") *)
      then_ (after " - " (range_of t)) (fun p u => gives (after ")" (string_of u)) (RHoley (fst p) (snd p)))
    | x5b :: x22 :: t => gives (after "]" (string_of (x22 :: t))) RAnyRune             (* ["ab"] *)
    | x5b :: x20 :: x20 :: t => match skip (lit "]") t with Some u => Some (RAny [], u) | None => None end
    | x5b :: x20 :: t => gives (readers_of k' x5d t) RAny                              (* [ r1 r2 ] *)
    | x2b :: t => gives (reader_of k' t) RMany                                         (* +r *)
    | x2a :: t => gives (reader_of k' t) RZom                                          (* *r *)
    | x3f :: t => gives (reader_of k' t) ROpt                                          (* ?r *)
    | x21 :: t => gives (reader_of k' t) RNot                                          (* !r *)
    | x2d :: x2d :: x3e :: t => gives (reader_of k' t) RPast                           (* -->r *)
    | x2d :: x3e :: t => gives (reader_of k' t) RTo                                    (* ->r *)
    | x2d :: x28 :: t =>
      then_ (after "-" (reader_of k' t)) (fun b u =>
        match u with
        | x2b :: v => gives (after ")-" (reader_of k' v)) (RBodyTail b)                (* -(body-+tail)- *)
        | _ => gives (after ")-" (reader_of k' u)) (RBody b)                           (* -(body-tail)- *)
        end)
    | x69 :: t =>                                                                      (* int{10,8} *)
      match skip (lit "nt{") t with
      | Some u => then_ (after "," (number_of u)) (fun b v => gives (after "}" (number_of v)) (RInt 0 b))
      | None => None
      end
    | x75 :: t =>
      match skip (lit "int{") t with
      | Some u => then_ (after "," (number_of u)) (fun b v => gives (after "}" (number_of v)) (RUint 0 b))
      | None => None
      end
    | x62 :: t =>
      match skip (lit "ool{") t with Some u => gives (after "}" (string_of u)) (RBool 0) | None => None end
    | _ => then_ (after "*" (number_of s)) (fun n u => gives (reader_of k' u) (RTimes n)) (* 3*r *)
    end
  end
with readers_of (k : nat) (x : byte) (s : bytes) : option (list reader * bytes) :=
  match k with
  | O => None
  | S k' =>
    match s with
    | [] => None
    | y :: t => if Byte.eqb y x then Some ([], t)
                else then_ (after " " (reader_of k' s)) (fun r u => gives (readers_of k' x u) (cons r))
    end
  end.
(** Readers one behind the other, with blanks between them *)
Fixpoint sequence_of (k : nat) (s : bytes) : option (list reader) :=
  match k with
  | O => None
  | S k' =>
    match reader_of (S (length s)) s with
    | Some (r, []) => Some [r]
    | Some (r, x20 :: t) => match sequence_of k' t with Some l => Some (r :: l) | None => None end
    | _ => None
    end
  end.
Definition described (s : bytes) : option reader :=
  match sequence_of (S (length s)) s with
  | Some [r] => Some r
  | Some l => Some (RSeq l)
  | None => None
  end.

(** What a description leaves out: Map, Pick, Monitor, and where values go; a range of one character is the character. *)
Fixpoint shape (r : reader) : reader :=
  match r with
  | RMap _ a | RPick _ _ a | RMonitor _ _ a => shape a
  | RAny l => RAny (map shape l) | RSeq l => RSeq (map shape l) | RSkipSeq a l => RSkipSeq (shape a) (map shape l)
  | RAt a => RAt (shape a) | RMany a => RMany (shape a) | RZom a => RZom (shape a) | ROpt a => ROpt (shape a)
  | RNot a => RNot (shape a) | RPast a => RPast (shape a) | RTo a => RTo (shape a) | RTimes n a => RTimes n (shape a)
  | RBody a b => RBody (shape a) (shape b) | RBodyTail a b => RBodyTail (shape a) (shape b)
  | RBetween a b => if a =? b then RRune a else r
  | RInt _ a b => RInt 0 a b | RUint _ a b => RUint 0 a b | RBool _ f => RBool 0 f
  | _ => r
  end.

(** The readers a description of which can be read back.  A Body with a Many as tail is written like a BodyTail, a
    range that ends in a quote like one that ends in a backslash, a Seq inside another reader like the readers of the
    Seq; the other readers left out are written with names chosen by the caller. *)
Definition plain_node (r : reader) : Prop :=
  match r with
  | RRune c => is_scalar c
  | RBetween a b | RHoley a b _ => is_scalar a /\ is_scalar b /\ (a = b \/ a <> 0x27 /\ b <> 0x27)
  | RBody _ t => forall a, shape t <> RMany a
  | RAny _ | RAnyRune _ | RAt _ | RAtEnd | RSkipSeq _ _ | RBodyTail _ _ | RBool _ _ | RFold _ | RInt _ _ _ | RLit _ | RMany _
  | RNot _ | ROpt _ | RPast _ | RTimes _ _ | RTo _ | RUint _ _ _ | RZom _ | RMap _ _ | RPick _ _ _ | RMonitor _ _ _ => True
  | _ => False
  end.
