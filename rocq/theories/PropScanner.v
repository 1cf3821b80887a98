(** PropScanner.v - C01 to C17: the Scanner (scanner.go, scanner_rev.go, token.go).
    Only statements; the vocabulary is in Spec.v, the proofs in *Facts.v and
    ScannerSafe.v.  Beside every theorem a concrete case. *)
From Verif Require Import ScannerSafe ExKit.

(* ------------------------------------------------------------------- C01 *)

(** C01. [prog] (ScannerSafe.v) is the set of programs over the Scanner API: any
    sequence of public calls with any arguments, branching on their results;
    markers are positions of the text.  [pn] = IfFold/RevIfFold/RevToFold are used,
    [lp] = While with arbitrary body is used. *)
Theorem C01_position_stays_in_text {L : GoLib} pn lp A (m : M A) s :
  in_text s -> prog (slen (full (sc s))) pn lp A m ->
  (forall x s', m s = Ok (x, s') ->
     in_text s' /\ full (sc s') = full (sc s) /\
     exists a b, s_head s' = Ok (a, s') /\ s_tail s' = Ok (b, s') /\ a ++ b = full (sc s)) /\
  (pn = false -> m s <> Panic) /\ (lp = false -> m s <> Fuel).
Proof. intros H P. exact (prog_safe pn lp A m s H P). Qed.
Print Assumptions C01_position_stays_in_text.

Theorem C01_new_scanner_in_text t h : slen t < 2 ^ 63 ->
  in_text (mkSt (new_scanner t) h) /\ in_text (mkSt (new_rev_scanner t) h).
Proof.
  intros H. pose proof (slen_nonneg t). unfold in_text. cbn [sc pos full new_scanner new_rev_scanner]. lia.
Qed.
Print Assumptions C01_new_scanner_in_text.

(** The three exceptions do panic. *)
Theorem C01_fold_panics {L : GoLib} :
  if_fold (lit "ab") (mk (lit "a") 0) = Panic /\
  rev_if_fold (lit "ab") (mk (lit "a") 1) = Panic /\
  rev_to_fold (lit "ab") (mk (lit "a") 1) = Panic.
Proof. repeat split. Qed.
Print Assumptions C01_fold_panics.

Example C01_case {L : GoLib} :
  let p := bind mark (fun m => bind (to_rune 0x62) (fun ok => if ok then bind (read_int 10 8) (fun _ => rev_to (lit "a")) else to_marker m)) in
  prog 3 false false bool p /\ in_text (mk (lit "abc") 1) /\
  match p (mk (lit "abc") 1) with Ok (r, s') => (r, pos (sc s')) = (true, 1) | _ => False end.
Proof.
  split; [|split; [in_here|vm_compute; reflexivity]].
  refine (p_with_mark _ _ _ _ _ _). intros m Hm. refine (p_bind _ _ _ _ _ _ _ (p_to_rune _ _ _ _) _). intros [|].
  - refine (p_bind _ _ _ _ _ _ _ (p_read_int _ _ _ _ _) _). intros _. apply p_rev_to.
  - apply p_to_marker. exact Hm.
Qed.

(* ------------------------------------------------------------------- C02 *)

(** C02 as stated is false: every marker is accepted. *)
Theorem C02_to_marker_refuted :
  ~ (forall s m, in_text s ->
       (0 <= m <= slen (full (sc s)) -> to_marker m s = Ok (true, moveto m s)) /\
       (~ (0 <= m <= slen (full (sc s))) -> to_marker m s = Ok (false, s))).
Proof.
  intros H. destruct (H (mk (lit "abc") 0) 7) as [_ N]; [in_here|].
  assert (K : ~ (0 <= 7 <= slen (full (sc (mk (lit "abc") 0))))) by (vm_compute; intuition congruence).
  specialize (N K). vm_compute in N. discriminate.
Qed.
Print Assumptions C02_to_marker_refuted.

(** Valid markers do work, and the next look at the text behind a bad one panics. *)
Theorem C02_to_marker_exact s m : in_text s ->
  to_marker m s = Ok (true, moveto m s) /\
  (~ (0 <= m <= slen (full (sc s))) -> s_tail (moveto m s) = Panic /\ s_head (moveto m s) = Panic).
Proof.
  intros I. split.
  - unfold to_marker. pose proof (slen_nonneg (full (sc s))).
    replace ((m <? 0) && (slen (full (sc s)) <=? m)) with false by lia. reflexivity.
  - intros N. unfold s_tail, s_head. cbn [moveto sc pos full].
    replace ((0 <=? m) && (m <=? slen (full (sc s)))) with false by lia. auto.
Qed.
Print Assumptions C02_to_marker_exact.
Example C02_case : in_text (mk (lit "abc") 1) /\
  to_marker 9 (mk (lit "abc") 1) = Ok (true, mk (lit "abc") 9).
Proof. split; [in_here|reflexivity]. Qed.

(* ------------------------------------------------------------------- C03 *)

Theorem C03_move_exact s n : in_text s -> - 2 ^ 63 <= n < 2 ^ 63 ->
  (0 <= pos (sc s) + n <= slen (full (sc s)) -> yes_by (move n) s n) /\
  (~ (0 <= pos (sc s) + n <= slen (full (sc s))) -> no (move n) s).
Proof. intros I N. split; [apply move_ok|apply move_no]; assumption. Qed.
Print Assumptions C03_move_exact.
Example C03_case : in_text (mk (lit "abc") 1) /\
  move (-1) (mk (lit "abc") 1) = Ok (true, mk (lit "abc") 0) /\
  move 9223372036854775807 (mk (lit "abc") 1) = Ok (false, mk (lit "abc") 1).
Proof. split; [in_here|split; reflexivity]. Qed.

(* ------------------------------------------------------------------- C04 *)

(** C04. The wrapped code is arbitrary: all that is known is what it answered and
    that it left the scanner somewhere in the same text. *)
Theorem C04_scope (f : M bool) s s' r : stays s s' -> f s = Ok (r, s') ->
  scope f s = Ok (r, if r then s' else moveto (pos (sc s)) s').
Proof. intros H. apply (scope_spec s s' H). Qed.
Theorem C04_trace (f : M bool) s s' r : stays s s' -> f s = Ok (r, s') ->
  trace f s = Ok ((part s (pos (sc s)) (pos (sc s')), r), if r then s' else moveto (pos (sc s)) s').
Proof. intros H. apply (trace_spec s s' H). Qed.
Theorem C04_tokenize (f : M bool) s s' r : stays s s' -> f s = Ok (r, s') ->
  tokenize f s = Ok ((span (pos (sc s)) (pos (sc s')), r), if r then s' else moveto (pos (sc s)) s').
Proof. intros H. apply (tokenize_spec s s' H). Qed.
Theorem C04_capture (f : M bool) s s' r : stays s s' -> f s = Ok (r, s') ->
  capture f s = Ok (if r then (part s (pos (sc s)) (pos (sc s')), true) else ([], false),
                    if r then s' else moveto (pos (sc s)) s').
Proof. intros H. apply (capture_spec s s' H). Qed.
Theorem C04_use (rd : M (option err)) s s' e : stays s s' -> rd s = Ok (e, s') ->
  use rd s = Ok (e, match e with None => s' | Some _ => moveto (pos (sc s)) s' end).
Proof. intros H. apply (use_spec s s' H). Qed.
Theorem C04_trace_use (rd : M (option err)) s s' e : stays s s' -> rd s = Ok (e, s') ->
  trace_use rd s = Ok (match e with None => part s (pos (sc s)) (pos (sc s')) | Some _ => [] end, e,
                       match e with None => s' | Some _ => moveto (pos (sc s)) s' end).
Proof. intros H. apply (trace_use_spec s s' H). Qed.
Theorem C04_tokenize_use (rd : M (option err)) s s' e : stays s s' -> rd s = Ok (e, s') ->
  tokenize_use rd s = Ok (match e with None => span (pos (sc s)) (pos (sc s'))
                                     | Some _ => span (pos (sc s)) (pos (sc s)) end, e,
                          match e with None => s' | Some _ => moveto (pos (sc s)) s' end).
Proof. intros H. apply (tokenize_use_spec s s' H). Qed.
Theorem C04_capture_use (rd : M (option err)) s s' e : stays s s' -> rd s = Ok (e, s') ->
  capture_use rd s = Ok (match e with None => part s (pos (sc s)) (pos (sc s')) | Some _ => [] end, e,
                         match e with None => s' | Some _ => moveto (pos (sc s)) s' end).
Proof. intros H. apply (capture_use_spec s s' H). Qed.
Print Assumptions C04_scope.
Print Assumptions C04_trace.
Print Assumptions C04_tokenize.
Print Assumptions C04_capture.
Print Assumptions C04_use.
Print Assumptions C04_trace_use.
Print Assumptions C04_tokenize_use.
Print Assumptions C04_capture_use.
Example C04_case : let s := mk (lit "abcd") 1 in let f := move 2 ;; ret false in
  stays s (mk (lit "abcd") 3) /\ f s = Ok (false, mk (lit "abcd") 3) /\
  trace f s = Ok ((lit "bc", false), s) /\
  trace (move 2) s = Ok ((lit "bc", true), mk (lit "abcd") 3).
Proof. split; [split; [in_here|split; [in_here|reflexivity]]|repeat split]. Qed.

(* ------------------------------------------------------------------- C05 *)

Theorem C05_if s a b str : at_split s a b ->
  (forall t, b = str ++ t -> yes_by (if_str str) s (slen str)) /\
  ((forall t, b <> str ++ t) -> no (if_str str) s).
Proof.
  intros H. split; [intros t ->; exact (if_str_yes s a str t H)|apply (if_str_no s a b str H)].
Qed.
Theorem C05_if_any s a b : at_split s a b ->
  (forall ys x xs t, b = x ++ t -> (forall y, In y ys -> forall u, b <> y ++ u) ->
     yes_by (if_any (ys ++ x :: xs)) s (slen x)) /\
  (forall ys, (forall y, In y ys -> forall u, b <> y ++ u) -> no (if_any ys) s).
Proof.
  intros H. split.
  - intros ys x xs t E N. apply (if_any_yes s a x xs ys b H N). eauto.
  - intros ys N. apply (if_any_no s a b ys H N).
Qed.
Theorem C05_rev_if s a b str : at_split s a b ->
  (forall h, a = h ++ str -> yes_by (rev_if str) s (- slen str)) /\
  ((forall h, a <> h ++ str) -> no (rev_if str) s).
Proof.
  intros H. split; [intros t ->; exact (rev_if_yes s t str b H)|apply (rev_if_no s a b str H)].
Qed.
Theorem C05_rev_if_any s a b : at_split s a b ->
  (forall ys x xs h, a = h ++ x -> (forall y, In y ys -> forall u, a <> u ++ y) ->
     yes_by (rev_if_any (ys ++ x :: xs)) s (- slen x)) /\
  (forall ys, (forall y, In y ys -> forall u, a <> u ++ y) -> no (rev_if_any ys) s).
Proof.
  intros H. split.
  - intros ys x xs t E N. apply (rev_if_any_yes s b x xs ys a H N). eauto.
  - intros ys N. apply (rev_if_any_no s a b ys H N).
Qed.
Print Assumptions C05_if.
Print Assumptions C05_if_any.
Print Assumptions C05_rev_if.
Print Assumptions C05_rev_if_any.
Example C05_case : at_split (mk (lit "foobar") 3) (lit "foo") (lit "bar") /\
  if_any [lit "x"; lit "ba"; lit "bar"] (mk (lit "foobar") 3) = Ok (true, mk (lit "foobar") 5) /\
  rev_if_any [lit "f"; lit "oo"] (mk (lit "foobar") 3) = Ok (true, mk (lit "foobar") 1).
Proof. split; [split_here|split; reflexivity]. Qed.

(* ------------------------------------------------------------------- C06 *)

Theorem C06_to_first_occurrence s a b str : at_split s a b ->
  (forall c d, b = c ++ str ++ d ->
     (forall c' d', b = c' ++ str ++ d' -> slen c <= slen c') -> yes_by (to_str str) s (slen c)) /\
  ((forall c d, b <> c ++ str ++ d) -> no (to_str str) s).
Proof.
  intros H. split; [intros c d -> M; exact (to_str_yes s a c str d H M)|apply (to_str_no s a b str H)].
Qed.
Print Assumptions C06_to_first_occurrence.
Example C06_case : at_split (mk (lit "a aba ba") 1) (lit "a") (lit " aba ba") /\
  to_str (lit "ba") (mk (lit "a aba ba") 1) = Ok (true, mk (lit "a aba ba") 3).
Proof. split; [split_here|reflexivity]. Qed.

(* ------------------------------------------------------------------- C07 *)

(** C07 as stated is false: an ill-formed byte or U+FFFD hides everything before it. *)
Theorem C07_rev_to_refuted :
  ~ (forall s a b str, at_split s a b -> str <> [] ->
      (forall c d, a = c ++ str ++ d ->
         (forall c' d', a = c' ++ str ++ d' -> slen d <= slen d') -> yes_by (rev_to str) s (- slen d)) /\
      ((forall c d, a <> c ++ str ++ d) -> no (rev_to str) s)).
Proof.
  intros H. destruct (H (mk [x61; xff] 2) [x61; xff] [] [x61]) as [Y _]; [split_here|discriminate|].
  assert (K : yes_by (rev_to [x61]) (mk [x61; xff] 2) (- slen [xff])).
  { apply (Y [] [xff] eq_refl). intros [|? [|? [|]]] d' E; inversion E; subst; vm_compute; discriminate. }
  vm_compute in K. discriminate.
Qed.
Print Assumptions C07_rev_to_refuted.

(** It holds when the text before the position and the string are valid UTF-8 and
    the text contains no U+FFFD. *)
Theorem C07_rev_to_partial s rs b ss : at_split s (utf8s rs) b -> Forall visible rs ->
  Forall is_scalar ss -> ss <> [] ->
  (forall c d, utf8s rs = c ++ utf8s ss ++ d ->
     (forall c' d', utf8s rs = c' ++ utf8s ss ++ d' -> slen d <= slen d') ->
     yes_by (rev_to (utf8s ss)) s (- slen d)) /\
  ((forall c d, utf8s rs <> c ++ utf8s ss ++ d) -> no (rev_to (utf8s ss)) s).
Proof.
  intros H F Fs N. split.
  - intros c d E M. exact (rev_to_yes s rs b ss c d H F Fs N E M).
  - intros M. exact (rev_to_no s rs b ss H F M).
Qed.
Print Assumptions C07_rev_to_partial.

(** What it does on every text and string: [h] is what comes before the last
    U+FFFD or ill-formed byte, candidates are the rune boundaries behind it. *)
Theorem C07_rev_to_exact s h rs b str : at_split s (h ++ utf8s rs) b -> blocked h -> Forall visible rs ->
  (forall r1 v r2, rs = r1 ++ v :: r2 -> (exists t, h ++ utf8s (r1 ++ [v]) = t ++ str) ->
     (forall r1' v' r2', rs = r1' ++ v' :: r2' -> (length r2' < length r2)%nat ->
        forall t, h ++ utf8s (r1' ++ [v']) <> t ++ str) ->
     yes_by (rev_to str) s (- slen (utf8s r2))) /\
  ((forall r1 v r2, rs = r1 ++ v :: r2 -> forall t, h ++ utf8s (r1 ++ [v]) <> t ++ str) ->
     no (rev_to str) s).
Proof. exact (rev_to_str_spec s h rs b str). Qed.
Print Assumptions C07_rev_to_exact.
Theorem C07_split_exists a : exists h rs, a = h ++ utf8s rs /\ blocked h /\ Forall visible rs.
Proof. exact (blocked_exists a). Qed.
Print Assumptions C07_split_exists.
Example C07_case : at_split (mk (lit "aéaéx") 7) (utf8s [0x61; 0xE9; 0x61; 0xE9; 0x78]) [] /\
  rev_to (utf8s [0x61; 0xE9]) (mk (lit "aéaéx") 7) = Ok (true, mk (lit "aéaéx") 6).
Proof. split; [split_here|reflexivity]. Qed.

(* ------------------------------------------------------------------- C08 *)

(** C08 as stated is false: IfFold panics near the end of the text (so do RevIfFold
    and RevToFold, C01_fold_panics). *)
Theorem C08_fold_refuted {L : GoLib} :
  ~ (forall s str, in_text s -> if_fold str s <> Panic).
Proof.
  intros H. apply (H (mk (lit "a") 1) (lit "b")); [in_here|reflexivity].
Qed.
Print Assumptions C08_fold_refuted.

Theorem C08_if_fold_exact {L : GoLib} s a b str : at_split s a b ->
  (forall c d, b = c ++ d -> slen c = slen str -> fold_equal c str -> yes_by (if_fold str) s (slen str)) /\
  (forall c d, b = c ++ d -> slen c = slen str -> ~ fold_equal c str -> no (if_fold str) s) /\
  (slen b < slen str -> if_fold str s = Panic).
Proof.
  intros H. split; [|split].
  - intros c d -> E F. exact (if_fold_yes s a c d str H E F).
  - intros c d -> E F. exact (if_fold_no s a c d str H E F).
  - exact (if_fold_panic s a b str H).
Qed.
Theorem C08_rev_if_fold_exact {L : GoLib} s a b str : at_split s a b ->
  (forall c d, a = c ++ d -> slen d = slen str -> fold_equal d str -> yes_by (rev_if_fold str) s (- slen str)) /\
  (forall c d, a = c ++ d -> slen d = slen str -> ~ fold_equal d str -> no (rev_if_fold str) s) /\
  (slen a < slen str -> rev_if_fold str s = Panic).
Proof.
  intros H. split; [|split].
  - intros c d -> E F. exact (rev_if_fold_yes s c d b str H E F).
  - intros c d -> E F. exact (rev_if_fold_no s c d b str H E F).
  - exact (rev_if_fold_panic s a b str H).
Qed.
(** ToFold is right everywhere (it compares windows of len(str) bytes). *)
Theorem C08_to_fold {L : GoLib} s a b str : at_split s a b ->
  (forall c d e, b = c ++ d ++ e -> slen d = slen str -> fold_equal d str ->
     (forall c' d' e', b = c' ++ d' ++ e' -> slen d' = slen str -> fold_equal d' str -> slen c <= slen c') ->
     yes_by (to_fold str) s (slen c)) /\
  ((forall c d e, b = c ++ d ++ e -> slen d = slen str -> ~ fold_equal d str) -> no (to_fold str) s).
Proof.
  intros H. split.
  - intros c d e -> E F M. exact (to_fold_yes s a c d e str H E F M).
  - exact (to_fold_no s a b str H).
Qed.
Theorem C08_rev_to_fold_exact {L : GoLib} s h rs b str :
  at_split s (h ++ utf8s rs) b -> blocked h -> Forall visible rs ->
  let passes (r2 : list Z) := forall r1' v' r2', rs = r1' ++ v' :: r2' -> (length r2' < length r2)%nat ->
     slen str <= slen (h ++ utf8s (r1' ++ [v'])) /\ ~ fold_suffix (h ++ utf8s (r1' ++ [v'])) str in
  (forall r1 v r2, rs = r1 ++ v :: r2 -> passes r2 -> fold_suffix (h ++ utf8s (r1 ++ [v])) str ->
     yes_by (rev_to_fold str) s (- slen (utf8s r2))) /\
  (forall r1 v r2, rs = r1 ++ v :: r2 -> passes r2 -> slen (h ++ utf8s (r1 ++ [v])) < slen str ->
     rev_to_fold str s = Panic) /\
  ((forall r1 v r2, rs = r1 ++ v :: r2 ->
     slen str <= slen (h ++ utf8s (r1 ++ [v])) /\ ~ fold_suffix (h ++ utf8s (r1 ++ [v])) str) ->
   no (rev_to_fold str) s).
Proof. exact (rev_to_fold_spec s h rs b str). Qed.
Print Assumptions C08_if_fold_exact.
Print Assumptions C08_rev_if_fold_exact.
Print Assumptions C08_to_fold.
Print Assumptions C08_rev_to_fold_exact.
Example C08_case {L : GoLib} : at_split (mk (lit "a sElect") 1) (lit "a") (lit " sElect") /\
  fold_equal (lit "sElect") (lit "SELECT") /\
  to_fold (lit "SELECT") (mk (lit "a sElect") 1) = Ok (true, mk (lit "a sElect") 2).
Proof.
  split; [split_here|]. split; [apply equal_fold_iff; vm_compute; reflexivity|vm_compute; reflexivity].
Qed.

(* ------------------------------------------------------------------- C09 *)

(** [l] are the runes behind the scanner. *)
Theorem C09_if_match s a b l check : at_split s a b -> chunked b l ->
  one_rune (fun v => check v = true) (if_match check) s l.
Proof. exact (if_match_spec s a b l check). Qed.
Theorem C09_if_between s a b l mn mx : at_split s a b -> chunked b l ->
  one_rune (fun v => mn <= v <= mx) (if_between mn mx) s l.
Proof. exact (if_between_spec s a b l mn mx). Qed.
(** IfRune and IfAnyRune are right unless they look for U+FFFD at the end of the text. *)
Theorem C09_if_rune_partial s a b l r : at_split s a b -> chunked b l -> l <> [] \/ r <> 0xFFFD ->
  one_rune (fun v => v = r) (if_rune r) s l.
Proof. exact (if_rune_spec s a b l r). Qed.
Theorem C09_if_any_rune_partial s a b l str ls : at_split s a b -> chunked b l -> chunked str ls ->
  l <> [] \/ ~ In 0xFFFD (map fst ls) ->
  one_rune (fun v => In v (map fst ls)) (if_any_rune str) s l.
Proof. exact (if_any_rune_spec s a b l str ls). Qed.
Theorem C09_if_rune_at_end s a : at_split s a [] -> yes_by (if_rune 0xFFFD) s 0.
Proof. intros H. unfold yes_by. rewrite (if_rune_end s a 0xFFFD H), Z.add_0_r. reflexivity. Qed.
Theorem C09_if_any_rune_at_end s a str ls : at_split s a [] -> chunked str ls -> In 0xFFFD (map fst ls) ->
  yes_by (if_any_rune str) s 0.
Proof. exact (if_any_rune_end s a str ls). Qed.
Print Assumptions C09_if_rune_at_end.
Print Assumptions C09_if_any_rune_at_end.
Theorem C09_if_rune_refuted :
  ~ (forall s a b l r, at_split s a b -> chunked b l -> one_rune (fun v => v = r) (if_rune r) s l).
Proof.
  intros H. specialize (H (mk [] 0) [] [] [] 0xFFFD ltac:(split_here) ck_nil). vm_compute in H. discriminate.
Qed.
Theorem C09_if_any_rune_refuted :
  ~ (forall s a b l str ls, at_split s a b -> chunked b l -> chunked str ls ->
       one_rune (fun v => In v (map fst ls)) (if_any_rune str) s l).
Proof.
  intros H. specialize (H (mk [] 0) [] [] [] [xff] [(0xFFFD, [xff])] ltac:(split_here) ck_nil ltac:(chunks_here)).
  vm_compute in H. discriminate.
Qed.
Print Assumptions C09_if_match.
Print Assumptions C09_if_between.
Print Assumptions C09_if_rune_partial.
Print Assumptions C09_if_any_rune_partial.
Print Assumptions C09_if_rune_refuted.
Print Assumptions C09_if_any_rune_refuted.
Example C09_case : at_split (mk (lit "aéb") 1) (lit "a") (lit "éb") /\
  chunked (lit "éb") [(0xE9, lit "é"); (0x62, lit "b")] /\
  if_rune 0xE9 (mk (lit "aéb") 1) = Ok (true, mk (lit "aéb") 3) /\
  if_between 0x61 0x7A (mk (lit "aéb") 1) = Ok (false, mk (lit "aéb") 1).
Proof. split; [split_here|]. split; [chunks_here|split; reflexivity]. Qed.

(* ------------------------------------------------------------------- C10 *)

Theorem C10_to_rune s a b l r : at_split s a b -> chunked b l ->
  to_first (fun v => v = r) (to_rune r) s l.
Proof. exact (to_rune_spec s a b l r). Qed.
Theorem C10_to_any_rune s a b l str ls : at_split s a b -> chunked b l -> chunked str ls ->
  to_first (fun v => In v (map fst ls)) (to_any_rune str) s l.
Proof. exact (to_any_rune_spec s a b l str ls). Qed.
Theorem C10_to_between s a b l mn mx : at_split s a b -> chunked b l ->
  to_first (fun v => mn <= v <= mx) (to_between mn mx) s l.
Proof. exact (to_between_spec s a b l mn mx). Qed.
Theorem C10_to_match s a b l check : at_split s a b -> chunked b l ->
  to_first (fun v => check v = true) (to_match check) s l.
Proof. exact (to_match_spec s a b l check). Qed.
Print Assumptions C10_to_rune.
Print Assumptions C10_to_any_rune.
Print Assumptions C10_to_between.
Print Assumptions C10_to_match.
Example C10_case : at_split (mk (x61 :: xff :: lit "éb") 0) [] (x61 :: xff :: lit "éb") /\
  chunked (x61 :: xff :: lit "éb") [(0x61, [x61]); (0xFFFD, [xff]); (0xE9, lit "é"); (0x62, [x62])] /\
  to_between 0xC0 0xFF (mk (x61 :: xff :: lit "éb") 0) = Ok (true, mk (x61 :: xff :: lit "éb") 2).
Proof. split; [split_here|]. split; [chunks_here|reflexivity]. Qed.

(* ------------------------------------------------------------------- C11 *)

(** C11 as stated is false for all four. *)
Theorem C11_while_rune_refuted :
  ~ (forall s a b l r, at_split s a b -> chunked b l -> skip_run (fun v => v = r) (while_rune r) s l).
Proof.
  intros H. specialize (H (mk [x61] 0) [] [x61] [(0x61, [x61])] 0x62 ltac:(split_here) ltac:(chunks_here)).
  destruct (H [] [(0x61, [x61])]) as [N _].
  { split; [reflexivity|]. split; [constructor|]. right. exists 0x61, [x61], []. split; auto. lia. }
  specialize (N eq_refl). vm_compute in N. discriminate.
Qed.
Theorem C11_while_between_refuted :
  ~ (forall s a b l mn mx, at_split s a b -> chunked b l ->
       skip_run (fun v => mn <= v <= mx) (while_between mn mx) s l).
Proof.
  intros H. specialize (H (mk [x61] 0) [] [x61] [(0x61, [x61])] 0x62 0x63 ltac:(split_here) ltac:(chunks_here)).
  destruct (H [] [(0x61, [x61])]) as [N _].
  { split; [reflexivity|]. split; [constructor|]. right. exists 0x61, [x61], []. split; auto. lia. }
  specialize (N eq_refl). vm_compute in N. discriminate.
Qed.
Theorem C11_while_any_rune_refuted :
  ~ (forall s a b l str ls, at_split s a b -> chunked b l -> chunked str ls ->
       skip_run (fun v => In v (map fst ls)) (while_any_rune str) s l).
Proof.
  intros H. specialize (H (mk [x61] 0) [] [x61] [(0x61, [x61])] [x61] [(0x61, [x61])]
    ltac:(split_here) ltac:(chunks_here) ltac:(chunks_here)).
  destruct (H [(0x61, [x61])] []) as [_ Y].
  { split; [reflexivity|]. split; [|left; reflexivity]. constructor; [left; reflexivity|constructor]. }
  specialize (Y ltac:(discriminate)). vm_compute in Y. discriminate.
Qed.
Theorem C11_while_match_refuted :
  ~ (forall s a b l check, at_split s a b -> chunked b l ->
       skip_run (fun v => check v = true) (while_match check) s l).
Proof.
  intros H. specialize (H (mk [x61] 0) [] [x61] [(0x61, [x61])] (fun _ => true) ltac:(split_here) ltac:(chunks_here)).
  destruct (H [(0x61, [x61])] []) as [_ Y].
  { split; [reflexivity|]. split; [|left; reflexivity]. constructor; [reflexivity|constructor]. }
  specialize (Y ltac:(discriminate)). vm_compute in Y. discriminate.
Qed.
(** What they do instead, exactly; [l1] is the maximal run, [l2] what follows it. *)
Theorem C11_while_rune_exact s a b l r l1 l2 : at_split s a b -> chunked b l ->
  max_run (fun v => v = r) l l1 l2 ->
  (l = [] -> no (while_rune r) s) /\ (l <> [] -> yes_by (while_rune r) s (slen (chunk_bytes l1))).
Proof. exact (while_rune_spec s a b l r l1 l2). Qed.
Theorem C11_while_between_exact s a b l mn mx l1 l2 : at_split s a b -> chunked b l ->
  max_run (fun v => mn <= v <= mx) l l1 l2 ->
  (l = [] -> no (while_between mn mx) s) /\
  (l <> [] -> yes_by (while_between mn mx) s (slen (chunk_bytes l1))).
Proof. exact (while_between_spec s a b l mn mx l1 l2). Qed.
Theorem C11_while_any_rune_exact s a b l str ls l1 l2 : at_split s a b -> chunked b l -> chunked str ls ->
  max_run (fun v => In v (map fst ls)) l l1 l2 ->
  (l1 = [] -> no (while_any_rune str) s) /\
  (l1 <> [] -> l2 <> [] -> yes_by (while_any_rune str) s (slen (chunk_bytes l1))) /\
  (l1 <> [] -> l2 = [] -> while_any_rune str s = Ok (true, s)).
Proof. exact (while_any_rune_spec s a b l str ls l1 l2). Qed.
Theorem C11_while_match_exact s a b l check l1 l2 : at_split s a b -> chunked b l ->
  max_run (fun v => check v = true) l l1 l2 ->
  (l1 = [] -> no (while_match check) s) /\
  (l1 <> [] -> l2 <> [] -> yes_by (while_match check) s (slen (chunk_bytes l1))) /\
  (l1 <> [] -> l2 = [] -> no (while_match check) s).
Proof. exact (while_match_spec s a b l check l1 l2). Qed.
Theorem C11_max_run_exists (P : Z -> Prop) (D : forall x, {P x} + {~ P x}) l : exists l1 l2, max_run P l l1 l2.
Proof. exact (max_run_exists P D l). Qed.
Print Assumptions C11_while_rune_refuted.
Print Assumptions C11_while_between_refuted.
Print Assumptions C11_while_any_rune_refuted.
Print Assumptions C11_while_match_refuted.
Print Assumptions C11_while_rune_exact.
Print Assumptions C11_while_between_exact.
Print Assumptions C11_while_any_rune_exact.
Print Assumptions C11_while_match_exact.
Print Assumptions C11_max_run_exists.
Example C11_case : at_split (mk (lit "aab") 0) [] (lit "aab") /\
  chunked (lit "aab") [(0x61, [x61]); (0x61, [x61]); (0x62, [x62])] /\
  max_run (fun v => v = 0x61) [(0x61, [x61]); (0x61, [x61]); (0x62, [x62])]
    [(0x61, [x61]); (0x61, [x61])] [(0x62, [x62])] /\
  while_rune 0x61 (mk (lit "aab") 0) = Ok (true, mk (lit "aab") 2).
Proof.
  split; [split_here|]. split; [chunks_here|]. split; [|reflexivity].
  split; [reflexivity|]. split; [repeat constructor|]. right. exists 0x62, [x62], []. split; auto. lia.
Qed.

(* ------------------------------------------------------------------- C12 *)

Theorem C12_rev_if_rune_exact s a b r : at_split s a b ->
  (a <> [] \/ r <> 0xFFFD -> one_rune_back (fun v => v = r) (rev_if_rune r) s a) /\
  (a = [] -> r = 0xFFFD -> yes_by (rev_if_rune r) s 0).
Proof. exact (rev_if_rune_spec s a b r). Qed.
Theorem C12_rev_if_any_rune_exact s a b str ls : at_split s a b -> chunked str ls ->
  (a <> [] \/ ~ In 0xFFFD (map fst ls) ->
   one_rune_back (fun v => In v (map fst ls)) (rev_if_any_rune str) s a) /\
  (a = [] -> In 0xFFFD (map fst ls) -> yes_by (rev_if_any_rune str) s 0).
Proof. exact (rev_if_any_rune_spec s a b str ls). Qed.
(** RevIfBetween and RevIfMatch consume a rune iff it does NOT satisfy the test. *)
Theorem C12_rev_if_between_exact s a b mn mx : at_split s a b ->
  (a <> [] \/ mn <= 0xFFFD <= mx ->
   one_rune_back (fun v => ~ (mn <= v <= mx)) (rev_if_between mn mx) s a) /\
  (a = [] -> ~ (mn <= 0xFFFD <= mx) -> yes_by (rev_if_between mn mx) s 0).
Proof. exact (rev_if_between_spec s a b mn mx). Qed.
Theorem C12_rev_if_match_exact s a b check : at_split s a b ->
  (a <> [] \/ check 0xFFFD = true ->
   one_rune_back (fun v => check v = false) (rev_if_match check) s a) /\
  (a = [] -> check 0xFFFD = false -> yes_by (rev_if_match check) s 0).
Proof. exact (rev_if_match_spec s a b check). Qed.
Theorem C12_rev_if_between_refuted :
  ~ (forall s a b mn mx, at_split s a b -> one_rune_back (fun v => mn <= v <= mx) (rev_if_between mn mx) s a).
Proof.
  intros H. destruct (H (mk [x61] 1) [x61] [] 0x61 0x7A ltac:(split_here)) as [_ Y].
  destruct (Y 0x61 [x61]) as [Y1 _].
  { apply (lc_rune [] 0x61). unfold is_scalar. lia. }
  specialize (Y1 ltac:(lia)). vm_compute in Y1. discriminate.
Qed.
Theorem C12_rev_if_match_refuted :
  ~ (forall s a b check, at_split s a b -> one_rune_back (fun v => check v = true) (rev_if_match check) s a).
Proof.
  intros H. destruct (H (mk [x61] 1) [x61] [] (fun _ => true) ltac:(split_here)) as [_ Y].
  destruct (Y 0x61 [x61]) as [Y1 _].
  { apply (lc_rune [] 0x61). unfold is_scalar. lia. }
  specialize (Y1 eq_refl). vm_compute in Y1. discriminate.
Qed.
Print Assumptions C12_rev_if_rune_exact.
Print Assumptions C12_rev_if_any_rune_exact.
Print Assumptions C12_rev_if_between_exact.
Print Assumptions C12_rev_if_match_exact.
Print Assumptions C12_rev_if_between_refuted.
Print Assumptions C12_rev_if_match_refuted.
Example C12_case : at_split (mk (lit "aé") 3) (lit "aé") [] /\ last_chunk (lit "aé") 0xE9 (lit "é") /\
  rev_if_rune 0xE9 (mk (lit "aé") 3) = Ok (true, mk (lit "aé") 1).
Proof.
  split; [split_here|]. split; [|reflexivity]. apply (lc_rune (lit "a") 0xE9). unfold is_scalar. lia.
Qed.

(* ------------------------------------------------------------------- C13 *)

Theorem C13_rev_to_rune s rs b r : at_split s (utf8s rs) b -> Forall visible rs ->
  to_last (fun v => v = r) (rev_to_rune r) s rs.
Proof. intros H F. exact (rev_to_rune_spec s [] rs b r H blocked_nil F). Qed.
Theorem C13_rev_to_any_rune s rs b str ls : at_split s (utf8s rs) b -> Forall visible rs -> chunked str ls ->
  to_last (fun v => In v (map fst ls)) (rev_to_any_rune str) s rs.
Proof. intros H F C. exact (rev_to_any_rune_spec s [] rs b str ls H blocked_nil F C). Qed.
Theorem C13_rev_to_between s rs b mn mx : at_split s (utf8s rs) b -> Forall visible rs ->
  to_last (fun v => mn <= v <= mx) (rev_to_between mn mx) s rs.
Proof. intros H F. exact (rev_to_between_spec s [] rs b mn mx H blocked_nil F). Qed.
Theorem C13_rev_to_match s rs b check : at_split s (utf8s rs) b -> Forall visible rs ->
  to_last (fun v => check v = true) (rev_to_match check) s rs.
Proof. intros H F. exact (rev_to_match_spec s [] rs b check H blocked_nil F). Qed.

Theorem C13_rev_while_rune s rs b r : at_split s (utf8s rs) b -> Forall visible rs ->
  rev_run (fun v => v = r) (rev_while_rune r) s rs.
Proof. intros H F. apply (rev_run_intro _ _ s rs b H F). intros x _. lia. Qed.
Theorem C13_rev_while_any_rune s rs b str ls : at_split s (utf8s rs) b -> Forall visible rs -> chunked str ls ->
  rev_run (fun v => In v (map fst ls)) (rev_while_any_rune str) s rs.
Proof.
  intros H F C. apply (rev_run_intro _ _ s rs b H F). intros x I. exact (visible_contains _ _ _ _ C F I).
Qed.
Theorem C13_rev_while_between s rs b mn mx : at_split s (utf8s rs) b -> Forall visible rs ->
  rev_run (fun v => mn <= v <= mx) (rev_while_between mn mx) s rs.
Proof. intros H F. apply (rev_run_intro _ _ s rs b H F). intros x _. unfold in_range. lia. Qed.
Theorem C13_rev_while_match s rs b check : at_split s (utf8s rs) b -> Forall visible rs ->
  rev_run (fun v => check v = true) (rev_while_match check) s rs.
Proof. intros H F. apply (rev_run_intro _ _ s rs b H F). intros x _. tauto. Qed.
Print Assumptions C13_rev_to_rune.
Print Assumptions C13_rev_to_any_rune.
Print Assumptions C13_rev_to_between.
Print Assumptions C13_rev_to_match.
Print Assumptions C13_rev_while_rune.
Print Assumptions C13_rev_while_any_rune.
Print Assumptions C13_rev_while_between.
Print Assumptions C13_rev_while_match.
Example C13_case : at_split (mk (lit "xéé") 5) (utf8s [0x78; 0xE9; 0xE9]) [] /\ Forall visible [0x78; 0xE9; 0xE9] /\
  rev_to_rune 0x78 (mk (lit "xéé") 5) = Ok (true, mk (lit "xéé") 1) /\
  rev_while_rune 0xE9 (mk (lit "xéé") 5) = Ok (true, mk (lit "xéé") 1).
Proof.
  split; [split_here|]. split; [repeat constructor; unfold is_scalar; lia|split; reflexivity].
Qed.

(* ------------------------------------------------------------------- C14 *)

(** The last sentence of C14 is false: an ill-formed byte is passed as three bytes. *)
Theorem C14_ill_formed_byte_refuted :
  ~ (forall s a x t, at_split s a (x :: t) -> ill_formed_at (x :: t) -> yes_by (move_runes 1) s 1).
Proof.
  intros H. assert (B : ill_formed_at [xff; x61; x62; x63]).
  { assert (C : chunked [xff; x61; x62; x63] [(0xFFFD, [xff]); (0x61, [x61]); (0x62, [x62]); (0x63, [x63])]) by chunks_here.
    inversion C; subst; [discriminate|assumption]. }
  specialize (H (mk [xff; x61; x62; x63] 0) [] xff [x61; x62; x63] ltac:(split_here) B).
  vm_compute in H. discriminate.
Qed.
Theorem C14_move_runes_forward s a r1 r2 : at_split s a (utf8s (r1 ++ r2)) -> Forall is_scalar (r1 ++ r2) ->
  r1 <> [] -> yes_by (move_runes (slen r1)) s (slen (utf8s r1)).
Proof. exact (move_runes_text s a r1 r2). Qed.
Theorem C14_move_runes_forward_no s a rs n : at_split s a (utf8s rs) -> Forall is_scalar rs ->
  slen rs < n -> no (move_runes n) s.
Proof. exact (move_runes_text_no s a rs n). Qed.
Theorem C14_move_runes_back s r1 r2 b : at_split s (utf8s (r1 ++ r2)) b -> Forall visible (r1 ++ r2) ->
  r2 <> [] -> yes_by (move_runes (- slen r2)) s (- slen (utf8s r2)).
Proof. intros H F. exact (move_runes_rev_yes s [] r1 r2 b H blocked_nil F). Qed.
Theorem C14_move_runes_back_no s rs b n : at_split s (utf8s rs) b -> Forall visible rs ->
  slen rs < n -> no (move_runes (- n)) s.
Proof. intros H F. exact (move_runes_rev_no s [] rs b n H blocked_nil F). Qed.
Theorem C14_move_runes_zero s : move_runes 0 s = Ok (true, s).
Proof. exact (move_runes_zero s). Qed.
Theorem C14_move_runes_inverse s r0 r1 r2 : at_split s (utf8s r0) (utf8s (r1 ++ r2)) ->
  Forall visible (r0 ++ r1 ++ r2) ->
  answers (move_runes (slen r1) ;; move_runes (- slen r1)) s true (pos (sc s)).
Proof. exact (move_runes_inverse s r0 r1 r2). Qed.
(** Any text: to the start of the n-th rune plus the length of the encoding of its value. *)
Theorem C14_move_runes_any s a b l1 v w l2 : at_split s a b -> chunked b (l1 ++ (v, w) :: l2) ->
  move_runes (slen l1 + 1) s = move (slen (chunk_bytes l1) + slen (utf8 v)) s.
Proof. exact (move_runes_fwd_spec s a b l1 v w l2). Qed.
Print Assumptions C14_ill_formed_byte_refuted.
Print Assumptions C14_move_runes_forward.
Print Assumptions C14_move_runes_forward_no.
Print Assumptions C14_move_runes_back.
Print Assumptions C14_move_runes_back_no.
Print Assumptions C14_move_runes_zero.
Print Assumptions C14_move_runes_inverse.
Print Assumptions C14_move_runes_any.
Example C14_case : at_split (mk (lit "aéb世") 1) (utf8s [0x61]) (utf8s [0xE9; 0x62; 0x4E16]) /\
  move_runes 2 (mk (lit "aéb世") 1) = Ok (true, mk (lit "aéb世") 4) /\
  move_runes (-2) (mk (lit "aéb世") 4) = Ok (true, mk (lit "aéb世") 1).
Proof. split; [split_here|split; reflexivity]. Qed.

(* ------------------------------------------------------------------- C15 *)

Theorem C15_scan_string_refuted :
  ~ (forall s a b l1 l2, at_split s a b -> chunked b (l1 ++ l2) ->
       scan_string (slen l1) s = Ok ((chunk_bytes l1, true), moveto (pos (sc s) + slen (chunk_bytes l1)) s)).
Proof.
  intros H. specialize (H (mk [x61] 0) [] [x61] [(0x61, [x61])] [] ltac:(split_here) ltac:(chunks_here)).
  vm_compute in H. discriminate.
Qed.
(** It works when at least one more rune follows; otherwise it fails, does not move
    and returns all that is left. *)
Theorem C15_scan_string_exact s a b l1 x l2 : at_split s a b -> chunked b (l1 ++ x :: l2) ->
  scan_string (slen l1) s = Ok ((chunk_bytes l1, true), moveto (pos (sc s) + slen (chunk_bytes l1)) s).
Proof. exact (scan_string_yes s a b l1 x l2). Qed.
Theorem C15_scan_string_no_exact s a b l n : at_split s a b -> chunked b l -> ~ (0 <= n < slen l) ->
  scan_string n s = Ok ((b, false), s).
Proof. exact (scan_string_no s a b l n). Qed.
Print Assumptions C15_scan_string_refuted.
Print Assumptions C15_scan_string_exact.
Print Assumptions C15_scan_string_no_exact.
Example C15_case : at_split (mk (lit "aéb") 0) [] (lit "aéb") /\
  chunked (lit "aéb") ([(0x61, [x61]); (0xE9, lit "é")] ++ (0x62, [x62]) :: []) /\
  scan_string 2 (mk (lit "aéb") 0) = Ok ((lit "aé", true), mk (lit "aéb") 3).
Proof. split; [split_here|]. split; [chunks_here|reflexivity]. Qed.

(* ------------------------------------------------------------------- C16 *)

(** A client that reads rune by rune sees the runes of the text, and the
    positions are the same in both directions. *)
Theorem C16_walk_forward s a r1 b : at_split s a (utf8s r1 ++ b) -> Forall visible r1 ->
  answers (walk read_rune (length r1)) s r1 (slen a + slen (utf8s r1)).
Proof. exact (walk_fwd b r1 s a). Qed.
Theorem C16_walk_backward s a r1 b : at_split s (a ++ utf8s r1) b -> Forall visible r1 ->
  answers (walk rev_read_rune (length r1)) s (rev r1) (slen a).
Proof. exact (walk_back r1 b s a). Qed.
Theorem C16_read_then_rev_read s a r b : at_split s a (utf8 r ++ b) -> visible r ->
  answers (let* x := read_rune in let* y := rev_read_rune in ret (x, y)) s ((r, None), (r, None)) (pos (sc s)).
Proof. exact (read_rev_read s a r b). Qed.
(** Reading U+FFFD, an ill-formed byte or past the end is an error without effect. *)
Theorem C16_read_rune_fails s a b l : at_split s a b -> chunked b l ->
  (l = [] \/ exists c l', l = (0xFFFD, c) :: l') ->
  read_rune s = Ok ((0xFFFD, Some (EReadError (pos (sc s)) (lit "rune"))), s).
Proof. exact (read_rune_no s a b l). Qed.
Theorem C16_rev_read_rune_fails s a b : at_split s a b -> (a = [] \/ exists c, last_chunk a 0xFFFD c) ->
  rev_read_rune s = Ok ((0xFFFD, Some (EReadError (pos (sc s)) (lit "rune"))), s).
Proof. exact (rev_read_rune_no s a b). Qed.
Print Assumptions C16_walk_forward.
Print Assumptions C16_walk_backward.
Print Assumptions C16_read_then_rev_read.
Print Assumptions C16_read_rune_fails.
Print Assumptions C16_rev_read_rune_fails.
Example C16_case : at_split (mk (lit "aé世") 1) (lit "a") (utf8s [0xE9; 0x4E16] ++ []) /\
  Forall visible [0xE9; 0x4E16] /\
  walk read_rune 2 (mk (lit "aé世") 1) = Ok ([0xE9; 0x4E16], mk (lit "aé世") 6) /\
  walk rev_read_rune 2 (mk (lit "aé世") 6) = Ok ([0x4E16; 0xE9], mk (lit "aé世") 1).
Proof.
  split; [split_here|]. split; [repeat constructor; unfold is_scalar; lia|split; reflexivity].
Qed.

(* ------------------------------------------------------------------- C17 *)

(** [l] is what stands between the last newline and the position. *)
Theorem C17_line_col s a b p l tab : at_split s a b -> a = p ++ l -> ~ In x0a l ->
  (p = [] \/ exists q, p = q ++ [x0a]) ->
  line_col tab s = Ok ((1 + occ x0a a, wrap64 (1 + (slen l - occ x09 l) + occ x09 l * tab)), s).
Proof. exact (line_col_occ s a b p l tab). Qed.
Theorem C17_column_that_fits s a b p l tab : at_split s a b -> a = p ++ l -> ~ In x0a l ->
  (p = [] \/ exists q, p = q ++ [x0a]) -> - 2 ^ 63 <= 1 + (slen l - occ x09 l) + occ x09 l * tab < 2 ^ 63 ->
  line_col tab s = Ok ((1 + occ x0a a, 1 + (slen l - occ x09 l) + occ x09 l * tab), s).
Proof. intros H E N P W. rewrite (C17_line_col s a b p l tab H E N P), wrap64_id by exact W. reflexivity. Qed.
Print Assumptions C17_line_col.
Print Assumptions C17_column_that_fits.
Example C17_case : let t := lit "ab" ++ [x0d; x0a; x09] ++ lit "cd" in
  at_split (mk t 7) ((lit "ab" ++ [x0d; x0a]) ++ x09 :: lit "cd") [] /\
  line_col 4 (mk t 7) = Ok ((2, 7), mk t 7).
Proof. split; [split_here|reflexivity]. Qed.
