(** PropRead.v - C18 to C23: read.go. *)
From Verif Require Import ScannerSafe ExKit.

(* ------------------------------------------------------------------- C18 *)

(** [neg], [sg], [t]: the optional sign and what follows it; [ds]: the longest run
    of digits at the start of [t] whose (signed) value fits. *)
Theorem C18_read_int s a b base bits neg sg t ds : is_base base -> is_size bits -> bits < 64 ->
  at_split s a b -> sign_split b neg sg t -> longest_digits base (fun v => int_fits bits (sgn neg v)) t ds ->
  (ds <> [] -> answers (read_int base bits) s (sgn neg (horner base 0 ds), None) (slen a + slen sg + slen ds)) /\
  (ds = [] -> answers (read_int base bits) s (0, Some (EReadError (slen a) (lit "integer"))) (slen a)).
Proof. exact (read_int_longest s a b base bits neg sg t ds). Qed.
Print Assumptions C18_read_int.
(** Such a split exists for every text, so that the theorem says something everywhere. *)
Theorem C18_split_exists base bits b : is_base base -> is_size bits ->
  exists neg sg t ds, sign_split b neg sg t /\ longest_digits base (fun v => int_fits bits (sgn neg v)) t ds.
Proof. exact (int_split_exists base bits b). Qed.
Print Assumptions C18_split_exists.
Example C18_case : at_split (mk (lit "x-1289") 1) (lit "x") (lit "-1289") /\
  sign_split (lit "-1289") true (lit "-") (lit "1289") /\
  longest_digits 10 (fun v => int_fits 8 (sgn true v)) (lit "1289") (lit "128") /\
  read_int 10 8 (mk (lit "x-1289") 1) = Ok ((-128, None), mk (lit "x-1289") 5).
Proof.
  split; [split_here|]. split; [constructor|]. split; [|reflexivity].
  exists (lit "9"). split; [reflexivity|].
  split; [repeat constructor; eexists; reflexivity|].
  split; [vm_compute; split; [discriminate|reflexivity]|].
  right. exists x39, []. split; [reflexivity|]. split; [eexists; reflexivity|].
  intros [K _]. vm_compute in K. apply K. reflexivity.
Qed.

(* ------------------------------------------------------------------- C19 *)

Theorem C19_read_uint s a b base bits ds : is_base base -> is_size bits -> bits < 64 ->
  at_split s a b -> longest_digits base (uint_fits bits) b ds ->
  (ds <> [] -> read_uint base bits s = Ok ((horner base 0 ds, None), moveto (pos (sc s) + slen ds) s)) /\
  (ds = [] -> read_uint base bits s = Ok ((0, Some (EReadError (pos (sc s)) (lit "unsigned integer"))), s)).
Proof. exact (read_uint_longest s a b base bits ds). Qed.
Print Assumptions C19_read_uint.
Theorem C19_split_exists base bits b : is_base base -> is_size bits ->
  exists ds, longest_digits base (uint_fits bits) b ds.
Proof. exact (uint_split_exists base bits b). Qed.
Print Assumptions C19_split_exists.
Example C19_case : at_split (mk (lit "xfFf") 1) (lit "x") (lit "fFf") /\
  longest_digits 16 (uint_fits 8) (lit "fFf") (lit "fF") /\
  read_uint 16 8 (mk (lit "xfFf") 1) = Ok ((255, None), mk (lit "xfFf") 3).
Proof.
  split; [split_here|]. split; [|reflexivity].
  exists (lit "f"). split; [reflexivity|].
  split; [repeat constructor; eexists; reflexivity|].
  split; [vm_compute; split; [discriminate|reflexivity]|].
  right. exists x66, []. split; [reflexivity|]. split; [eexists; reflexivity|].
  intros [_ K]. vm_compute in K. discriminate.
Qed.

(* ------------------------------------------------------------------- C20 *)

(** C20 as stated is false. *)
Theorem C20_read_uint_refuted :
  ~ (forall s a ds t base, is_base base -> at_split s a (ds ++ t) -> Forall (is_digit base) ds ->
       forall v s', read_uint base 64 s = Ok ((v, None), s') -> pos (sc s') = slen a + slen ds ->
       v = horner base 0 ds).
Proof.
  intros H. pose (x := lit "25000000000000000000").
  assert (K : 6553255926290448384 = horner 10 0 x); [|vm_compute in K; discriminate].
  apply (H (mk x 0) [] x [] 10 ltac:(unfold is_base; lia)) with (s' := mk x 20); [split_here| |reflexivity|reflexivity].
  repeat constructor; eexists; reflexivity.
Qed.
Theorem C20_read_int_refuted :
  ~ (forall s a ds t base, is_base base -> at_split s a (ds ++ t) -> Forall (is_digit base) ds ->
       forall v s', read_int base 64 s = Ok ((v, None), s') -> pos (sc s') = slen a + slen ds ->
       v = horner base 0 ds).
Proof.
  intros H. pose (x := lit "21000000000000000000").
  assert (K : 2553255926290448384 = horner 10 0 x); [|vm_compute in K; discriminate].
  apply (H (mk x 0) [] x [] 10 ltac:(unfold is_base; lia)) with (s' := mk x 20); [split_here| |reflexivity|reflexivity].
  repeat constructor; eexists; reflexivity.
Qed.
Print Assumptions C20_read_uint_refuted.
Print Assumptions C20_read_int_refuted.
(** It holds whenever the number that stands there fits, for every size. *)
Theorem C20_read_uint_partial s a base bits ds t : is_base base -> is_size bits ->
  at_split s a (ds ++ t) -> ds <> [] -> Forall (is_digit base) ds -> uint_fits bits (horner base 0 ds) ->
  no_digit_at base t ->
  read_uint base bits s = Ok ((horner base 0 ds, None), moveto (pos (sc s) + slen ds) s).
Proof. exact (read_uint_run s a base bits ds t). Qed.
Theorem C20_read_int_partial s a b base bits neg sg ds t : is_base base -> is_size bits ->
  at_split s a b -> sign_split b neg sg (ds ++ t) -> ds <> [] -> Forall (is_digit base) ds ->
  int_fits bits (sgn neg (horner base 0 ds)) -> no_digit_at base t ->
  answers (read_int base bits) s (sgn neg (horner base 0 ds), None) (slen a + slen sg + slen ds).
Proof. exact (read_int_run s a b base bits neg sg ds t). Qed.
(** In any case the value is the value of the digits passed, modulo 2^64. *)
Theorem C20_read_uint_mod s a b base bits v s' : at_split s a b ->
  read_uint base bits s = Ok ((v, None), s') ->
  exists ds t, b = ds ++ t /\ ds <> [] /\ Forall (is_digit base) ds /\
    pos (sc s') = slen a + slen ds /\ v = horner base 0 ds mod 2 ^ 64.
Proof. exact (read_uint_mod s a b base bits v s'). Qed.
Theorem C20_read_int_mod s a b base bits v s' : at_split s a b ->
  read_int base bits s = Ok ((v, None), s') ->
  exists neg sg ds t, sign_split b neg sg (ds ++ t) /\ ds <> [] /\ Forall (is_digit base) ds /\
    pos (sc s') = slen a + slen sg + slen ds /\
    - 2 ^ 63 <= v < 2 ^ 63 /\ v mod 2 ^ 64 = sgn neg (horner base 0 ds) mod 2 ^ 64.
Proof. exact (read_int_mod s a b base bits v s'). Qed.
Print Assumptions C20_read_int_mod.
Print Assumptions C20_read_uint_partial.
Print Assumptions C20_read_int_partial.
Print Assumptions C20_read_uint_mod.
Example C20_case : at_split (mk (lit "18446744073709551615;") 0) [] (lit "18446744073709551615" ++ lit ";") /\
  uint_fits 64 (horner 10 0 (lit "18446744073709551615")) /\
  read_uint 10 64 (mk (lit "18446744073709551615;") 0) = Ok ((18446744073709551615, None), mk (lit "18446744073709551615;") 20).
Proof. split; [split_here|]. split; [vm_compute; split; [discriminate|reflexivity]|reflexivity]. Qed.

(* ------------------------------------------------------------------- C21 *)

Theorem C21_print_read_uint s a base bits v t : is_base base -> is_size bits -> uint_fits bits v ->
  at_split s a (print_uint base v ++ t) -> no_digit_at base t ->
  read_uint base bits s = Ok ((v, None), moveto (pos (sc s) + slen (print_uint base v)) s).
Proof. exact (read_print_uint s a base bits v t). Qed.
Theorem C21_print_read_int s a base bits v t : is_base base -> is_size bits -> int_fits bits v ->
  at_split s a (print_int base v ++ t) -> no_digit_at base t ->
  answers (read_int base bits) s (v, None) (slen a + slen (print_int base v)).
Proof. exact (read_print_int s a base bits v t). Qed.
Print Assumptions C21_print_read_uint.
Print Assumptions C21_print_read_int.
Example C21_case : print_int 16 (-255) = lit "-ff" /\ int_fits 16 (-255) /\
  at_split (mk (lit "-ff;") 0) [] (print_int 16 (-255) ++ lit ";") /\ no_digit_at 16 (lit ";") /\
  read_int 16 16 (mk (lit "-ff;") 0) = Ok ((-255, None), mk (lit "-ff;") 3).
Proof.
  split; [reflexivity|]. split; [vm_compute; split; [discriminate|reflexivity]|].
  split; [split_here|]. split; [|reflexivity].
  intros d t' E [v K]. inversion E; subst. discriminate.
Qed.

(* ------------------------------------------------------------------- C22 *)

Theorem C22_read_uint base bits s : in_text s ->
  exists v e s', read_uint base bits s = Ok ((v, e), s') /\
    (e = None -> is_base base /\ is_size bits /\ uint_fits bits v) /\
    (e <> None -> s' = s).
Proof. exact (read_uint_range base bits s). Qed.
Theorem C22_read_int base bits s : in_text s ->
  exists v e s', read_int base bits s = Ok ((v, e), s') /\
    (e = None -> is_base base /\ is_size bits /\ int_fits bits v) /\
    (e <> None -> pos (sc s') = pos (sc s) /\ full (sc s') = full (sc s)).
Proof. exact (read_int_range base bits s). Qed.
Theorem C22_read_bool format s : in_text s ->
  exists v e s', read_bool format s = Ok ((v, e), s') /\ (e <> None -> s' = s) /\
    (e = None -> exists l, bool_spellings format = Some l).
Proof. exact (read_bool_total format s). Qed.
Theorem C22_read_rune s : in_text s ->
  exists v e s', read_rune s = Ok ((v, e), s') /\ (e <> None -> s' = s).
Proof. exact (read_rune_total s). Qed.
Theorem C22_rev_read_rune s : in_text s ->
  exists v e s', rev_read_rune s = Ok ((v, e), s') /\ (e <> None -> s' = s).
Proof. exact (rev_read_rune_total s). Qed.
Print Assumptions C22_read_uint.
Print Assumptions C22_read_int.
Print Assumptions C22_read_bool.
Print Assumptions C22_read_rune.
Print Assumptions C22_rev_read_rune.
Example C22_case : in_text (mk (lit "-x") 0) /\
  read_int 10 8 (mk (lit "-x") 0) = Ok ((0, Some (EReadError 0 (lit "integer"))), mk (lit "-x") 0) /\
  read_int 7 8 (mk (lit "1") 0) = Ok ((0, Some (EOther (lit "invalid base value 7"))), mk (lit "1") 0).
Proof. split; [in_here|split; reflexivity]. Qed.

(* ------------------------------------------------------------------- C23 *)

Theorem C23_read_bool s a b format l : at_split s a b -> bool_spellings format = Some l ->
  (forall x v t, In (x, v) l -> b = x ++ t ->
     read_bool format s = Ok ((v, None), moveto (pos (sc s) + slen x) s)) /\
  ((forall x v t, In (x, v) l -> b <> x ++ t) ->
     read_bool format s = Ok ((false, Some (EReadError (pos (sc s)) (lit "bool"))), s)).
Proof. exact (read_bool_spec s a b format l). Qed.
Theorem C23_read_bool_format format s : bool_spellings format = None ->
  read_bool format s = Ok ((false, Some (EOther (lit "invalid format"))), s).
Proof. exact (read_bool_bad format s). Qed.
Print Assumptions C23_read_bool.
Print Assumptions C23_read_bool_format.
Example C23_case : at_split (mk (lit "xTRUEx") 1) (lit "x") (lit "TRUE" ++ lit "x") /\
  read_bool (lit "U") (mk (lit "xTRUEx") 1) = Ok ((true, None), mk (lit "xTRUEx") 5) /\
  read_bool (lit "l") (mk (lit "xTRUEx") 1) =
    Ok ((false, Some (EReadError 1 (lit "bool"))), mk (lit "xTRUEx") 1).
Proof. split; [split_here|split; reflexivity]. Qed.
