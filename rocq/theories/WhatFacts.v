(** WhatFacts.v - descriptions are read back. *)
From Verif Require Import SpecWhat Spec Utf8Facts StrFacts ReaderFwd.
From Coq Require Import Lia DecimalString DecimalZ.

(* -------------------------------------------------------------- characters *)
Lemma hex_of_digit d : 0 <= d < 16 -> hex_of (hex_digit d) = Some d.
Proof.
  intros H. unfold hex_of, hex_digit. destruct (d <? 10) eqn:E; rewrite !bz_zb by lia.
  - replace ((48 <=? 48 + d) && (48 + d <=? 57)) with true by lia. f_equal. lia.
  - replace ((48 <=? 97 + (d - 10)) && (97 + (d - 10) <=? 57)) with false by lia.
    replace ((97 <=? 97 + (d - 10)) && (97 + (d - 10) <=? 102)) with true by lia. f_equal. lia.
Qed.
Lemma hexes_step k d s acc : 0 <= d < 16 -> hexes (S k) (hex_digit d :: s) acc = hexes k s (acc * 16 + d).
Proof. intros H. cbn [hexes]. rewrite hex_of_digit; auto. Qed.
Lemma mod16 r : 0 <= r mod 16 < 16. Proof. apply Z.mod_pos_bound. lia. Qed.
Lemma next16 r m : 0 < m -> (r / (m * 16)) * 16 + (r / m) mod 16 = r / m.
Proof. intros H. rewrite <- Z.div_div by lia. pose proof (Z.div_mod (r / m) 16 ltac:(lia)). lia. Qed.
Lemma hexes4 r t : 0 <= r < 0x10000 -> hexes 4 (map (fun k => hex_digit ((r / 16 ^ k) mod 16)) [3; 2; 1; 0] ++ t) 0 = Some (r, t).
Proof.
  intros H. cbn [map app]. rewrite !hexes_step by apply mod16. cbn [hexes]. do 2 f_equal.
  assert (A : (r / 16 ^ 3) mod 16 = r / 16 ^ 3) by (apply Z.mod_small; change (16 ^ 3) with 4096; split; [apply Z.div_pos; lia|apply Z.div_lt_upper_bound; lia]).
  rewrite A. change (16 ^ 3) with (16 ^ 2 * 16). rewrite Z.mul_0_l, Z.add_0_l, next16 by reflexivity. change (16 ^ 2) with (16 ^ 1 * 16). rewrite next16 by reflexivity.
  change (16 ^ 1) with (16 ^ 0 * 16). rewrite next16 by reflexivity. apply Z.div_1_r.
Qed.
Lemma hexes8 r t : 0 <= r < 0x100000000 -> hexes 8 (map (fun k => hex_digit ((r / 16 ^ k) mod 16)) [7; 6; 5; 4; 3; 2; 1; 0] ++ t) 0 = Some (r, t).
Proof.
  intros H. cbn [map app]. rewrite !hexes_step by apply mod16. cbn [hexes]. do 2 f_equal.
  assert (A : (r / 16 ^ 7) mod 16 = r / 16 ^ 7) by (apply Z.mod_small; change (16 ^ 7) with 0x10000000; split; [apply Z.div_pos; lia|apply Z.div_lt_upper_bound; lia]).
  rewrite A. change (16 ^ 7) with (16 ^ 6 * 16). rewrite Z.mul_0_l, Z.add_0_l, next16 by reflexivity.
  change (16 ^ 6) with (16 ^ 5 * 16). rewrite next16 by reflexivity. change (16 ^ 5) with (16 ^ 4 * 16). rewrite next16 by reflexivity.
  change (16 ^ 4) with (16 ^ 3 * 16). rewrite next16 by reflexivity. change (16 ^ 3) with (16 ^ 2 * 16). rewrite next16 by reflexivity.
  change (16 ^ 2) with (16 ^ 1 * 16). rewrite next16 by reflexivity. change (16 ^ 1) with (16 ^ 0 * 16). rewrite next16 by reflexivity. apply Z.div_1_r.
Qed.
Lemma hexes2 v t : 0 <= v < 256 -> hexes 2 (hex_digit (v / 16) :: hex_digit (v mod 16) :: t) 0 = Some (v, t).
Proof.
  intros H. rewrite !hexes_step; [|apply mod16|split; [apply Z.div_pos; lia|apply Z.div_lt_upper_bound; lia] ]. cbn [hexes]. do 2 f_equal.
  pose proof (Z.div_mod v 16 ltac:(lia)). lia.
Qed.
Lemma one_raw r t : is_scalar r -> r <> 0x5C -> one_char (utf8 r ++ t) = Some (utf8 r, t).
Proof.
  intros S N. assert (D : snd (decode_rune (utf8 r ++ t)) = length (utf8 r)) by (rewrite decode_utf8; auto).
  assert (X : exists x u, utf8 r ++ t = x :: u /\ x <> x5c).
  { unfold utf8. unfold is_scalar in S. destruct (r <? 0x80) eqn:E1; [|destruct (r <? 0x800) eqn:E2; [|destruct (r <? 0x10000) eqn:E3] ].
    all: eexists _, _; split; [reflexivity|]; intros E; apply (f_equal bz) in E; rewrite bz_zb in E; change (bz x5c) with 92 in E.
    all: try lia; Z.to_euclidean_division_equations; lia. }
  destruct X as (x & u & E & Nx). assert (O : one_char (utf8 r ++ t) = Some (firstn (snd (decode_rune (utf8 r ++ t))) (utf8 r ++ t), skipn (snd (decode_rune (utf8 r ++ t))) (utf8 r ++ t))).
  { rewrite E. clear -Nx. destruct x; try (destruct (Nx eq_refl)); reflexivity. }
  rewrite O, D. rewrite firstn_app, firstn_all, Nat.sub_diag, skipn_app, skipn_all, Nat.sub_diag. cbn. rewrite app_nil_r. reflexivity.
Qed.
Lemma utf8_ascii r : 0 <= r < 128 -> utf8 r = [zb r].
Proof. intros H. unfold utf8. replace (r <? 0x80) with true by lia. reflexivity. Qed.

Section Lib.
Context {L : GoLib}.
Lemma one_escape r q t : is_scalar r -> q = 0x22 \/ q = 0x27 -> one_char (escape_rune r q ++ t) = Some (utf8 r, t).
Proof.
  intros S Q. unfold escape_rune. destruct (Z.eqb_spec r q) as [->|Nq].
  { destruct Q as [-> | ->]; reflexivity. }
  destruct (Z.eqb_spec r 0x5C) as [->|Nb]; [reflexivity|]. cbn [orb]. rewrite encode_rune_utf8 by auto.
  destruct (is_graphic r) eqn:G; [apply one_raw; auto|].
  destruct (Z.eqb_spec r 7) as [->|]; [reflexivity|]. destruct (Z.eqb_spec r 8) as [->|]; [reflexivity|]. destruct (Z.eqb_spec r 12) as [->|]; [reflexivity|].
  destruct (Z.eqb_spec r 10) as [->|]; [reflexivity|]. destruct (Z.eqb_spec r 13) as [->|]; [reflexivity|]. destruct (Z.eqb_spec r 9) as [->|]; [reflexivity|].
  destruct (Z.eqb_spec r 11) as [->|]; [reflexivity|].
  destruct (r <? 0x20) eqn:E.
  { assert (0 <= r < 0x20) by (unfold is_scalar in S; lia). change (one_char ((lit "\x" ++ [hex_digit (r / 16); hex_digit (r mod 16)]) ++ t)) with
      (match hexes 2 (hex_digit (r / 16) :: hex_digit (r mod 16) :: t) 0 with Some (v, u) => Some ([zb v], u) | None => None end).
    rewrite hexes2, utf8_ascii by lia. reflexivity. }
  assert (V : valid_rune r = true) by (unfold valid_rune, MaxRune; unfold is_scalar in S; lia). rewrite V.
  destruct (r <? 0x10000) eqn:E2.
  - rewrite <- app_assoc. change (one_char (lit "\u" ++ ?x)) with (match hexes 4 x 0 with Some (v, u) => Some (encode_rune v, u) | None => None end).
    rewrite hexes4 by (unfold is_scalar in S; lia). rewrite encode_rune_utf8 by auto. reflexivity.
  - rewrite <- app_assoc. change (one_char (lit "\U" ++ ?x)) with (match hexes 8 x 0 with Some (v, u) => Some (encode_rune v, u) | None => None end).
    rewrite hexes8 by (unfold is_scalar in S; lia). rewrite encode_rune_utf8 by auto. reflexivity.
Qed.
(** An escaped character does not begin with the quote. *)
Lemma utf8_first r : is_scalar r -> exists x u, utf8 r = x :: u /\ ((r < 128 /\ bz x = r) \/ (128 <= r /\ 128 <= bz x)).
Proof.
  intros S. unfold utf8. unfold is_scalar in S. destruct (r <? 0x80) eqn:E1; [|destruct (r <? 0x800) eqn:E2; [|destruct (r <? 0x10000) eqn:E3] ].
  all: eexists _, _; split; [reflexivity|]; rewrite bz_zb by (try lia; Z.to_euclidean_division_equations; lia).
  all: first [left; lia|right; split; [lia|Z.to_euclidean_division_equations; lia] ].
Qed.
Lemma escape_first r q : is_scalar r -> q = 0x22 \/ q = 0x27 -> exists x u, escape_rune r q = x :: u /\ x <> zb q.
Proof.
  intros S Q. unfold escape_rune. destruct (Z.eqb_spec r q) as [->|Nq].
  { cbn [orb]. do 2 eexists. split; [reflexivity|]. destruct Q as [-> | ->]; discriminate. }
  destruct (Z.eqb_spec r 0x5C) as [->|Nb]. { cbn [orb]. do 2 eexists. split; [reflexivity|]. destruct Q as [-> | ->]; discriminate. }
  cbn [orb]. rewrite encode_rune_utf8 by auto. destruct (is_graphic r) eqn:G.
  { destruct (utf8_first r S) as (x & u & -> & H). do 2 eexists. split; [reflexivity|]. intros ->. destruct Q as [-> | ->]; [change (bz (zb 34)) with 34 in H|change (bz (zb 39)) with 39 in H]; lia. }
  repeat match goal with |- context [if ?c then _ else _] => destruct c end; do 2 eexists; (split; [reflexivity|]); destruct Q as [-> | ->]; discriminate.
Qed.
Lemma quote_body_skip s : forall k, quote_body s k = quote_body (skipn k s) 0.
Proof.
  induction s as [|b s IH]; intros [|k]; try reflexivity. cbn [quote_body skipn]. apply IH.
Qed.
Lemma unquoted_body s l : chunked s l -> forall k t, (length (quote_body s 0) < k)%nat -> unquoted k x22 (quote_body s 0 ++ x22 :: t) = Some (s, t).
Proof.
  induction 1 as [|r s l S C IH|b s l I C IH]; intros k t K.
  - destruct k as [|k]; [inversion K|]. reflexivity.
  - assert (E : quote_body (utf8 r ++ s) 0 = escape_rune r 0x22 ++ quote_body s 0).
    { pose proof (decode_utf8 r s S) as D. destruct (utf8 r ++ s) as [|b0 t0] eqn:E0; [destruct (utf8_first r S) as (x & u & Eu & _); rewrite Eu in E0; discriminate|].
      cbn [quote_body]. rewrite D. assert (F : (r =? RuneError) && Nat.eqb (length (utf8 r)) 1 = false).
      { destruct (Z.eqb_spec r RuneError) as [->|]; [reflexivity|reflexivity]. }
      rewrite F. f_equal. rewrite quote_body_skip. f_equal. destruct (utf8 r) as [|x u] eqn:Eu; [destruct (utf8_first r S) as (x & u & Eu' & _); congruence|].
      cbn [app] in E0. injection E0 as <- <-. cbn [length Nat.pred]. rewrite skipn_app, skipn_all, Nat.sub_diag. reflexivity. }
    rewrite E in K |- *. rewrite app_length in K. destruct (escape_first r 0x22 S (or_introl eq_refl)) as (x & u & Ex & Nx). change (zb 0x22) with x22 in Nx.
    assert (Ec : Byte.eqb x x22 = false) by (apply byte_eqb_neq; auto).
    destruct k as [|k]; [inversion K|]. rewrite <- app_assoc. pose proof (one_escape r 0x22 (quote_body s 0 ++ x22 :: t) S (or_introl eq_refl)) as O. rewrite Ex in O, K |- *.
    cbn [app unquoted]. rewrite Ec. cbn [app] in O. rewrite O. cbn [length] in K. rewrite IH by lia. reflexivity.
  - assert (E : quote_body (b :: s) 0 = lit "\x" ++ [hex_digit (bz b / 16); hex_digit (bz b mod 16)] ++ quote_body s 0).
    { cbn [quote_body]. rewrite decode_bad by auto. change (RuneError =? RuneError) with true. cbn [Nat.eqb andb]. rewrite <- app_assoc. reflexivity. }
    rewrite E in K |- *. destruct k as [|k]; [inversion K|]. rewrite <- !app_assoc.
    change (unquoted (Datatypes.S k) x22 (lit "\x" ++ ?y)) with (match (match hexes 2 y 0 with Some (v, u) => Some ([zb v], u) | None => None end) with
      | Some (c, u) => match unquoted k x22 u with Some (v, r) => Some (c ++ v, r) | None => None end | None => None end).
    cbn [app]. rewrite hexes2 by (pose proof (bz_range b); lia). rewrite IH by (rewrite !app_length in K; cbn in K; lia). rewrite zb_bz. reflexivity.
Qed.
Lemma string_back s t : string_of (quote_str s ++ t) = Some (s, t).
Proof.
  destruct (chunked_exists s) as [l C]. unfold quote_str. cbn [app]. unfold string_of. rewrite <- app_assoc. cbn [app]. apply (unquoted_body s l C).
  cbn [length]. rewrite app_length. cbn. lia.
Qed.
Lemma rune_back r t : is_scalar r -> rune_of (quote_rune_graphic r ++ t) = Some (r, t).
Proof.
  intros S. unfold quote_rune_graphic. assert (V : valid_rune r = true) by (unfold valid_rune, MaxRune; unfold is_scalar in S; lia). rewrite V.
  destruct (escape_first r 0x27 S (or_intror eq_refl)) as (x & u & Ex & Nx). change (zb 0x27) with x27 in Nx. cbn [app]. unfold rune_of. rewrite <- app_assoc.
  pose proof (one_escape r 0x27 (x27 :: t) S (or_intror eq_refl)) as O. rewrite Ex in O |- *. cbn [app length] in O |- *.
  rewrite !app_length. cbn [length]. replace (length u + (1 + length t))%nat with (Datatypes.S (length u + length t)) by lia.
  cbn [unquoted]. replace (Byte.eqb x x27) with false by (symmetry; apply byte_eqb_neq; auto). cbn [app]. rewrite O. cbn [unquoted]. change (Byte.eqb x27 x27) with true. cbn iota.
  rewrite app_nil_r. rewrite <- (app_nil_r (utf8 r)), decode_utf8 by auto. reflexivity.
Qed.

(** A rune inside a range *)
Lemma hex_no_quote d : 0 <= d < 16 -> hex_digit d <> x27.
Proof. intros H E. pose proof (hex_of_digit d H) as X. rewrite E in X. discriminate. Qed.
Lemma utf8_last r : is_scalar r -> exists u x, utf8 r = u ++ [x] /\ ((r < 128 /\ bz x = r) \/ 128 <= bz x).
Proof.
  intros S. unfold utf8. unfold is_scalar in S. destruct (r <? 0x80) eqn:E1; [|destruct (r <? 0x800) eqn:E2; [|destruct (r <? 0x10000) eqn:E3] ].
  - exists [], (zb r). split; auto. left. rewrite bz_zb; lia.
  - eexists [_], _. split; [reflexivity|]. right. rewrite bz_zb; Z.to_euclidean_division_equations; lia.
  - eexists [_; _], _. split; [reflexivity|]. right. rewrite bz_zb; Z.to_euclidean_division_equations; lia.
  - eexists [_; _; _], _. split; [reflexivity|]. right. rewrite bz_zb; Z.to_euclidean_division_equations; lia.
Qed.
Lemma escape_last r : is_scalar r -> r <> 0x27 -> exists u x, escape_rune r 0x27 = u ++ [x] /\ x <> x27.
Proof.
  intros S Q. unfold escape_rune. destruct (Z.eqb_spec r 0x27) as [|_]; [congruence|].
  destruct (Z.eqb_spec r 0x5C) as [->|Nb]. { exists [x5c], x5c. split; [reflexivity|discriminate]. }
  cbn [orb]. rewrite encode_rune_utf8 by auto. destruct (is_graphic r) eqn:G.
  { destruct (utf8_last r S) as (u & x & -> & H). exists u, x. split; auto. intros ->. change (bz x27) with 39 in H. lia. }
  repeat match goal with |- context [if ?c =? ?d then _ else _] => destruct (c =? d); [match goal with |- exists u x, lit ?y = _ /\ _ => exists (firstn 1 (lit y)), (last (lit y) x00); split; [reflexivity|discriminate] end|] end.
  destruct (r <? 0x20). { exists (lit "\x" ++ [hex_digit (r / 16)]), (hex_digit (r mod 16)). split; [reflexivity|apply hex_no_quote, mod16]. }
  destruct (valid_rune r); cbn [negb]; [|eexists (lit "\ufff"), x64; split; [reflexivity|discriminate] ].
  destruct (r <? 0x10000).
  - eexists (lit "\u" ++ map (fun k => hex_digit ((r / 16 ^ k) mod 16)) [3; 2; 1]), _. split; [rewrite <- app_assoc; reflexivity|apply hex_no_quote, mod16].
  - eexists (lit "\U" ++ map (fun k => hex_digit ((r / 16 ^ k) mod 16)) [7; 6; 5; 4; 3; 2; 1]), _. split; [rewrite <- app_assoc; reflexivity|apply hex_no_quote, mod16].
Qed.
Lemma trim_front x u : x <> x27 -> trim_left_quote (x :: u) = x :: u.
Proof. intros H. cbn. rewrite (proj2 (byte_eqb_neq _ _) H). reflexivity. Qed.
Lemma quote_rune_plain r : is_scalar r -> r <> 0x27 -> quote_rune r = escape_rune r 0x27.
Proof.
  intros S Q. unfold quote_rune, quote_rune_graphic. assert (V : valid_rune r = true) by (unfold valid_rune, MaxRune; unfold is_scalar in S; lia). rewrite V.
  destruct (escape_first r 0x27 S (or_intror eq_refl)) as (x & u & Ex & Nx). destruct (escape_last r S Q) as (v & y & Ey & Ny).
  unfold trim_quote. change (trim_left_quote (x27 :: escape_rune r 39 ++ [x27])) with (trim_left_quote (escape_rune r 39 ++ [x27])).
  rewrite Ex. cbn [app]. rewrite trim_front by auto. change (x :: u ++ [x27]) with ((x :: u) ++ [x27]). rewrite <- Ex, Ey.
  rewrite !rev_app_distr. cbn [rev app]. change (trim_left_quote (x27 :: y :: rev v)) with (trim_left_quote (y :: rev v)). rewrite trim_front by auto. cbn [rev].
  rewrite rev_involutive. reflexivity.
Qed.
Lemma char_back r t : is_scalar r -> r <> 0x27 -> char_of (quote_rune r ++ t) = Some (r, t).
Proof.
  intros S Q. rewrite quote_rune_plain by auto. unfold char_of. rewrite one_escape by auto. rewrite <- (app_nil_r (utf8 r)), decode_utf8 by auto. reflexivity.
Qed.
Lemma skip_lit x t : skip x (x ++ t) = Some t.
Proof. induction x; cbn; [destruct t; auto|]. rewrite byte_eqb_refl. auto. Qed.
Lemma after_lit {A} x (a : A) t : after x (Some (a, lit x ++ t)) = Some (a, t).
Proof. unfold after. rewrite skip_lit. reflexivity. Qed.
Lemma range_back a b t : is_scalar a -> is_scalar b -> a = b \/ a <> 0x27 /\ b <> 0x27 -> range_of (quote_between a b ++ t) = Some ((a, b), t).
Proof.
  intros A B H. unfold quote_between. destruct (Z.eqb_spec a b) as [->|N].
  - pose proof (rune_back b t B) as R. change (range_of (quote_rune_graphic b ++ t)) with (gives (rune_of (quote_rune_graphic b ++ t)) (fun a => (a, a))). rewrite R. reflexivity.
  - destruct H as [|[Na Nb] ]; [congruence|]. rewrite <- !app_assoc.
    change (range_of (lit "<" ++ ?y)) with (after ">" (then_ (char_of y) (fun a u => gives (char_of u) (fun b => (a, b))))).
    rewrite char_back by auto. cbn [then_]. rewrite char_back by auto. unfold gives. cbn [then_]. apply after_lit.
Qed.

(* ------------------------------------------------------------------ numbers *)
Lemma uint_nums d : Forall (fun x => num_byte x = true) (String.list_byte_of_string (NilEmpty.string_of_uint d)).
Proof. induction d; cbn; constructor; auto. Qed.
Lemma nil_zero_nums d : exists x u, String.list_byte_of_string (NilZero.string_of_uint d) = x :: u /\ num_byte x = true /\ x <> x2d /\ Forall (fun x => num_byte x = true) u.
Proof.
  destruct d; cbn; eexists _, _; (split; [reflexivity|]); (split; [reflexivity|]); (split; [discriminate|]); try apply uint_nums; constructor.
Qed.
Lemma itoa_shape n : exists x y u, (itoa n = x :: u \/ itoa n = x2d :: x :: u) /\ num_byte x = true /\ x <> x2d /\ Forall (fun x => num_byte x = true) u /\ y = x.
Proof.
  unfold itoa. destruct (Z.to_int n) as [d|d]; cbn [NilZero.string_of_int]; destruct (nil_zero_nums d) as (x & u & E & A & B & C); exists x, x, u.
  - auto.
  - split; auto. right. cbn. f_equal. exact E.
Qed.
Lemma itoa_nums n : Forall (fun x => num_byte x = true) (itoa n).
Proof. destruct (itoa_shape n) as (x & _ & u & [-> | ->] & A & _ & C & _); repeat constructor; auto. Qed.
Lemma span_nums p a x t : Forall (fun x => p x = true) a -> p x = false -> run_of p (a ++ x :: t) = (a, x :: t).
Proof. induction 1 as [|y a Y _ IH]; intros N; cbn; [rewrite N; auto|]. rewrite Y, IH; auto. Qed.
Lemma isi_any d : exists d', NilZero.int_of_string (NilZero.string_of_int d) = Some d' /\ Z.of_int d' = Z.of_int d.
Proof.
  destruct d as [[]|[] ]; try (eexists; split; [apply NilZero.isi; discriminate|reflexivity]); eexists; split; reflexivity.
Qed.
Lemma number_back n x t : num_byte x = false -> number_of (itoa n ++ x :: t) = Some (n, x :: t).
Proof.
  intros N. unfold number_of. rewrite (span_nums num_byte (itoa n) x t (itoa_nums n) N). unfold itoa. rewrite String.string_of_list_byte_of_string.
  destruct (isi_any (Z.to_int n)) as (d & -> & E). rewrite E, DecimalZ.of_to. reflexivity.
Qed.

(* ------------------------------------------------------------------ readers *)
Context (e : env).
Lemma what_any rs : what e (RAny rs) = lit "[ " ++ join (map (what e) rs) (lit " ") ++ lit " ]". Proof. reflexivity. Qed.
Lemma what_seq rs : what e (RSeq rs) = join (map (what e) rs) (lit " "). Proof. reflexivity. Qed.
Lemma what_skip a rs : what e (RSkipSeq a rs) = join ((lit "(>" ++ what e a ++ lit ">") :: map (what e) rs ++ [lit ")"]) (lit " "). Proof. reflexivity. Qed.
Definition spaced (rs : list reader) : bytes := flat_map (fun r => what e r ++ [x20]) rs.
Lemma join_cons x y l : join (x :: y :: l) (lit " ") = x ++ x20 :: join (y :: l) (lit " "). Proof. reflexivity. Qed.
Lemma join_spaced rs : rs <> [] -> join (map (what e) rs) (lit " ") ++ [x20] = spaced rs.
Proof.
  induction rs as [|a rs IH]; [congruence|]. intros _. destruct rs as [|b rs]; [cbn; rewrite app_nil_r; auto|].
  cbn [map]. rewrite join_cons. change (spaced (a :: b :: rs)) with ((what e a ++ [x20]) ++ spaced (b :: rs)). rewrite <- IH by discriminate. cbn [map]. rewrite <- !app_assoc. reflexivity.
Qed.
Lemma join_snoc rs x : join (map (what e) rs ++ [x]) (lit " ") = spaced rs ++ x.
Proof.
  induction rs as [|a rs IH]; [reflexivity|]. cbn [map app]. change (spaced (a :: rs)) with ((what e a ++ [x20]) ++ spaced rs). rewrite <- !app_assoc. rewrite <- IH.
  destruct (map (what e) rs ++ [x]) as [|y l] eqn:E; [destruct (map (what e) rs); discriminate|]. apply join_cons.
Qed.
Lemma skip_text a rs : what e (RSkipSeq a rs) = lit "(>" ++ what e a ++ lit "> " ++ spaced rs ++ lit ")".
Proof.
  rewrite what_skip. rewrite <- join_snoc. destruct (map (what e) rs ++ [lit ")"]) as [|y l] eqn:E; [destruct (map (what e) rs); discriminate|]. rewrite join_cons, <- !app_assoc. reflexivity.
Qed.
Lemma any_text a rs : what e (RAny (a :: rs)) = lit "[ " ++ spaced (a :: rs) ++ lit "]".
Proof. rewrite what_any, <- join_spaced by discriminate. rewrite <- !app_assoc. reflexivity. Qed.

(** How a description begins *)
Definition begin_ok (x : byte) : Prop := x <> x45 /\ x <> x5d /\ x <> x29 /\ x <> x20.
Lemma num_begin x : num_byte x = true -> begin_ok x /\ x <> x2b.
Proof. unfold begin_ok. intros H. repeat split; intros ->; discriminate. Qed.
Lemma what_begins : forall r, rallP plain_node r -> exists x u, what e r = x :: u /\ begin_ok x /\ (x = x2b -> exists a, shape r = RMany a).
Proof.
  refine (reader_ind' _ _ _ _ _ _ _ _ _ _ _ _ _ _ _ _ _ _ _ _ _ _ _ _ _ _ _ _ _ _ _ _ _ _ _ _ _); intros;
    match goal with H : rallP _ _ |- _ => cbn [rallP plain_node] in H end; try (exfalso; tauto).
  all: try (cbn [what]; do 2 eexists; split; [reflexivity|split; [repeat split; discriminate|intros E; first [discriminate E|eexists; reflexivity] ] ]).
  all: repeat match goal with H : _ /\ _ |- _ => destruct H end.
  all: try (match goal with IH : rallP _ ?a -> _, H : rallP _ ?a |- _ => exact (IH H) end).
  - rewrite skip_text. do 2 eexists. split; [reflexivity|split; [repeat split; discriminate|discriminate] ].
  - cbn [what]. unfold quote_between. match goal with |- context [if ?c then _ else _] => destruct c end; do 2 eexists; (split; [reflexivity|split; [repeat split; discriminate|discriminate] ]).
  - cbn [what]. match goal with |- context [itoa ?k] => destruct (itoa_shape k) as (x & _ & u & E & A & B & C & _) end. destruct (num_begin x A) as [Bx Nx].
    destruct E as [-> | ->]; do 2 eexists; (split; [reflexivity|]); (split; [auto|]); [intros; congruence|repeat split; discriminate|discriminate].
Qed.

(** Where the parts of a description begin *)
Lemma of_at k x t : x <> x45 -> reader_of (S k) (x40 :: x :: t) = gives (reader_of k (x :: t)) RAt.
Proof. intros H. destruct x; try reflexivity. congruence. Qed.
Lemma of_any k x t : x <> x20 -> reader_of (S k) (x5b :: x20 :: x :: t) = gives (readers_of k x5d (x :: t)) RAny.
Proof. intros H. destruct x; try reflexivity. congruence. Qed.
Lemma of_times k n t : reader_of (S k) (itoa n ++ x2a :: t) = gives (reader_of k t) (RTimes n).
Proof.
  assert (D : reader_of (S k) (itoa n ++ x2a :: t) = then_ (after "*" (number_of (itoa n ++ x2a :: t))) (fun n u => gives (reader_of k u) (RTimes n))).
  { destruct (itoa_shape n) as (x & _ & u & E & A & B & C & _).
    destruct E as [-> | ->]; cbn [app]; destruct x; try (discriminate A); try reflexivity; congruence. }
  rewrite D, number_back by reflexivity. change (x2a :: t) with (lit "*" ++ t). rewrite after_lit. reflexivity.
Qed.
Lemma of_holey k a b h t : is_scalar a -> is_scalar b -> a = b \/ a <> 0x27 /\ b <> 0x27 ->
  reader_of (S k) (lit "(" ++ quote_between a b ++ lit " - " ++ quote_str h ++ lit ")" ++ t) = Some (RHoley a b h, t).
Proof.
  intros A B H.
  assert (D : forall y, reader_of (S k) (lit "(" ++ quote_between a b ++ y) = then_ (after " - " (range_of (quote_between a b ++ y))) (fun p u => gives (after ")" (string_of u)) (RHoley (fst p) (snd p)))).
  { intros y. unfold quote_between. destruct (a =? b); reflexivity. }
  rewrite D, range_back, after_lit by auto. cbn [then_ fst snd]. rewrite string_back, after_lit. reflexivity.
Qed.
Lemma of_between k a b t : is_scalar a -> is_scalar b -> a = b \/ a <> 0x27 /\ b <> 0x27 ->
  reader_of (S k) (quote_between a b ++ t) = Some (if a =? b then RRune a else RBetween a b, t).
Proof.
  intros A B H. pose proof (range_back a b t A B H) as R. unfold quote_between in *. destruct (Z.eqb_spec a b) as [->|N].
  - change (reader_of (S k) (quote_rune_graphic b ++ t)) with (gives (rune_of (quote_rune_graphic b ++ t)) RRune). rewrite rune_back by auto. reflexivity.
  - rewrite <- app_assoc in *. change (reader_of (S k) (lit "<" ++ ?y)) with (gives (range_of (lit "<" ++ y)) (fun p => RBetween (fst p) (snd p))). rewrite R. reflexivity.
Qed.
Definition reads_back (r : reader) : Prop := forall k t, (length (what e r) < k)%nat -> reader_of k (what e r ++ t) = Some (shape r, t).
Lemma list_back x rs : Forall reads_back rs -> Forall (fun r => exists y u, what e r = y :: u /\ y <> x) rs ->
  forall k t, (length (spaced rs) < k)%nat -> readers_of k x (spaced rs ++ x :: t) = Some (map shape rs, t).
Proof.
  induction 1 as [|r rs Hr _ IH]; intros F k t K.
  - destruct k; [inversion K|]. cbn. rewrite byte_eqb_refl. reflexivity.
  - inversion_clear F as [|? ? (y & u & Ey & Ny) F']. destruct k as [|k]; [inversion K|].
    change (spaced (r :: rs)) with ((what e r ++ [x20]) ++ spaced rs) in K |- *. rewrite !app_length in K. cbn [length] in K. rewrite <- !app_assoc.
    assert (D : forall w, readers_of (S k) x (what e r ++ w) = then_ (after " " (reader_of k (what e r ++ w))) (fun r u => gives (readers_of k x u) (cons r))).
    { intros w. rewrite Ey. cbn [app readers_of]. rewrite (proj2 (byte_eqb_neq _ _) Ny). reflexivity. }
    rewrite D, Hr by lia. change ([x20] ++ ?w) with (lit " " ++ w). rewrite after_lit. cbn [then_]. rewrite IH by (auto; lia). reflexivity.
Qed.
Lemma all_list rs : fold_right (fun x q => rallP plain_node x /\ q) True rs -> Forall (rallP plain_node) rs.
Proof. induction rs; cbn; [constructor|]. intros [A B]. constructor; auto. Qed.
Lemma all_back rs : fold_right (fun x q => rallP plain_node x /\ q) True rs -> Forall (fun r => rallP plain_node r -> reads_back r) rs ->
  Forall reads_back rs /\ Forall (fun r => exists y u, what e r = y :: u /\ y <> x5d) rs /\ Forall (fun r => exists y u, what e r = y :: u /\ y <> x29) rs.
Proof.
  intros A%all_list B. rewrite Forall_forall in A, B. repeat split; apply Forall_forall; intros r I; [auto| |].
  all: destruct (what_begins r (A r I)) as (x & u & E & (N1 & N2 & N3 & N4) & _); eauto.
Qed.
Theorem what_back : forall r, rallP plain_node r -> reads_back r.
Proof.
  refine (reader_ind' _ _ _ _ _ _ _ _ _ _ _ _ _ _ _ _ _ _ _ _ _ _ _ _ _ _ _ _ _ _ _ _ _ _ _ _ _); intros;
    match goal with H : rallP _ _ |- _ => cbn [rallP plain_node] in H end; try (exfalso; tauto).
  all: repeat match goal with H : _ /\ _ |- _ => destruct H end.
  all: repeat match goal with IH : rallP _ ?a -> _, H : rallP _ ?a |- _ => specialize (IH H) end.
  all: try assumption.
  all: intros kk t K; destruct kk as [|kk]; [inversion K|].
  - (* Any *) destruct rs as [|a rs]; [reflexivity|]. cbn [shape]. 
    match goal with A : fold_right _ _ _, B : Forall _ _ |- _ => destruct (all_back _ A B) as (F1 & F2 & _); pose proof (all_list _ A) as F3 end.
    rewrite any_text in K |- *. rewrite !app_length in K. change (length (lit "[ ")) with 2%nat in K. inversion_clear F3 as [|? ? Ha _]. destruct (what_begins a Ha) as (x & u & E & (_ & _ & _ & N) & _).
    rewrite <- !app_assoc. 
    assert (D : forall w, reader_of (S kk) (lit "[ " ++ spaced (a :: rs) ++ w) = gives (readers_of kk x5d (spaced (a :: rs) ++ w)) RAny).
    { intros w. change (spaced (a :: rs)) with ((what e a ++ [x20]) ++ spaced rs). rewrite E. apply of_any. auto. }
    rewrite D. change (lit "]" ++ t) with (x5d :: t). rewrite list_back; [reflexivity|auto|auto|lia].
  - (* SkipSeq *) cbn [shape].
    match goal with A : fold_right _ _ _, B : Forall _ _ |- _ => destruct (all_back _ A B) as (F1 & _ & F2) end.
    rewrite skip_text in K |- *. rewrite !app_length in K. change (length (lit "(>")) with 2%nat in K. change (length (lit "> ")) with 2%nat in K. rewrite <- !app_assoc.
    change (reader_of (S kk) (lit "(>" ++ ?y)) with (then_ (after "> " (reader_of kk y)) (fun a u => gives (readers_of kk x29 u) (RSkipSeq a))).
    match goal with H : reads_back a |- _ => rewrite H by lia end. rewrite after_lit. cbn [then_]. change (lit ")" ++ t) with (x29 :: t).
    rewrite list_back by (auto; lia). reflexivity.
  - (* AnyRune *) cbn [what shape]. rewrite <- !app_assoc. change (reader_of (S kk) (lit "[" ++ quote_str ?x ++ ?y)) with (gives (after "]" (string_of (quote_str x ++ y))) RAnyRune).
    rewrite string_back, after_lit. reflexivity.
  - (* At *) cbn [what shape] in K |- *. rewrite app_length in K. change (length (lit "@")) with 1%nat in K.
    match goal with A : rallP _ a, B : reads_back a |- _ => destruct (what_begins a A) as (x & u & E & (N & _) & _); specialize (B kk t) end.
    rewrite <- app_assoc. rewrite E in *. change (lit "@" ++ (x :: u) ++ t) with (x40 :: x :: u ++ t). rewrite of_at by auto. cbn [app] in *.
    match goal with B : _ -> _ = Some _ |- _ => rewrite B by lia end. reflexivity.
  - reflexivity.
  - (* Between *) cbn [what shape]. apply of_between; auto.
  - (* Body *) cbn [what shape] in K |- *. rewrite !app_length in K. change (length (lit "-(")) with 2%nat in K. rewrite <- !app_assoc.
    change (reader_of (S kk) (lit "-(" ++ ?y)) with (then_ (after "-" (reader_of kk y)) (fun b u =>
        match u with
        | x2b :: v => gives (after ")-" (reader_of kk v)) (RBodyTail b)
        | _ => gives (after ")-" (reader_of kk u)) (RBody b)
        end)).
    match goal with H : reads_back a |- _ => rewrite H by lia end. rewrite after_lit. cbn [then_].
    match goal with A : rallP _ b, B : reads_back b, C : forall a, shape b <> _ |- _ =>
      destruct (what_begins b A) as (x & u & E & _ & N); specialize (B kk (lit ")-" ++ t)); assert (Nx : x <> x2b) by (intros ->; destruct (N eq_refl) as [z Hz]; exact (C z Hz)) end.
    rewrite E in *. cbn [app] in *.
    transitivity (gives (after ")-" (reader_of kk (x :: u ++ lit ")-" ++ t))) (RBody (shape a))); [clear -Nx; destruct x; try reflexivity; congruence|].
    match goal with B : _ -> _ = Some _ |- _ => rewrite B by lia end. rewrite after_lit. reflexivity.
  - (* BodyTail *) cbn [what shape] in K |- *. rewrite !app_length in K. change (length (lit "-(")) with 2%nat in K. rewrite <- !app_assoc.
    change (reader_of (S kk) (lit "-(" ++ ?y)) with (then_ (after "-" (reader_of kk y)) (fun b u =>
        match u with
        | x2b :: v => gives (after ")-" (reader_of kk v)) (RBodyTail b)
        | _ => gives (after ")-" (reader_of kk u)) (RBody b)
        end)).
    match goal with H : reads_back a |- _ => rewrite H by lia end. change (lit "-+" ++ ?y) with (lit "-" ++ x2b :: y). rewrite after_lit. cbn [then_].
    match goal with H : reads_back b |- _ => rewrite H by lia end. rewrite after_lit. reflexivity.
  - (* Bool *) cbn [what shape]. rewrite <- !app_assoc. change (reader_of (S kk) (lit "bool{" ++ ?y)) with (gives (after "}" (string_of y)) (RBool 0)). rewrite string_back, after_lit. reflexivity.
  - (* Fold *) cbn [what shape]. rewrite <- !app_assoc. change (reader_of (S kk) (lit "~" ++ ?y)) with (gives (string_of y) RFold). rewrite string_back. reflexivity.
  - (* Holey *) cbn [what shape]. rewrite <- !app_assoc. apply of_holey; auto.
  - (* Int *) cbn [what shape]. rewrite <- !app_assoc.
    change (reader_of (S kk) (lit "int{" ++ ?y)) with (then_ (after "," (number_of y)) (fun b v => gives (after "}" (number_of v)) (RInt 0 b))).
    change (lit "," ++ ?y) with (x2c :: y). rewrite number_back by reflexivity. change (x2c :: ?y) with (lit "," ++ y). rewrite after_lit. cbn [then_].
    change (lit "}" ++ t) with (x7d :: t). rewrite number_back by reflexivity. change (x7d :: t) with (lit "}" ++ t). rewrite after_lit. reflexivity.
  - (* Lit *) cbn [what shape]. change (reader_of (S kk) (quote_str ?x ++ ?y)) with (gives (string_of (quote_str x ++ y)) RLit). rewrite string_back. reflexivity.
  - (* Many *) cbn [what shape] in K |- *. rewrite app_length in K. change (length (lit "+")) with 1%nat in K. rewrite <- app_assoc. change (reader_of (S kk) (lit "+" ++ ?y)) with (gives (reader_of kk y) RMany).
    match goal with H : reads_back a |- _ => rewrite H by lia end. reflexivity.
  - (* Not *) cbn [what shape] in K |- *. rewrite app_length in K. change (length (lit "!")) with 1%nat in K. rewrite <- app_assoc. change (reader_of (S kk) (lit "!" ++ ?y)) with (gives (reader_of kk y) RNot).
    match goal with H : reads_back a |- _ => rewrite H by lia end. reflexivity.
  - (* Opt *) cbn [what shape] in K |- *. rewrite app_length in K. change (length (lit "?")) with 1%nat in K. rewrite <- app_assoc. change (reader_of (S kk) (lit "?" ++ ?y)) with (gives (reader_of kk y) ROpt).
    match goal with H : reads_back a |- _ => rewrite H by lia end. reflexivity.
  - (* Past *) cbn [what shape] in K |- *. rewrite app_length in K. change (length (lit "-->")) with 3%nat in K. rewrite <- app_assoc. change (reader_of (S kk) (lit "-->" ++ ?y)) with (gives (reader_of kk y) RPast).
    match goal with H : reads_back a |- _ => rewrite H by lia end. reflexivity.
  - (* Rune *) cbn [what shape]. change (reader_of (S kk) (quote_rune_graphic ?x ++ t)) with (gives (rune_of (quote_rune_graphic x ++ t)) RRune). rewrite rune_back by auto. reflexivity.
  - (* Times *) cbn [what shape] in K |- *. rewrite !app_length in K. change (length (lit "*")) with 1%nat in K. rewrite <- !app_assoc. change (lit "*" ++ ?y) with (x2a :: y).
    rewrite of_times. match goal with H : reads_back a |- _ => rewrite H by lia end. reflexivity.
  - (* To *) cbn [what shape] in K |- *. rewrite app_length in K. change (length (lit "->")) with 2%nat in K. rewrite <- app_assoc. change (reader_of (S kk) (lit "->" ++ ?y)) with (gives (reader_of kk y) RTo).
    match goal with H : reads_back a |- _ => rewrite H by lia end. reflexivity.
  - (* Uint *) cbn [what shape]. rewrite <- !app_assoc.
    change (reader_of (S kk) (lit "uint{" ++ ?y)) with (then_ (after "," (number_of y)) (fun b v => gives (after "}" (number_of v)) (RUint 0 b))).
    change (lit "," ++ ?y) with (x2c :: y). rewrite number_back by reflexivity. change (x2c :: ?y) with (lit "," ++ y). rewrite after_lit. cbn [then_].
    change (lit "}" ++ t) with (x7d :: t). rewrite number_back by reflexivity. change (x7d :: t) with (lit "}" ++ t). rewrite after_lit. reflexivity.
  - (* Zom *) cbn [what shape] in K |- *. rewrite app_length in K. change (length (lit "*")) with 1%nat in K. rewrite <- app_assoc. change (reader_of (S kk) (lit "*" ++ ?y)) with (gives (reader_of kk y) RZom).
    match goal with H : reads_back a |- _ => rewrite H by lia end. reflexivity.
Qed.
Lemma sequence_back rs : rs <> [] -> Forall (rallP plain_node) rs -> forall k, (length rs < k)%nat -> sequence_of k (what e (RSeq rs)) = Some (map shape rs).
Proof.
  induction rs as [|a rs IH]; [congruence|]. intros _ F k K. inversion_clear F as [|? ? Fa F']. destruct k as [|k]; [inversion K|]. pose proof (what_back a Fa) as B. destruct rs as [|b rs].
  - change (what e (RSeq [a])) with (what e a). cbn [sequence_of]. specialize (B (S (length (what e a))) [] ltac:(lia)). rewrite app_nil_r in B. rewrite B. reflexivity.
  - assert (E : what e (RSeq (a :: b :: rs)) = what e a ++ x20 :: what e (RSeq (b :: rs))) by reflexivity. rewrite E. cbn [sequence_of]. rewrite B by (rewrite app_length; lia).
    rewrite IH; [reflexivity|discriminate|auto|]. cbn in K |- *. lia.
Qed.
Lemma what_long rs : Forall (rallP plain_node) rs -> (length rs <= length (what e (RSeq rs)))%nat.
Proof.
  induction 1 as [|a rs Ha F IH]; [cbn; lia|]. destruct (what_begins a Ha) as (x & u & E & _). destruct rs as [|b rs].
  - change (what e (RSeq [a])) with (what e a). rewrite E. cbn. lia.
  - assert (X : what e (RSeq (a :: b :: rs)) = what e a ++ x20 :: what e (RSeq (b :: rs))) by reflexivity. rewrite X, app_length. cbn [length] in *. lia.
Qed.
End Lib.
