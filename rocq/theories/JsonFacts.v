(** JsonFacts.v - what the readers of grammar/json.go read. *)
From Verif Require Export PegBytes Json SpecJson.
From Coq Require Import Lia ZifyBool.
From Verif Require Import ReaderSteps ReaderScan.

Section Json.
Context {L : GoLib}.
Notation E := json_env.
Notation out := (out json_env).
Notation stuck := (stuck json_env).

(** The rules of the grammar. *)
Definition rd_exp := RSeq [RAnyRune (lit "eE"); RRule jSign; RRule jDigits].
Definition rd_frac := RSeq [RRune 0x2E; RRule jDigits].
Definition rd_more (k : nat) := RSeq [RRune 0x2C; RRule k].
Lemma env_ws : r_reader (get_rule E jWS) = Some (RZom ws). Proof. vm_compute. reflexivity. Qed.
Lemma env_null : r_reader (get_rule E jNull) = Some (RLit (lit "null")). Proof. vm_compute. reflexivity. Qed.
Lemma env_bool : r_reader (get_rule E jBool) = Some (RAny [RLit (lit "true"); RLit (lit "false")]). Proof. vm_compute. reflexivity. Qed.
Lemma env_sign : r_reader (get_rule E jSign) = Some (ROpt (RAnyRune (lit "+-"))). Proof. vm_compute. reflexivity. Qed.
Lemma env_onenine : r_reader (get_rule E jOneNine) = Some (RBetween 0x31 0x39). Proof. vm_compute. reflexivity. Qed.
Lemma env_digits : r_reader (get_rule E jDigits) = Some (RMany (RBetween 0x30 0x39)). Proof. vm_compute. reflexivity. Qed.
Lemma env_exp : r_reader (get_rule E jExponent) = Some (ROpt rd_exp). Proof. vm_compute. reflexivity. Qed.
Lemma env_frac : r_reader (get_rule E jFraction) = Some (ROpt rd_frac). Proof. vm_compute. reflexivity. Qed.
Lemma env_int : r_reader (get_rule E jInteger) = Some (RSeq [ROpt (RRune 0x2D); RAny [RRune 0x30; RSeq [RRule jOneNine; ROpt (RRule jDigits)]]]). Proof. vm_compute. reflexivity. Qed.
Lemma env_number : r_reader (get_rule E jNumber) = Some (RSeq [RRule jInteger; RRule jFraction; RRule jExponent]). Proof. vm_compute. reflexivity. Qed.
Lemma env_hex : r_reader (get_rule E jHex) = Some (RBetweenAny [(0x30, 0x39); (0x61, 0x66); (0x41, 0x46)] []). Proof. vm_compute. reflexivity. Qed.
Lemma env_escape : r_reader (get_rule E jEscape) = Some (RAny [RAnyRune (x22 :: lit "\/bfnrt"); RSeq [RRune 0x75; RTimes 4 (RRule jHex)]]). Proof. vm_compute. reflexivity. Qed.
Lemma env_char : r_reader (get_rule E jCharacter) = Some (RAny [RHoley 0x20 MaxRune quote_backslash; RSeq [RRune 0x5C; RRule jEscape]]). Proof. vm_compute. reflexivity. Qed.
Lemma env_chars : r_reader (get_rule E jCharacters) = Some (RZom (RRule jCharacter)). Proof. vm_compute. reflexivity. Qed.
Definition rd_string := RSeq [RRune 0x22; RRule jCharacters; RRune 0x22].
Lemma env_string : r_reader (get_rule E jString) = Some rd_string. Proof. vm_compute. reflexivity. Qed.
Lemma env_key : r_reader (get_rule E jKey) = Some rd_string. Proof. vm_compute. reflexivity. Qed.
Lemma env_element : r_reader (get_rule E jElement) = Some (RSeq [RRule jWS; RRule jValue; RRule jWS]). Proof. vm_compute. reflexivity. Qed.
Lemma env_elements : r_reader (get_rule E jElements) = Some (RSeq [RRule jElement; RZom (rd_more jElement)]). Proof. vm_compute. reflexivity. Qed.
Lemma env_array : r_reader (get_rule E jArray) = Some (RSeq [RRune 0x5B; RAny [RRule jElements; RRule jWS]; RRune 0x5D]). Proof. vm_compute. reflexivity. Qed.
Lemma env_member : r_reader (get_rule E jMember) = Some (RSeq [RRule jWS; RRule jKey; RRule jWS; RRune 0x3A; RRule jElement]). Proof. vm_compute. reflexivity. Qed.
Lemma env_members : r_reader (get_rule E jMembers) = Some (RSeq [RRule jMember; RZom (rd_more jMember)]). Proof. vm_compute. reflexivity. Qed.
Lemma env_object : r_reader (get_rule E jObject) = Some (RSeq [RRune 0x7B; RAny [RRule jMembers; RRule jWS]; RRune 0x7D]). Proof. vm_compute. reflexivity. Qed.
Lemma env_value : r_reader (get_rule E jValue) = Some (RAny [RRule jObject; RRule jArray; RRule jString; RRule jNumber; RRule jBool; RRule jNull]). Proof. vm_compute. reflexivity. Qed.

(* ------------------------------------------------------------- single bytes *)

Definition b_ws (x : byte) : bool := is 0x20 x || is 0x0D x || is 0x0A x || is 0x09 x.
Definition b_dig (x : byte) : bool := within 0x30 0x39 x.
Lemma takes_ext r g g' : (forall x, g x = g' x) -> takes E r g -> takes E r g'.
Proof. intros H T c b. specialize (T c b). replace (first g' b) with (first g b); auto. destruct b; cbn; auto. Qed.
Lemma t_ws : takes E ws b_ws.
Proof. eapply takes_ext; [|apply takes_byte, rb_any; reflexivity]. intros x. destruct x; vm_compute; reflexivity. Qed.
Lemma t_rune n : 0 <= n < 128 -> takes E (RRune n) (is n).
Proof. intros H. apply takes_byte, rb_rune. auto. Qed.
Lemma t_dig : takes E (RBetween 0x30 0x39) b_dig.
Proof. apply takes_byte, rb_between. lia. Qed.
Lemma t_rule k r g : r_reader (get_rule E k) = Some r -> takes E r g -> takes E (RRule k) g.
Proof. intros H T c b. eapply e_rule; [exact H|]. apply T. Qed.
Definition b_onenine (x : byte) : bool := within 0x31 0x39 x.
Lemma t_onenine : takes E (RRule jOneNine) b_onenine.
Proof. eapply t_rule; [apply env_onenine|]. apply takes_byte, rb_between. lia. Qed.
Definition b_sign (x : byte) : bool := is 0x2B x || is 0x2D x.
Lemma t_sign : takes E (RAnyRune (lit "+-")) b_sign.
Proof. eapply takes_ext; [|apply takes_byte, rb_any; reflexivity]. intros x. destruct x; vm_compute; reflexivity. Qed.
Definition b_e (x : byte) : bool := is 0x65 x || is 0x45 x.
Lemma t_e : takes E (RAnyRune (lit "eE")) b_e.
Proof. eapply takes_ext; [|apply takes_byte, rb_any; reflexivity]. intros x. destruct x; vm_compute; reflexivity. Qed.
Definition b_hex (x : byte) : bool := within 0x30 0x39 x || within 0x61 0x66 x || within 0x41 0x46 x.
Lemma t_hex : takes E (RRule jHex) b_hex.
Proof. eapply t_rule; [apply env_hex|]. eapply takes_ext; [|apply takes_byte, rb_ranges; reflexivity]. intros x. destruct x; vm_compute; reflexivity. Qed.
Definition b_esc (x : byte) : bool := one_of (x22 :: lit "\/bfnrt") x.
Lemma t_esc : takes E (RAnyRune (x22 :: lit "\/bfnrt")) b_esc.
Proof. apply takes_byte, rb_any. reflexivity. Qed.

Lemma ws_is x : b_ws x = true <-> ws_byte x.
Proof.
  split.
  - intros H. destruct x; try discriminate H; cbn; auto.
  - intros [<-|[<-|[<-|[<-|[]]]]]; reflexivity.
Qed.
Lemma all_is {g : byte -> bool} {P : byte -> Prop} (H : forall x, g x = true <-> P x) w : forallb g w = true <-> Forall P w.
Proof. rewrite forallb_forall, Forall_forall. split; intros F x I; apply H; auto. Qed.
Lemma dig_is x : b_dig x = true <-> dig x.
Proof. unfold b_dig, within, dig. lia. Qed.
Lemma hex_is x : b_hex x = true <-> hex_dig x.
Proof. unfold b_hex, within, hex_dig, dig. lia. Qed.
Lemma esc_is x : b_esc x = true <-> In x (x22 :: lit "\/bfnrt").
Proof.
  unfold b_esc, one_of. rewrite existsb_exists. split.
  - intros (y & I & H). assert (x = y) by (apply Z.eqb_eq, bz_inj in H; auto). subst. auto.
  - intros I. exists x. split; auto. lia.
Qed.
Lemma is_eq n x : is n x = true -> x = zb n.
Proof. unfold is. intros H. apply Z.eqb_eq in H. rewrite <- H, zb_bz. reflexivity. Qed.

(* ----------------------------------------------------------------- white space *)

Lemma o_ws w b : j_ws w -> first b_ws b = false -> out (IR (RRule jWS)) (w ++ b) true b.
Proof. intros W F. eapply o_rule; [apply env_ws|]. apply o_zom. eapply o_rep_takes; [apply t_ws|apply (all_is ws_is); exact W|auto]. Qed.
Lemma ws_run b : exists w b', b = w ++ b' /\ j_ws w /\ first b_ws b' = false /\ out (IR (RRule jWS)) b true b'.
Proof.
  destruct (byte_span b_ws b) as (w & t & -> & W & F). exists w, t. split; auto. apply (all_is ws_is) in W. split; [exact W|]. split; auto. apply o_ws; auto.
Qed.

(* ----------------------------------------------------------------- numbers *)

Lemma o_digits d b : digs d -> first b_dig b = false -> out (IR (RRule jDigits)) (d ++ b) true b.
Proof.
  intros [N D] F. eapply o_rule; [apply env_digits|]. pose proof (o_many E _ _ _ (o_rep_takes E _ _ d b t_dig (proj2 (all_is dig_is d) D) F)) as O.
  replace (Nat.ltb (length b) (length (d ++ b))) with true in O; [exact O|]. symmetry. apply Nat.ltb_lt. rewrite app_length. destruct d; [congruence|cbn; lia].
Qed.
Lemma o_digits_no b : first b_dig b = false -> out (IR (RRule jDigits)) b false b.
Proof.
  intros F. eapply o_rule; [apply env_digits|]. pose proof (o_many E _ _ _ (o_rep_takes E _ _ [] b t_dig eq_refl F)) as O. cbn [app] in O.
  rewrite Nat.ltb_irrefl in O. exact O.
Qed.
Lemma digits_run b : (exists d b', b = d ++ b' /\ digs d /\ first b_dig b' = false) \/ first b_dig b = false.
Proof.
  destruct (byte_span b_dig b) as (w & t & -> & W & F). destruct w as [|x w]; [right; auto|]. left. exists (x :: w), t. split; auto. split; auto.
  split; [discriminate|]. apply (all_is dig_is). auto.
Qed.
(** The rest does not go on with the number. *)
Definition no_exp (b : bytes) : Prop := first b_dig b = false /\ first b_e b = false.
Definition no_frac (b : bytes) : Prop := no_exp b /\ first (is 0x2E) b = false.
Lemma t_dot : takes E (RRune 0x2E) (is 0x2E). Proof. apply t_rune; lia. Qed.
Lemma o_exp x b : j_exp x -> no_exp b -> out (IR (RRule jExponent)) (x ++ b) true b.
Proof.
  intros [->|(y & s & d & -> & Y & S & D)] [F1 F2]; (eapply o_rule; [apply env_exp|]).
  - eapply o_opt_no. eapply o_seq_no. eapply os_stop. eapply o_takes_no; [apply t_e|exact F2].
  - apply o_opt_yes, o_seq. cbn [app]. rewrite <- app_assoc. eapply os_next; [eapply o_takes_yes; [apply t_e|destruct Y as [-> | ->]; reflexivity]|].
    eapply os_next with (b1 := d ++ b); [|eapply os_next; [apply o_digits; auto|apply os_nil]].
    eapply o_rule; [apply env_sign|]. destruct S as [->|[->| ->]].
    + cbn [app]. eapply o_opt_no. eapply o_takes_no; [apply t_sign|]. destruct D as [D0 D]. destruct d as [|z d]; [congruence|]. inversion D; subst.
      cbn [app first]. unfold b_sign, is, dig in *. lia.
    + apply o_opt_yes. eapply o_takes_yes; [apply t_sign|reflexivity].
    + apply o_opt_yes. eapply o_takes_yes; [apply t_sign|reflexivity].
Qed.
Lemma exp_run b : exists x b', b = x ++ b' /\ j_exp x /\ out (IR (RRule jExponent)) b true b'.
Proof.
  destruct (first b_e b) eqn:F.
  2:{ exists [], b. split; auto. split; [left; auto|]. eapply o_rule; [apply env_exp|]. eapply o_opt_no, o_seq_no, os_stop, o_takes_no; [apply t_e|exact F]. }
  destruct b as [|y b]; [discriminate|]. cbn [first] in F.
  assert (S : exists s b1, b = s ++ b1 /\ (s = [] \/ s = lit "+" \/ s = lit "-") /\ out (IR (RRule jSign)) b true b1).
  { destruct (first b_sign b) eqn:G.
    - destruct b as [|z b]; [discriminate|]. cbn [first] in G. exists [z], b. split; auto. split.
      + destruct z; try discriminate G; auto.
      + eapply o_rule; [apply env_sign|]. apply o_opt_yes. eapply o_takes_yes; [apply t_sign|auto].
    - exists [], b. split; auto. split; auto. eapply o_rule; [apply env_sign|]. eapply o_opt_no, o_takes_no; [apply t_sign|auto]. }
  destruct S as (s & b1 & -> & Hs & S). destruct (digits_run b1) as [(d & b2 & -> & D & G)|G].
  - exists (y :: s ++ d), b2. split; [cbn; rewrite <- app_assoc; auto|]. split.
    + right. exists y, s, d. split; auto. split; auto. destruct y; try discriminate F; auto.
    + eapply o_rule; [apply env_exp|]. apply o_opt_yes, o_seq. eapply os_next; [eapply o_takes_yes; [apply t_e|auto]|]. eapply os_next; [exact S|].
      eapply os_next; [apply o_digits; auto|apply os_nil].
  - exists [], (y :: s ++ b1). split; auto. split; [left; auto|]. eapply o_rule; [apply env_exp|]. eapply o_opt_no, o_seq_no.
    eapply os_next; [eapply o_takes_yes; [apply t_e|auto]|]. eapply os_next; [exact S|]. apply os_stop, o_digits_no. auto.
Qed.
Lemma exp_not_dot x b : j_exp x -> no_frac b -> first (is 0x2E) (x ++ b) = false /\ first b_dig (x ++ b) = false.
Proof.
  intros [->|(y & s & d & -> & Y & _)] [[N1 N2] N3]; [auto|]. destruct Y as [->| ->]; auto.
Qed.
Lemma o_frac f x b : j_frac f -> j_exp x -> no_frac b -> out (IR (RRule jFraction)) (f ++ x ++ b) true (x ++ b).
Proof.
  intros F X N. destruct (exp_not_dot x b X N) as [N1 N2]. eapply o_rule; [apply env_frac|]. destruct F as [->|(d & -> & D)].
  - eapply o_opt_no, o_seq_no, os_stop, o_takes_no; [apply t_dot|auto].
  - apply o_opt_yes, o_seq. cbn [app]. eapply os_next; [eapply o_takes_yes; [apply t_dot|reflexivity]|]. eapply os_next; [apply o_digits; auto|apply os_nil].
Qed.
Lemma frac_run b : exists f b', b = f ++ b' /\ j_frac f /\ out (IR (RRule jFraction)) b true b'.
Proof.
  destruct (first (is 0x2E) b) eqn:F.
  2:{ exists [], b. split; auto. split; [left; auto|]. eapply o_rule; [apply env_frac|]. eapply o_opt_no, o_seq_no, os_stop, o_takes_no; [apply t_dot|exact F]. }
  destruct b as [|y b]; [discriminate|]. cbn [first] in F. apply is_eq in F as ->. destruct (digits_run b) as [(d & b2 & -> & D & G)|G].
  - exists (x2e :: d), b2. split; auto. split; [right; exists d; auto|]. eapply o_rule; [apply env_frac|]. apply o_opt_yes, o_seq.
    eapply os_next; [eapply o_takes_yes; [apply t_dot|reflexivity]|]. eapply os_next; [apply o_digits; auto|apply os_nil].
  - exists [], (zb 0x2E :: b). split; auto. split; [left; auto|]. eapply o_rule; [apply env_frac|]. eapply o_opt_no, o_seq_no.
    eapply os_next; [eapply o_takes_yes; [apply t_dot|reflexivity]|]. apply os_stop, o_digits_no. auto.
Qed.
Lemma t_minus : takes E (RRune 0x2D) (is 0x2D). Proof. apply t_rune; lia. Qed.
Lemma t_zero : takes E (RRune 0x30) (is 0x30). Proof. apply t_rune; lia. Qed.
Definition nat_part (n : bytes) : Prop := n = lit "0" \/ exists x d, n = x :: d /\ 0x31 <= bz x <= 0x39 /\ Forall dig d.
Lemma onenine_is x : b_onenine x = true <-> 0x31 <= bz x <= 0x39.
Proof. unfold b_onenine, within. lia. Qed.
Lemma o_opt_digits d b : Forall dig d -> first b_dig b = false -> out (IR (ROpt (RRule jDigits))) (d ++ b) true b.
Proof.
  intros D F. destruct d as [|x d]; cbn [app]; [eapply o_opt_no, o_digits_no; auto|]. apply o_opt_yes. apply (o_digits (x :: d)); auto. split; [discriminate|auto].
Qed.
Lemma o_nat n b : nat_part n -> (n <> lit "0" -> first b_dig b = false) -> out (IR (RAny [RRune 0x30; RSeq [RRule jOneNine; ROpt (RRule jDigits)]])) (n ++ b) true b.
Proof.
  intros [->|(x & d & -> & X & D)] F; apply o_any.
  - apply oa_hit. eapply o_takes_yes; [apply t_zero|reflexivity].
  - cbn [app]. eapply oa_next; [eapply o_takes_no; [apply t_zero|cbn; unfold is; lia]|]. apply oa_hit, o_seq.
    eapply os_next; [eapply o_takes_yes; [apply t_onenine|apply onenine_is; auto]|]. eapply os_next; [|apply os_nil]. apply o_opt_digits; auto.
    apply F. intros Q. injection Q as -> _. vm_compute in X. destruct X as [X _]. elim X. reflexivity.
Qed.
Lemma nat_run b : (exists n b', b = n ++ b' /\ nat_part n /\ out (IR (RAny [RRune 0x30; RSeq [RRule jOneNine; ROpt (RRule jDigits)]])) b true b') \/
  out (IR (RAny [RRune 0x30; RSeq [RRule jOneNine; ROpt (RRule jDigits)]])) b false b.
Proof.
  destruct (first (is 0x30) b) eqn:Z0.
  { left. destruct b as [|y b]; [discriminate|]. cbn [first] in Z0. apply is_eq in Z0 as ->. exists (lit "0"), b. split; auto. split; [left; auto|].
    apply o_any, oa_hit. eapply o_takes_yes; [apply t_zero|reflexivity]. }
  destruct (first b_onenine b) eqn:O.
  - left. destruct b as [|y b]; [discriminate|]. cbn [first] in O, Z0. destruct (byte_span b_dig b) as (d & t & -> & W & F). apply (all_is dig_is) in W.
    exists (y :: d), t. split; auto. split; [right; exists y, d; split; auto; split; auto; apply onenine_is; auto|].
    apply o_any. eapply oa_next; [eapply o_takes_no; [apply t_zero|auto]|]. apply oa_hit, o_seq.
    eapply os_next; [eapply o_takes_yes; [apply t_onenine|auto]|]. eapply os_next; [|apply os_nil]. apply o_opt_digits; auto.
  - right. eapply o_any_no, oa_next; [eapply o_takes_no; [apply t_zero|auto]|]. eapply oa_next; [|apply oa_nil]. eapply o_seq_no, os_stop, o_takes_no; [apply t_onenine|auto].
Qed.
Lemma o_int i b : j_int i -> first b_dig b = false -> out (IR (RRule jInteger)) (i ++ b) true b.
Proof.
  intros (m & n & -> & M & N) F. eapply o_rule; [apply env_int|]. apply o_seq. rewrite <- app_assoc. eapply os_next with (b1 := n ++ b).
  - destruct M as [->| ->].
    + cbn [app]. eapply o_opt_no, o_takes_no; [apply t_minus|]. destruct N as [->|(x & d & -> & X & _)]; [reflexivity|]. cbn [app first]. unfold is. lia.
    + apply o_opt_yes. eapply o_takes_yes; [apply t_minus|reflexivity].
  - eapply os_next; [apply o_nat; auto|apply os_nil].
Qed.
Lemma int_run b : (exists i b', b = i ++ b' /\ j_int i /\ out (IR (RRule jInteger)) b true b') \/ out (IR (RRule jInteger)) b false b.
Proof.
  assert (S : exists m b1, b = m ++ b1 /\ (m = [] \/ m = lit "-") /\ out (IR (ROpt (RRune 0x2D))) b true b1).
  { destruct (first (is 0x2D) b) eqn:G.
    - destruct b as [|z b]; [discriminate|]. cbn [first] in G. apply is_eq in G as ->. exists (lit "-"), b. split; auto. split; auto.
      apply o_opt_yes. eapply o_takes_yes; [apply t_minus|reflexivity].
    - exists [], b. split; auto. split; auto. eapply o_opt_no, o_takes_no; [apply t_minus|auto]. }
  destruct S as (m & b1 & -> & M & S). destruct (nat_run b1) as [(n & b2 & -> & N & O)|O].
  - left. exists (m ++ n), b2. split; [rewrite <- app_assoc; auto|]. split; [exists m, n; auto|]. eapply o_rule; [apply env_int|]. apply o_seq.
    eapply os_next; [exact S|]. eapply os_next; [exact O|apply os_nil].
  - right. eapply o_rule; [apply env_int|]. eapply o_seq_no, os_next; [exact S|]. apply os_stop. exact O.
Qed.
Lemma frac_not_dig f x b : j_frac f -> j_exp x -> no_frac b -> first b_dig (f ++ x ++ b) = false.
Proof. intros F X N. destruct (exp_not_dot x b X N) as [N1 N2]. destruct F as [->|(d & -> & D)]; auto. Qed.
Lemma o_number n b : j_number n -> no_frac b -> out (IR (RRule jNumber)) (n ++ b) true b.
Proof.
  intros (i & f & x & -> & I & F & X) N. eapply o_rule; [apply env_number|]. apply o_seq. rewrite <- !app_assoc.
  eapply os_next; [apply o_int; auto; apply frac_not_dig; auto|]. eapply os_next; [apply o_frac; auto|]. eapply os_next; [apply o_exp; auto; apply N|apply os_nil].
Qed.
Lemma number_run b : (exists n b', b = n ++ b' /\ j_number n /\ out (IR (RRule jNumber)) b true b') \/ out (IR (RRule jNumber)) b false b.
Proof.
  destruct (int_run b) as [(i & b1 & -> & I & O1)|O]; [left|right; eapply o_rule; [apply env_number|]; eapply o_seq_no, os_stop; exact O].
  destruct (frac_run b1) as (f & b2 & -> & F & O2). destruct (exp_run b2) as (x & b3 & -> & X & O3).
  exists (i ++ f ++ x), b3. split; [rewrite <- !app_assoc; auto|]. split; [exists i, f, x; auto|]. eapply o_rule; [apply env_number|]. apply o_seq.
  eapply os_next; [exact O1|]. eapply os_next; [exact O2|]. eapply os_next; [exact O3|apply os_nil].
Qed.

(* ----------------------------------------------------------------- strings *)

Definition b_plain (x : byte) : bool := (0x20 <=? bz x) && negb (is 0x22 x) && negb (is 0x5C x).
Lemma plain_is x : b_plain x = true <-> plain x.
Proof. unfold plain. destruct x; vm_compute; split; intros H; try discriminate H; try (repeat split; discriminate); destruct H as (H1 & H2 & H3); try reflexivity; try (elim H1; reflexivity); congruence. Qed.
Lemma utf8_high r : is_scalar r -> 128 <= r -> Forall plain (utf8 r).
Proof.
  intros S H. assert (P : forall z, 128 <= z < 256 -> plain (zb z)).
  { intros z Hz. apply plain_is. unfold b_plain, is. rewrite bz_zb by lia. lia. }
  unfold is_scalar in S. unfold utf8. replace (r <? 0x80) with false by lia.
  destruct (r <? 0x800) eqn:E1; [|destruct (r <? 0x10000) eqn:E2]; repeat (apply Forall_cons || apply Forall_nil); apply P; pose proof (Z.mod_pos_bound r 64); pose proof (Z.mod_pos_bound (r / 64) 64);
    pose proof (Z.mod_pos_bound (r / 4096) 64); Z.div_mod_to_equations; lia.
Qed.
Lemma plain_rune x b : plain x -> exists u t, x :: b = u ++ t /\ u <> [] /\ Forall plain u /\ after_rune (x :: b) = t.
Proof.
  intros P. unfold after_rune. destruct (decode_cases (x :: b)) as [(r & t & S & Q & D)|[D _]]; [discriminate| |].
  - rewrite D. cbn [snd]. exists (utf8 r), t. split; auto. split; [unfold utf8; destruct (r <? 0x80); [discriminate|]; destruct (r <? 0x800); [discriminate|]; destruct (r <? 0x10000); discriminate|].
    split; [|rewrite Q; apply skipn_app_l].
    destruct (Z.ltb_spec r 128) as [G|G]; [|apply utf8_high; auto]. assert (U : utf8 r = [zb r]) by (unfold utf8; replace (r <? 0x80) with true by lia; auto).
    rewrite U in *. injection Q as Q _. rewrite <- Q. repeat constructor; apply P.
  - rewrite D. cbn [snd skipn]. exists [x], b. split; auto. split; [discriminate|]. split; auto.
Qed.
Lemma holey_test b : test (fun v i => in_range 0x20 v MaxRune && negb (contains_rune quote_backslash v)) b = match b with [] => true | x :: _ => b_plain x end.
Proof.
  unfold test. destruct b as [|x b]; [vm_compute; reflexivity|].
  assert (K : chunked quote_backslash [(0x22, [x22]); (0x5C, [x5c])]).
  { apply (ck_rune 0x22 [x5c]); [unfold is_scalar; lia|]. apply (ck_rune 0x5C []); [unfold is_scalar; lia|]. constructor. }
  assert (C : forall v, is_scalar v -> contains_rune quote_backslash v = ((v =? 0x22) || (v =? 0x5C))).
  { intros v S. pose proof (contains_rune_iff _ _ K v S) as Q. cbn [map fst In] in Q. destruct (contains_rune quote_backslash v).
    - destruct Q as [Q _]. destruct (Q eq_refl) as [<-|[<-|[]]]; reflexivity.
    - destruct Q as [_ Q]. destruct (Z.eqb_spec v 0x22); [subst; discriminate Q; auto|]. destruct (Z.eqb_spec v 0x5C); [subst; discriminate Q; auto|]. reflexivity. }
  pose proof (decode_scalar (x :: b)) as S. rewrite (C _ S). destruct (Z.ltb_spec (bz x) 128) as [H|H].
  - rewrite decode_ascii in * by auto. cbn [fst]. unfold in_range, b_plain, is, MaxRune. lia.
  - pose proof (decode_high x b H) as D. unfold is_scalar in S. unfold in_range, b_plain, is, MaxRune. lia.
Qed.
Lemma o_holey_end : out (IR (RHoley 0x20 MaxRune quote_backslash)) [] true [].
Proof. intros c. exact (e_test E (RHoley 0x20 MaxRune quote_backslash) _ c [] eq_refl). Qed.
Lemma o_holey x b : plain x -> exists u t, x :: b = u ++ t /\ u <> [] /\ Forall plain u /\ out (IR (RHoley 0x20 MaxRune quote_backslash)) (x :: b) true t.
Proof.
  intros P. destruct (plain_rune x b P) as (u & t & Q & N & F & A). exists u, t. split; auto. split; auto. split; auto. intros c.
  pose proof (e_test E (RHoley 0x20 MaxRune quote_backslash) _ c (x :: b) eq_refl) as X. rewrite holey_test in X. apply plain_is in P. rewrite P, A in X. exact X.
Qed.
Lemma o_holey_no x b : ~ plain x -> out (IR (RHoley 0x20 MaxRune quote_backslash)) (x :: b) false (x :: b).
Proof.
  intros P c. pose proof (e_test E (RHoley 0x20 MaxRune quote_backslash) _ c (x :: b) eq_refl) as X. rewrite holey_test in X.
  destruct (b_plain x) eqn:Q; [elim P; apply plain_is; auto|exact X].
Qed.

Lemma times_run r g k : takes E r g -> forall b, (exists u b', b = u ++ b' /\ length u = k /\ forallb g u = true) \/ exists b', out (ITimes k r) b false b'.
Proof.
  intros T. induction k as [|k IH]; intros b; [left; exists [], b; auto|]. destruct (first g b) eqn:F.
  - destruct b as [|x b]; [discriminate|]. cbn [first] in F. destruct (IH b) as [(u & b' & -> & Lu & G)|[b' O]].
    + left. exists (x :: u), b'. cbn. rewrite F, G, Lu. auto.
    + right. exists b'. intros c. eapply i_times_next; [eapply takes_yes; eauto|apply O].
  - right. exists b. intros c. eapply i_times_stop, takes_no; eauto.
Qed.
Lemma times_yes r g u : takes E r g -> forall b, forallb g u = true -> out (ITimes (length u) r) (u ++ b) true b.
Proof.
  intros T. induction u as [|x u IH]; intros b G c; [apply i_times_0|]. cbn [forallb length app] in *. apply andb_prop in G as [G1 G2].
  eapply i_times_next; [eapply takes_yes; eauto|]. apply IH; auto.
Qed.
Lemma o_times k r b ok b' : out (ITimes (Z.to_nat k) r) b ok b' -> out (IR (RTimes k r)) b ok b'.
Proof. intros H c. apply e_times. apply H. Qed.
Lemma t_u : takes E (RRune 0x75) (is 0x75). Proof. apply t_rune; lia. Qed.
Lemma t_back : takes E (RRune 0x5C) (is 0x5C). Proof. apply t_rune; lia. Qed.
Lemma t_quote : takes E (RRune 0x22) (is 0x22). Proof. apply t_rune; lia. Qed.

(** One character: [u] in front of contents gives contents, and only then. *)
Definition escape (u : bytes) : Prop := (exists x, u = [x] /\ In x (x22 :: lit "\/bfnrt")) \/
  (exists h1 h2 h3 h4, u = [x75; h1; h2; h3; h4] /\ hex_dig h1 /\ hex_dig h2 /\ hex_dig h3 /\ hex_dig h4).
Lemma o_escape u b : escape u -> out (IR (RRule jEscape)) (u ++ b) true b.
Proof.
  intros Hu. eapply o_rule; [apply env_escape|]. apply o_any. destruct Hu as [(x & -> & I)|(h1 & h2 & h3 & h4 & -> & H1 & H2 & H3 & H4)].
  - apply oa_hit. eapply o_takes_yes; [apply t_esc|]. apply esc_is. auto.
  - eapply oa_next; [eapply o_takes_no; [apply t_esc|reflexivity]|]. apply oa_hit, o_seq. cbn [app]. eapply os_next; [eapply o_takes_yes; [apply t_u|reflexivity]|].
    eapply os_next; [|apply os_nil]. apply o_times. apply (times_yes _ _ [h1; h2; h3; h4] t_hex). apply (all_is hex_is). auto.
Qed.
Lemma escape_run b : (exists u b', b = u ++ b' /\ escape u) \/ out (IR (RRule jEscape)) b false b.
Proof.
  destruct (first b_esc b) eqn:F.
  { left. destruct b as [|x b]; [discriminate|]. exists [x], b. split; auto. left. exists x. split; auto. apply esc_is. auto. }
  destruct (first (is 0x75) b) eqn:G.
  - destruct b as [|x b]; [discriminate|]. cbn [first] in G. apply is_eq in G as ->. destruct (times_run _ _ 4 t_hex b) as [(u & b' & -> & Lu & W)|[b' O]].
    + left. destruct u as [|h1 [|h2 [|h3 [|h4 [|]]]]]; try discriminate Lu. exists [x75; h1; h2; h3; h4], b'. split; auto. right. exists h1, h2, h3, h4.
      apply (all_is hex_is) in W. inversion W as [|? ? W1 V1]; subst. inversion V1 as [|? ? W2 V2]; subst. inversion V2 as [|? ? W3 V3]; subst. inversion V3; subst. auto.
    + right. eapply o_rule; [apply env_escape|]. eapply o_any_no, oa_next; [eapply o_takes_no; [apply t_esc|auto]|]. eapply oa_next; [|apply oa_nil].
      eapply o_seq_no, os_next; [eapply o_takes_yes; [apply t_u|reflexivity]|]. apply os_stop. apply o_times. exact O.
  - right. eapply o_rule; [apply env_escape|]. eapply o_any_no, oa_next; [eapply o_takes_no; [apply t_esc|auto]|]. eapply oa_next; [|apply oa_nil].
    eapply o_seq_no, os_stop, o_takes_no; [apply t_u|auto].
Qed.
Lemma o_char_escape u b : escape u -> out (IR (RRule jCharacter)) (x5c :: u ++ b) true b.
Proof.
  intros Hu. eapply o_rule; [apply env_char|]. apply o_any. eapply oa_next; [apply o_holey_no; unfold plain; tauto|]. apply oa_hit, o_seq.
  eapply os_next; [eapply o_takes_yes; [apply t_back|reflexivity]|]. eapply os_next; [apply o_escape; auto|apply os_nil].
Qed.
Lemma o_char_end : out (IR (RRule jCharacter)) [] true [].
Proof. eapply o_rule; [apply env_char|]. apply o_any, oa_hit, o_holey_end. Qed.
Lemma o_char_plain x b : plain x -> exists u t, x :: b = u ++ t /\ u <> [] /\ Forall plain u /\ out (IR (RRule jCharacter)) (x :: b) true t.
Proof.
  intros P. destruct (o_holey x b P) as (u & t & Q & N & F & O). exists u, t. split; auto. split; auto. split; auto. eapply o_rule; [apply env_char|]. apply o_any, oa_hit. exact O.
Qed.
Lemma o_char_no x b : ~ plain x -> x <> x5c -> out (IR (RRule jCharacter)) (x :: b) false (x :: b).
Proof.
  intros P N. eapply o_rule; [apply env_char|]. eapply o_any_no, oa_next; [apply o_holey_no; auto|]. eapply oa_next; [|apply oa_nil].
  eapply o_seq_no, os_stop, o_takes_no; [apply t_back|]. cbn [first]. destruct (is 0x5C x) eqn:Q; auto. apply is_eq in Q. elim N. auto.
Qed.
Lemma chars_escape u w : escape u -> j_chars w -> j_chars (x5c :: u ++ w).
Proof. intros [(x & -> & I)|(h1 & h2 & h3 & h4 & -> & H1 & H2 & H3 & H4)] W; [apply jc_escape; auto|apply jc_unicode; auto]. Qed.
Lemma chars_cases w : j_chars w -> w = [] \/ (exists x t, w = x :: t /\ plain x) \/ (exists u t, w = x5c :: u ++ t /\ escape u /\ j_chars t).
Proof.
  inversion 1; subst; auto.
  - right. left. eauto.
  - right. right. exists [x], w0. split; auto. split; auto. left. eauto.
  - right. right. exists [x75; h1; h2; h3; h4], w0. split; auto. split; auto. right. exists h1, h2, h3, h4. auto.
Qed.
Lemma chars_plain u t : Forall plain u -> j_chars t -> j_chars (u ++ t).
Proof. induction 1; cbn; auto. intros. apply jc_plain; auto. Qed.
Lemma chars_plain_inv u t : Forall plain u -> j_chars (u ++ t) -> j_chars t.
Proof.
  induction 1 as [|x u P F IH]; cbn; auto. intros H. destruct P as (P1 & P2 & P3). inversion H; subst; auto; congruence.
Qed.
Lemma plain_prefix u t w b : Forall plain u -> u ++ t = w ++ x22 :: b -> exists w', w = u ++ w' /\ t = w' ++ x22 :: b.
Proof.
  intros F. revert w. induction F as [|x u P F IH]; intros w H; [exists w; auto|]. destruct w as [|y w]; injection H as -> H.
  - destruct P as (_ & P & _). congruence.
  - destruct (IH w H) as (w' & -> & ->). exists w'. auto.
Qed.

(** Contents up to a quote. *)
Lemma o_chars b : forall n u, (length u <= n)%nat -> j_chars u -> out (IRep (RRule jCharacter)) (u ++ x22 :: b) true (x22 :: b).
Proof.
  induction n as [|n IH]; intros u Hn J; (destruct (chars_cases u J) as [->|[(x & t & -> & P)|(v & t & -> & V & Jt)]]; cbn [length] in Hn; try lia).
  - apply or_stop, o_char_no; [unfold plain; tauto|discriminate].
  - apply or_stop, o_char_no; [unfold plain; tauto|discriminate].
  - destruct (o_char_plain x (t ++ x22 :: b) P) as (v & t' & Q & N & F & O). cbn [app]. eapply or_next; [exact O|].
    change (x :: t ++ x22 :: b) with ((x :: t) ++ x22 :: b) in Q. symmetry in Q. destruct (plain_prefix v t' (x :: t) b F Q) as (w' & W & ->). apply IH.
    + assert (X : length (x :: t) = length (v ++ w')) by congruence. rewrite app_length in X. cbn in X. destruct v; [congruence|cbn in X; lia].
    + rewrite W in J. eapply chars_plain_inv; eauto.
  - cbn [app]. rewrite <- app_assoc. eapply or_next; [apply o_char_escape; auto|]. apply IH; auto. rewrite app_length in Hn. lia.
Qed.
(** Contents up to the end of the text. *)
Lemma k_chars : forall n u, (length u <= n)%nat -> j_chars u -> stuck (IRep (RRule jCharacter)) u.
Proof.
  induction n as [|n IH]; intros u Hn J; (destruct (chars_cases u J) as [->|[(x & t & -> & P)|(v & t & -> & V & Jt)]]; cbn [length] in Hn; try lia).
  - apply kr_loop, o_char_end.
  - apply kr_loop, o_char_end.
  - destruct (o_char_plain x t P) as (v & t' & Q & N & F & O). eapply kr_next; [exact O|]. apply IH.
    + assert (X : length (x :: t) = length (v ++ t')) by congruence. rewrite app_length in X. cbn in X. destruct v; [congruence|cbn in X; lia].
    + rewrite Q in J. eapply chars_plain_inv; eauto.
  - eapply kr_next; [apply o_char_escape; auto|]. apply IH; auto. rewrite app_length in Hn. lia.
Qed.
Lemma chars_run : forall n b, (length b <= n)%nat ->
  (exists u b', b = u ++ b' /\ j_chars u /\ out (IRep (RRule jCharacter)) b true b') \/ j_chars b.
Proof.
  induction n as [|n IH]; intros b Hn; (destruct b as [|x b]; [right; constructor|]); cbn [length] in Hn; [lia|].
  destruct (b_plain x) eqn:P.
  - apply plain_is in P. destruct (o_char_plain x b P) as (v & t & Q & N & F & O).
    assert (X : (length t <= n)%nat). { assert (X : length (x :: b) = length (v ++ t)) by congruence. rewrite app_length in X. cbn in X. destruct v; [congruence|cbn in X; lia]. }
    rewrite Q in *. destruct (IH t X) as [(u & b' & -> & J & O2)|J].
    + left. exists (v ++ u), b'. split; [rewrite <- app_assoc; auto|]. split; [apply chars_plain; auto|]. eapply or_next; eauto.
    + right. apply chars_plain; auto.
  - assert (NP : ~ plain x) by (rewrite <- plain_is; congruence). destruct (is 0x5C x) eqn:B.
    + apply is_eq in B as ->. destruct (escape_run b) as [(u & t & -> & V)|O].
      * rewrite app_length in Hn. destruct (IH t ltac:(lia)) as [(w & b' & -> & J & O2)|J].
        -- left. exists (x5c :: u ++ w), b'. split; [cbn; rewrite <- app_assoc; auto|]. split; [apply chars_escape; auto|]. eapply or_next; [apply o_char_escape; auto|auto].
        -- right. apply chars_escape; auto.
      * left. exists [], (zb 0x5C :: b). split; auto. split; [constructor|]. apply or_stop. eapply o_rule; [apply env_char|]. eapply o_any_no, oa_next; [apply o_holey_no; auto|].
        eapply oa_next; [|apply oa_nil]. eapply o_seq_no, os_next; [eapply o_takes_yes; [apply t_back|reflexivity]|]. apply os_stop. exact O.
    + left. exists [], (x :: b). split; auto. split; [constructor|]. apply or_stop, o_char_no; auto. intros ->. discriminate.
Qed.

Lemma o_string s b : j_string s -> out (IR rd_string) (s ++ b) true b.
Proof.
  intros (u & -> & J). apply o_seq. cbn [app]. rewrite <- app_assoc. eapply os_next; [eapply o_takes_yes; [apply t_quote|reflexivity]|].
  eapply os_next; [eapply o_rule; [apply env_chars|]; apply o_zom; eapply o_chars; [reflexivity|auto]|].
  eapply os_next; [eapply o_takes_yes; [apply t_quote|reflexivity]|apply os_nil].
Qed.
Lemma k_string b : cut_string b -> stuck (IR rd_string) b.
Proof.
  intros (u & -> & J). apply k_seq. eapply ks_next; [eapply o_takes_yes; [apply t_quote|reflexivity]|]. apply ks_here. eapply k_rule; [apply env_chars|]. apply k_zom. eapply k_chars; eauto.
Qed.
Lemma string_run b : (exists s b', b = s ++ b' /\ j_string s /\ out (IR rd_string) b true b') \/ out (IR rd_string) b false b \/ cut_string b.
Proof.
  destruct (first (is 0x22) b) eqn:F.
  2:{ right. left. eapply o_seq_no, os_stop, o_takes_no; [apply t_quote|auto]. }
  destruct b as [|x b]; [discriminate|]. cbn [first] in F. apply is_eq in F as ->.
  destruct (chars_run (length b) b (le_n _)) as [(u & b' & -> & J & O)|J]; [|right; right; exists b; auto].
  assert (O2 : out (IR (RRule jCharacters)) (u ++ b') true b') by (eapply o_rule; [apply env_chars|]; apply o_zom; auto).
  destruct (first (is 0x22) b') eqn:G.
  - left. destruct b' as [|y b']; [discriminate|]. cbn [first] in G. apply is_eq in G as ->. exists (x22 :: u ++ [x22]), b'.
    split; [cbn; rewrite <- app_assoc; auto|]. split; [exists u; auto|]. apply o_seq. eapply os_next; [eapply o_takes_yes; [apply t_quote|reflexivity]|].
    eapply os_next; [exact O2|]. eapply os_next; [eapply o_takes_yes; [apply t_quote|reflexivity]|apply os_nil].
  - right. left. eapply o_seq_no, os_next; [eapply o_takes_yes; [apply t_quote|reflexivity]|]. eapply os_next; [exact O2|]. eapply os_stop, o_takes_no; [apply t_quote|auto].
Qed.

(* ------------------------------------------------- every text: word, failure or cut *)

Definition run (i : item) (J K : bytes -> Prop) (b : bytes) : Prop :=
  (exists w b', b = w ++ b' /\ J w /\ out i b true b') \/ out i b false b \/ K b.
Lemma run_rule k r (J K : bytes -> Prop) b : r_reader (get_rule E k) = Some r -> run (IR r) J K b -> run (IR (RRule k)) J K b.
Proof.
  intros H [(w & b' & Q & Jw & O)|[O|Kb]]; [left; exists w, b'; repeat (split; auto); eapply o_rule; eauto|right; left; eapply o_rule; eauto|right; right; auto].
Qed.
Lemma run_any_nil (J K : bytes -> Prop) b : run (IAny []) J K b.
Proof. right. left. apply oa_nil. Qed.
Lemma run_any_cons r rs (J K : bytes -> Prop) b : run (IR r) J K b -> run (IAny rs) J K b -> run (IAny (r :: rs)) J K b.
Proof.
  intros [(w & b' & Q & Jw & O)|[O|Kb]] R; [left; exists w, b'; repeat (split; auto); apply oa_hit; auto| |right; right; auto].
  destruct R as [(w & b' & Q & Jw & O2)|[O2|Kb]]; [left; exists w, b'; repeat (split; auto); eapply oa_next; eauto|right; left; eapply oa_next; eauto|right; right; auto].
Qed.
Lemma run_any rs (J K : bytes -> Prop) b : run (IAny rs) J K b -> run (IR (RAny rs)) J K b.
Proof.
  intros [(w & b' & Q & Jw & O)|[O|Kb]]; [left; exists w, b'; repeat (split; auto); apply o_any; auto|right; left; eapply o_any_no; eauto|right; right; auto].
Qed.
Lemma run_weaken i (J K J' K' : bytes -> Prop) b : (forall w, J w -> J' w) -> (forall w, K w -> K' w) -> run i J K b -> run i J' K' b.
Proof. intros H1 H2 [(w & b' & Q & Jw & O)|[O|Kb]]; [left; exists w, b'; auto|right; left; auto|right; right; auto]. Qed.
Lemma run_lit x b (J K : bytes -> Prop) : J x -> run (IR (RLit x)) J K b.
Proof. intros H. destruct (lit_cases x b) as [[t ->]|N]; [left; exists x, t; repeat (split; auto); apply o_lit|right; left; apply o_lit_no; auto]. Qed.
Lemma t_comma : takes E (RRune 0x2C) (is 0x2C). Proof. apply t_rune; lia. Qed.
Lemma first_is n b : first (is n) b = true -> exists t, b = zb n :: t.
Proof. destruct b as [|x b]; [discriminate|]. cbn [first]. intros H. apply is_eq in H as ->. eauto. Qed.

(** A list separated by commas. *)
Section List.
Context (k : nat) (J Js K Ks : bytes -> Prop) (single : forall x, J x -> Js x) (cons : forall x l, J x -> Js l -> Js (x ++ lit "," ++ l))
  (ksingle : forall x, K x -> Ks x) (kcons : forall x l, J x -> Ks l -> Ks (x ++ lit "," ++ l))
  (n : nat) (IH : forall b, (length b < n)%nat -> run (IR (RRule k)) J K b).
Lemma more_run : forall m b, (length b <= m)%nat -> (length b < n)%nat ->
  (exists l b', b = l ++ b' /\ (forall x, J x -> Js (x ++ l)) /\ out (IRep (rd_more k)) b true b') \/ (forall x, J x -> Ks (x ++ b)).
Proof.
  induction m as [|m IHm]; intros b Hm Hn.
  { destruct b; cbn in Hm; [|lia]. left. exists [], []. split; auto. split; [intros; rewrite app_nil_r; auto|]. eapply or_stop, o_seq_no, os_stop, o_takes_no; [apply t_comma|auto]. }
  assert (St : out (IR (rd_more k)) b false b -> (exists l b', b = l ++ b' /\ (forall x, J x -> Js (x ++ l)) /\ out (IRep (rd_more k)) b true b')).
  { intros O. exists [], b. split; auto. split; [intros; rewrite app_nil_r; auto|]. eapply or_stop; eauto. }
  destruct (first (is 0x2C) b) eqn:F.
  2:{ left. apply St. eapply o_seq_no, os_stop, o_takes_no; [apply t_comma|auto]. }
  apply first_is in F as [t ->]. cbn [length] in *. destruct (IH t ltac:(lia)) as [(w & b' & -> & Jw & O)|[O|Kb]].
  - rewrite app_length in *. assert (O1 : out (IR (rd_more k)) (zb 0x2C :: w ++ b') true b').
    { apply o_seq. eapply os_next; [eapply o_takes_yes; [apply t_comma|reflexivity]|]. eapply os_next; [exact O|apply os_nil]. }
    destruct (IHm b' ltac:(lia) ltac:(lia)) as [(l & b2 & -> & Jl & O2)|Kl].
    + left. exists (lit "," ++ w ++ l), b2. split; [cbn; rewrite <- app_assoc; auto|]. split; [intros x Jx; apply cons; auto|]. eapply or_next; eauto.
    + right. intros x Jx. apply (kcons x (w ++ b')); auto.
  - left. apply St. eapply o_seq_no, os_next; [eapply o_takes_yes; [apply t_comma|reflexivity]|]. apply os_stop. exact O.
  - right. intros x Jx. apply (kcons x t); auto.
Qed.
Lemma list_run b : (length b < n)%nat -> run (IR (RSeq [RRule k; RZom (rd_more k)])) Js Ks b.
Proof.
  intros Hn. destruct (IH b Hn) as [(w & b' & -> & Jw & O)|[O|Kb]].
  - rewrite app_length in Hn. destruct (more_run (length b') b' ltac:(lia) ltac:(lia)) as [(l & b2 & -> & Jl & O2)|Kl]; [|right; right; auto].
    left. exists (w ++ l), b2. split; [rewrite <- app_assoc; auto|]. split; [auto|]. apply o_seq. eapply os_next; [exact O|]. eapply os_next; [apply o_zom; exact O2|apply os_nil].
  - right. left. eapply o_seq_no, os_stop. exact O.
  - right. right. auto.
Qed.
End List.
(** Something in brackets. *)
Lemma bracket_run o c k (J K J' K' : bytes -> Prop) b : 0 <= o < 128 -> 0 <= c < 128 ->
  (forall b', (length b' < length b)%nat -> run (IR (RRule k)) J K b') ->
  (forall l, J l -> J' (zb o :: l ++ [zb c])) -> (forall w, j_ws w -> J' (zb o :: w ++ [zb c])) -> (forall l, K l -> K' (zb o :: l)) ->
  run (IR (RSeq [RRune o; RAny [RRule k; RRule jWS]; RRune c])) J' K' b.
Proof.
  intros Ho Hc IH H1 H2 H3. destruct (first (is o) b) eqn:F.
  2:{ right. left. eapply o_seq_no, os_stop, o_takes_no; [apply t_rune; auto|auto]. }
  apply first_is in F as [t ->]. assert (To : is o (zb o) = true) by (unfold is; rewrite bz_zb by lia; lia). assert (Tc : is c (zb c) = true) by (unfold is; rewrite bz_zb by lia; lia).
  assert (M : (exists w b', t = w ++ b' /\ (J w \/ j_ws w) /\ out (IR (RAny [RRule k; RRule jWS])) t true b') \/ K t).
  { destruct (IH t) as [(w & b' & -> & Jw & O)|[O|Kb]]; [cbn; lia| | |auto].
    - left. exists w, b'. split; auto. split; auto. apply o_any, oa_hit. exact O.
    - left. destruct (ws_run t) as (w & b' & Q & W & _ & O2). exists w, b'. split; auto. split; auto. eapply o_any, oa_next; [exact O|]. apply oa_hit. exact O2. }
  destruct M as [(w & b' & -> & W & O)|Kt]; [|right; right; auto].
  destruct (first (is c) b') eqn:G.
  - apply first_is in G as [t ->]. left. exists (zb o :: w ++ [zb c]), t. split; [cbn; rewrite <- app_assoc; auto|]. split; [destruct W; auto|].
    apply o_seq. eapply os_next; [eapply o_takes_yes; [apply t_rune; auto|auto]|]. eapply os_next; [exact O|]. eapply os_next; [eapply o_takes_yes; [apply t_rune; auto|auto]|apply os_nil].
  - right. left. eapply o_seq_no, os_next; [eapply o_takes_yes; [apply t_rune; auto|auto]|]. eapply os_next; [exact O|]. eapply os_stop, o_takes_no; [apply t_rune; auto|auto].
Qed.

Definition rule_of (s : jsort) : nat := match s with Value => jValue | Member => jMember | Members => jMembers | Element => jElement | Elements => jElements end.
Definition runs (s : jsort) (b : bytes) : Prop := run (IR (RRule (rule_of s))) (json_text s) (cut s) b.
Lemma string_runs b : run (IR rd_string) j_string cut_string b.
Proof. destruct (string_run b) as [X|[X|X]]; [left|right; left|right; right]; auto. Qed.

Lemma runs_step n : (forall b, (length b < n)%nat -> runs Element b) ->
  (forall b, (length b < n)%nat -> runs Member b /\ runs Members b /\ runs Elements b) /\ (forall b, (length b <= n)%nat -> runs Value b /\ runs Element b).
Proof.
  intros IH.
  (* member *)
  assert (Mem : forall b, (length b < n)%nat -> runs Member b).
  { intros b Hb. eapply run_rule; [apply env_member|]. destruct (ws_run b) as (w1 & b1 & -> & W1 & F1 & O1). rewrite app_length in Hb.
    assert (No : out (IR (RRule jKey)) b1 false b1 -> out (IR (RSeq [RRule jWS; RRule jKey; RRule jWS; RRune 0x3A; RRule jElement])) (w1 ++ b1) false (w1 ++ b1)).
    { intros O. eapply o_seq_no, os_next; [exact O1|]. apply os_stop. exact O. }
    destruct (string_run b1) as [(k & b2 & -> & Sk & O2)|[O2|C]].
    - rewrite app_length in Hb. destruct (ws_run b2) as (w2 & b3 & -> & W2 & F2 & O3). rewrite app_length in Hb.
      assert (O2' : out (IR (RRule jKey)) (k ++ w2 ++ b3) true (w2 ++ b3)) by (eapply o_rule; [apply env_key|exact O2]).
      destruct (first (is 0x3A) b3) eqn:F.
      + apply first_is in F as [b4 ->]. cbn [length] in Hb.
        assert (O4 : out (IR (RRune 0x3A)) (zb 0x3A :: b4) true b4) by (eapply o_takes_yes; [apply t_rune; lia|reflexivity]).
        destruct (IH b4 ltac:(lia)) as [(x & b5 & -> & Jx & O5)|[O5|Cx]].
        * left. exists (w1 ++ k ++ w2 ++ lit ":" ++ x), b5. split; [rewrite <- !app_assoc; auto|]. split; [apply jt_member; auto|].
          apply o_seq. eapply os_next; [exact O1|]. eapply os_next; [exact O2'|]. eapply os_next; [exact O3|]. eapply os_next; [exact O4|]. eapply os_next; [exact O5|apply os_nil].
        * right. left. eapply o_seq_no, os_next; [exact O1|]. eapply os_next; [exact O2'|]. eapply os_next; [exact O3|]. eapply os_next; [exact O4|]. apply os_stop. exact O5.
        * right. right. apply (cut_member w1 k w2 b4); auto.
      + right. left. eapply o_seq_no, os_next; [exact O1|]. eapply os_next; [exact O2'|]. eapply os_next; [exact O3|]. eapply os_stop, o_takes_no; [apply t_rune; lia|auto].
    - right. left. apply No. eapply o_rule; [apply env_key|exact O2].
    - right. right. apply cut_key; auto. }
  assert (Els : forall b, (length b < n)%nat -> runs Elements b).
  { intros b' Hb'. eapply run_rule; [apply env_elements|]. eapply list_run with (n := n); [exact jt_elements1|exact jt_elements|exact cut_elements1|exact cut_elements|exact IH|auto]. }
  assert (Mems : forall b, (length b < n)%nat -> runs Members b).
  { intros b' Hb'. eapply run_rule; [apply env_members|]. eapply list_run with (n := n); [exact jt_members1|exact jt_members|exact cut_members1|exact cut_members|exact Mem|auto]. }
  assert (Val : forall b, (length b <= n)%nat -> runs Value b).
  { intros b Hb. eapply run_rule; [apply env_value|]. apply run_any. repeat apply run_any_cons; [| | | | | |apply run_any_nil].
    - eapply run_rule; [apply env_object|]. apply (bracket_run 0x7B 0x7D jMembers (json_text Members) (cut Members)); try lia.
      + intros b' Hb'. apply Mems. lia.
      + intros l Jl. exact (jt_object l Jl).
      + intros l Jl. exact (jt_object0 l Jl).
      + intros l Jl. exact (cut_object l Jl).
    - eapply run_rule; [apply env_array|]. apply (bracket_run 0x5B 0x5D jElements (json_text Elements) (cut Elements)); try lia.
      + intros b' Hb'. apply Els. lia.
      + intros l Jl. exact (jt_array l Jl).
      + intros l Jl. exact (jt_array0 l Jl).
      + intros l Jl. exact (cut_array l Jl).
    - eapply run_rule; [apply env_string|]. eapply run_weaken; [apply jt_string|apply cut_str|apply string_runs].
    - destruct (number_run b) as [(w & b' & Q & Jw & O)|O]; [left; exists w, b'; repeat (split; auto); apply jt_number; auto|right; left; auto].
    - eapply run_rule; [apply env_bool|]. apply run_any. repeat apply run_any_cons; [apply run_lit, jt_true|apply run_lit, jt_false|apply run_any_nil].
    - eapply run_rule; [apply env_null|]. apply run_lit, jt_null. }
  split; [auto|]. intros b Hb. split; [auto|]. eapply run_rule; [apply env_element|]. destruct (ws_run b) as (w1 & b1 & -> & W1 & F1 & O1). rewrite app_length in Hb.
  destruct (Val b1 ltac:(lia)) as [(v & b2 & -> & Jv & O2)|[O2|Cv]].
  - destruct (ws_run b2) as (w2 & b3 & -> & W2 & F2 & O3). left. exists (w1 ++ v ++ w2), b3. split; [rewrite <- !app_assoc; auto|]. split; [apply jt_element; auto|].
    apply o_seq. eapply os_next; [exact O1|]. eapply os_next; [exact O2|]. eapply os_next; [exact O3|apply os_nil].
  - right. left. eapply o_seq_no, os_next; [exact O1|]. apply os_stop. exact O2.
  - right. right. apply cut_element; auto.
Qed.
Lemma element_runs : forall n b, (length b < n)%nat -> runs Element b.
Proof. induction n as [|n IH]; intros b Hb; [lia|]. apply (runs_step n IH). lia. Qed.
Lemma value_runs b : runs Value b.
Proof. apply (runs_step (length b) (element_runs (length b))). lia. Qed.

(* ------------------------------------------------------------- every word is read *)

(** What may follow. *)
Definition follow (b : bytes) : Prop := first b_ws b = false /\ no_frac b.
Definition ends (b : bytes) : Prop := follow b /\ first (is 0x2C) b = false.
Lemma follow_ws w b : j_ws w -> follow b -> no_frac (w ++ b).
Proof.
  intros W [F N]. destruct W as [|x w X _]; [exact N|]. cbn [app]. unfold no_frac, no_exp. cbn [first]. destruct X as [<-|[<-|[<-|[<-|[]]]]]; auto.
Qed.
Lemma no_first g x b : g x = false -> first g (x :: b) = false.
Proof. auto. Qed.
Lemma o_object_no b : first (is 0x7B) b = false -> out (IR (RRule jObject)) b false b.
Proof. intros F. eapply o_rule; [apply env_object|]. eapply o_seq_no, os_stop, o_takes_no; [apply t_rune; lia|auto]. Qed.
Lemma o_array_no b : first (is 0x5B) b = false -> out (IR (RRule jArray)) b false b.
Proof. intros F. eapply o_rule; [apply env_array|]. eapply o_seq_no, os_stop, o_takes_no; [apply t_rune; lia|auto]. Qed.
Lemma o_string_no k b : r_reader (get_rule E k) = Some rd_string -> first (is 0x22) b = false -> out (IR (RRule k)) b false b.
Proof. intros R F. eapply o_rule; [exact R|]. eapply o_seq_no, os_stop, o_takes_no; [apply t_rune; lia|auto]. Qed.
Lemma o_number_no b : first (is 0x2D) b = false -> first b_dig b = false -> out (IR (RRule jNumber)) b false b.
Proof.
  intros F1 F2. eapply o_rule; [apply env_number|]. eapply o_seq_no, os_stop. eapply o_rule; [apply env_int|]. eapply o_seq_no, os_next; [eapply o_opt_no, o_takes_no; [apply t_minus|auto]|].
  eapply os_stop. eapply o_any_no, oa_next; [eapply o_takes_no; [apply t_zero|]|].
  { destruct b as [|x b]; auto. cbn [first] in *. unfold b_dig, within, is in *. lia. }
  eapply oa_next; [|apply oa_nil]. eapply o_seq_no, os_stop, o_takes_no; [apply t_onenine|]. destruct b as [|x b]; auto. cbn [first] in *. unfold b_dig, b_onenine, within in *. lia.
Qed.
Lemma o_bool_no b : first (is 0x74) b = false -> first (is 0x66) b = false -> out (IR (RRule jBool)) b false b.
Proof.
  intros F1 F2. eapply o_rule; [apply env_bool|]. eapply o_any_no, oa_next; [apply o_lit_no; intros t ->; discriminate|]. eapply oa_next; [apply o_lit_no; intros t ->; discriminate|apply oa_nil].
Qed.
Lemma o_null_no b : first (is 0x6E) b = false -> out (IR (RRule jNull)) b false b.
Proof. intros F1. eapply o_rule; [apply env_null|]. apply o_lit_no; intros t ->; discriminate. Qed.
Ltac nofirst := cbn [app first lit]; solve [reflexivity | unfold is, b_dig, within in *; lia].
Lemma o_value_close x b : x = x5d \/ x = x7d -> out (IR (RRule jValue)) (x :: b) false (x :: b).
Proof.
  intros X. eapply o_rule; [apply env_value|]. eapply o_any_no.
  eapply oa_next; [apply o_object_no; destruct X as [->| ->]; reflexivity|]. eapply oa_next; [apply o_array_no; destruct X as [->| ->]; reflexivity|].
  eapply oa_next; [apply o_string_no; [apply env_string|destruct X as [->| ->]; reflexivity]|]. eapply oa_next; [apply o_number_no; destruct X as [->| ->]; reflexivity|].
  eapply oa_next; [apply o_bool_no; destruct X as [->| ->]; reflexivity|]. eapply oa_next; [apply o_null_no; destruct X as [->| ->]; reflexivity|apply oa_nil].
Qed.
Lemma number_first n : j_number n -> exists x t, n = x :: t /\ (x = x2d \/ dig x).
Proof.
  intros (i & f & x & -> & (m & k & -> & M & N) & _). destruct M as [->| ->]; [|cbn; eauto].
  destruct N as [->|(y & d & -> & Y & _)]; cbn [app]; eexists _, _; (split; [reflexivity|]); right; unfold dig; [cbn; lia|lia].
Qed.
Lemma string_first s : j_string s -> exists t, s = x22 :: t.
Proof. intros (u & -> & _). eauto. Qed.
Lemma value_first v b : json_text Value v -> first b_ws (v ++ b) = false.
Proof.
  intros H. inversion H; subst; try reflexivity.
  - destruct H0 as (u & -> & _). reflexivity.
  - apply number_first in H0 as (x & t & -> & X). cbn [app first]. destruct X as [->|X]; [reflexivity|]. unfold b_ws, is, dig in *. lia.
Qed.

Definition read_as (s : jsort) (w : bytes) : Prop :=
  match s with
  | Value => forall b, no_frac b -> out (IR (RRule jValue)) (w ++ b) true b
  | Element => forall b, follow b -> out (IR (RRule jElement)) (w ++ b) true b
  | Member => forall b, follow b -> out (IR (RRule jMember)) (w ++ b) true b
  | Elements => forall b, ends b -> exists b1, out (IR (RRule jElement)) (w ++ b) true b1 /\ out (IRep (rd_more jElement)) b1 true b
  | Members => forall b, ends b -> exists b1, out (IR (RRule jMember)) (w ++ b) true b1 /\ out (IRep (rd_more jMember)) b1 true b
  end.
Lemma more_stop k b : first (is 0x2C) b = false -> out (IRep (rd_more k)) b true b.
Proof. intros F. eapply or_stop, o_seq_no, os_stop, o_takes_no; [apply t_comma|auto]. Qed.
Lemma o_bracket o c k (w b : bytes) x : 0 <= o < 128 -> 0 <= c < 128 -> out (IR (RAny [RRule k; RRule jWS])) (w ++ zb c :: b) true (zb c :: b) -> x = zb o ->
  out (IR (RSeq [RRune o; RAny [RRule k; RRule jWS]; RRune c])) (x :: w ++ zb c :: b) true b.
Proof.
  intros Ho Hc O ->. assert (To : is o (zb o) = true) by (unfold is; rewrite bz_zb by lia; lia). assert (Tc : is c (zb c) = true) by (unfold is; rewrite bz_zb by lia; lia).
  apply o_seq. eapply os_next; [eapply o_takes_yes; [apply t_rune; auto|auto]|]. eapply os_next; [exact O|]. eapply os_next; [eapply o_takes_yes; [apply t_rune; auto|auto]|apply os_nil].
Qed.
Lemma ends_close x b : x = x5d \/ x = x7d -> ends (x :: b).
Proof. intros [->| ->]; repeat split; reflexivity. Qed.
Lemma follow_comma b : follow (x2c :: b).
Proof. repeat split; reflexivity. Qed.

Lemma bracketed (o c : string) (w b : bytes) : (lit o ++ w ++ lit c) ++ b = lit o ++ w ++ lit c ++ b.
Proof. rewrite <- !app_assoc. reflexivity. Qed.
Lemma words_read s w : json_text s w -> read_as s w.
Proof.
  induction 1 as [w W|m H IH|w W|l H IH|w Sw|w Nw| | | |w1 k w2 x W1 Sk W2 H IH|m H IH|m l H1 IH1 H2 IH2|w1 v w2 W1 H IH W2|x H IH|x l H1 IH1 H2 IH2]; cbn [read_as] in *; intros b Fb.
  - eapply o_rule; [apply env_value|]. apply o_any, oa_hit. eapply o_rule; [apply env_object|]. rewrite bracketed. apply (o_bracket 0x7B 0x7D); try lia; [|reflexivity].
    eapply o_any, oa_next; [|apply oa_hit, o_ws; [exact W|reflexivity]]. eapply o_rule; [apply env_members|]. eapply o_seq_no, os_stop. eapply o_rule; [apply env_member|].
    eapply o_seq_no, os_next; [apply o_ws; [exact W|reflexivity]|]. apply os_stop. apply o_string_no; [apply env_key|reflexivity].
  - eapply o_rule; [apply env_value|]. apply o_any, oa_hit. eapply o_rule; [apply env_object|]. rewrite bracketed. apply (o_bracket 0x7B 0x7D); try lia; [|reflexivity].
    apply o_any, oa_hit. eapply o_rule; [apply env_members|]. destruct (IH (x7d :: b) (ends_close _ _ (or_intror eq_refl))) as (b1 & O1 & O2). apply o_seq.
    eapply os_next; [exact O1|]. eapply os_next; [apply o_zom; exact O2|apply os_nil].
  - eapply o_rule; [apply env_value|]. eapply o_any, oa_next; [apply o_object_no; reflexivity|]. apply oa_hit. eapply o_rule; [apply env_array|]. rewrite bracketed.
    apply (o_bracket 0x5B 0x5D); try lia; [|reflexivity].
    eapply o_any, oa_next; [|apply oa_hit, o_ws; [exact W|reflexivity]]. eapply o_rule; [apply env_elements|]. eapply o_seq_no, os_stop. eapply o_rule; [apply env_element|].
    eapply o_seq_no, os_next; [apply o_ws; [exact W|reflexivity]|]. apply os_stop. apply o_value_close. auto.
  - eapply o_rule; [apply env_value|]. eapply o_any, oa_next; [apply o_object_no; reflexivity|]. apply oa_hit. eapply o_rule; [apply env_array|]. rewrite bracketed.
    apply (o_bracket 0x5B 0x5D); try lia; [|reflexivity].
    apply o_any, oa_hit. eapply o_rule; [apply env_elements|]. destruct (IH (x5d :: b) (ends_close _ _ (or_introl eq_refl))) as (b1 & O1 & O2). apply o_seq.
    eapply os_next; [exact O1|]. eapply os_next; [apply o_zom; exact O2|apply os_nil].
  - pose proof (o_string w b Sw) as O. apply string_first in Sw as [t ->]. eapply o_rule; [apply env_value|]. eapply o_any, oa_next; [apply o_object_no; reflexivity|].
    eapply oa_next; [apply o_array_no; reflexivity|]. apply oa_hit. eapply o_rule; [apply env_string|exact O].
  - pose proof (o_number w b Nw Fb) as O. apply number_first in Nw as (x & t & -> & X). cbn [app] in *. eapply o_rule; [apply env_value|].
    assert (N : forall n, n = 0x7B \/ n = 0x5B \/ n = 0x22 -> first (is n) (x :: t ++ b) = false).
    { intros n Hn. cbn [first]. destruct X as [->|X]; [destruct Hn as [->|[->| ->]]; reflexivity|]. unfold is, dig in *. lia. }
    eapply o_any, oa_next; [apply o_object_no; apply N; auto|]. eapply oa_next; [apply o_array_no, N; auto|]. eapply oa_next; [apply o_string_no; [apply env_string|apply N; auto]|].
    apply oa_hit. exact O.
  - eapply o_rule; [apply env_value|]. eapply o_any, oa_next; [apply o_object_no; reflexivity|]. eapply oa_next; [apply o_array_no; reflexivity|].
    eapply oa_next; [apply o_string_no; [apply env_string|reflexivity]|]. eapply oa_next; [apply o_number_no; reflexivity|]. apply oa_hit. eapply o_rule; [apply env_bool|].
    apply o_any, oa_hit, o_lit.
  - eapply o_rule; [apply env_value|]. eapply o_any, oa_next; [apply o_object_no; reflexivity|]. eapply oa_next; [apply o_array_no; reflexivity|].
    eapply oa_next; [apply o_string_no; [apply env_string|reflexivity]|]. eapply oa_next; [apply o_number_no; reflexivity|]. apply oa_hit. eapply o_rule; [apply env_bool|].
    eapply o_any, oa_next; [apply o_lit_no; intros t; discriminate|]. apply oa_hit, o_lit.
  - eapply o_rule; [apply env_value|]. eapply o_any, oa_next; [apply o_object_no; reflexivity|]. eapply oa_next; [apply o_array_no; reflexivity|].
    eapply oa_next; [apply o_string_no; [apply env_string|reflexivity]|]. eapply oa_next; [apply o_number_no; reflexivity|]. eapply oa_next; [apply o_bool_no; reflexivity|].
    apply oa_hit. eapply o_rule; [apply env_null|]. apply o_lit.
  - eapply o_rule; [apply env_member|]. apply o_seq. rewrite <- !app_assoc. eapply os_next; [apply o_ws; auto; apply string_first in Sk as [t ->]; reflexivity|].
    eapply os_next; [eapply o_rule; [apply env_key|apply o_string; auto]|]. eapply os_next; [apply o_ws; auto|]. eapply os_next; [eapply o_takes_yes; [apply t_rune; lia|reflexivity]|].
    eapply os_next; [apply IH; auto|apply os_nil].
  - exists b. split; [apply IH; apply Fb|apply more_stop; apply Fb].
  - destruct (IH2 b Fb) as (b1 & O1 & O2). exists (x2c :: l ++ b). rewrite <- !app_assoc. split; [apply IH1; apply follow_comma|].
    eapply or_next; [|exact O2]. apply o_seq. eapply os_next; [eapply o_takes_yes; [apply t_comma|reflexivity]|]. eapply os_next; [exact O1|apply os_nil].
  - eapply o_rule; [apply env_element|]. apply o_seq. rewrite <- !app_assoc. eapply os_next; [apply o_ws; [exact W1|apply value_first; auto]|].
    eapply os_next; [apply IH; apply follow_ws; auto|]. eapply os_next; [apply o_ws; [exact W2|apply Fb]|apply os_nil].
  - exists b. split; [apply IH; apply Fb|apply more_stop; apply Fb].
  - destruct (IH2 b Fb) as (b1 & O1 & O2). exists (x2c :: l ++ b). rewrite <- !app_assoc. split; [apply IH1; apply follow_comma|].
    eapply or_next; [|exact O2]. apply o_seq. eapply os_next; [eapply o_takes_yes; [apply t_comma|reflexivity]|]. eapply os_next; [exact O1|apply os_nil].
Qed.

(* ------------------------------------------------------------- cut texts have no outcome *)

Definition stuck_as (s : jsort) (w : bytes) : Prop :=
  match s with
  | Value => stuck (IR (RRule jValue)) w
  | Element => stuck (IR (RRule jElement)) w
  | Member => stuck (IR (RRule jMember)) w
  | Elements => stuck (IR (RRule jElement)) w \/ exists b1, out (IR (RRule jElement)) w true b1 /\ stuck (IRep (rd_more jElement)) b1
  | Members => stuck (IR (RRule jMember)) w \/ exists b1, out (IR (RRule jMember)) w true b1 /\ stuck (IRep (rd_more jMember)) b1
  end.
Lemma stuck_list ks k w : r_reader (get_rule E ks) = Some (RSeq [RRule k; RZom (rd_more k)]) ->
  stuck (IR (RRule k)) w \/ (exists b1, out (IR (RRule k)) w true b1 /\ stuck (IRep (rd_more k)) b1) -> stuck (IR (RRule ks)) w.
Proof.
  intros R [H|(b1 & O & H)]; (eapply k_rule; [exact R|]); apply k_seq; [apply ks_here; auto|]. eapply ks_next; [exact O|]. apply ks_here, k_zom. auto.
Qed.
Lemma stuck_more k m l : out (IR (RRule k)) (m ++ x2c :: l) true (x2c :: l) -> 
  stuck (IR (RRule k)) l \/ (exists b1, out (IR (RRule k)) l true b1 /\ stuck (IRep (rd_more k)) b1) ->
  exists b1, out (IR (RRule k)) (m ++ x2c :: l) true b1 /\ stuck (IRep (rd_more k)) b1.
Proof.
  intros O H. exists (x2c :: l). split; auto. assert (C : out (IR (RRune 0x2C)) (x2c :: l) true l) by (eapply o_takes_yes; [apply t_comma|reflexivity]).
  destruct H as [H|(b1 & O1 & H)].
  - apply kr_here, k_seq. eapply ks_next; [exact C|]. apply ks_here. auto.
  - eapply kr_next; [|exact H]. apply o_seq. eapply os_next; [exact C|]. eapply os_next; [exact O1|apply os_nil].
Qed.
Lemma cut_first v : cut Value v -> first b_ws v = false.
Proof. intros H. inversion H; subst; try reflexivity. destruct H0 as (u & -> & _). reflexivity. Qed.
Lemma cut_stuck s w : cut s w -> stuck_as s w.
Proof.
  induction 1 as [b C|m H IH|l H IH|w b W C|w1 k w2 x W1 Sk W2 H IH|m H IH|m l J H IH|w v W H IH|x H IH|x l J H IH]; cbn [stuck_as] in *.
  - pose proof (k_string b C) as K. destruct C as (u & -> & _). eapply k_rule; [apply env_value|]. apply k_any. eapply ka_next; [apply o_object_no; reflexivity|].
    eapply ka_next; [apply o_array_no; reflexivity|]. apply ka_here. eapply k_rule; [apply env_string|exact K].
  - eapply k_rule; [apply env_value|]. apply k_any, ka_here. eapply k_rule; [apply env_object|]. apply k_seq. cbn [app lit]. eapply ks_next; [eapply o_takes_yes; [apply t_rune; lia|reflexivity]|].
    apply ks_here, k_any, ka_here. eapply stuck_list; [apply env_members|exact IH].
  - eapply k_rule; [apply env_value|]. apply k_any. eapply ka_next; [apply o_object_no; reflexivity|]. apply ka_here. eapply k_rule; [apply env_array|]. apply k_seq. cbn [app lit].
    eapply ks_next; [eapply o_takes_yes; [apply t_rune; lia|reflexivity]|]. apply ks_here, k_any, ka_here. eapply stuck_list; [apply env_elements|exact IH].
  - eapply k_rule; [apply env_member|]. apply k_seq. eapply ks_next; [apply o_ws; auto; destruct C as (u & -> & _); reflexivity|]. apply ks_here. eapply k_rule; [apply env_key|]. apply k_string; auto.
  - eapply k_rule; [apply env_member|]. apply k_seq. eapply ks_next; [apply o_ws; auto; apply string_first in Sk as [t ->]; reflexivity|].
    eapply ks_next; [eapply o_rule; [apply env_key|apply o_string; auto]|]. eapply ks_next; [apply o_ws; auto|]. cbn [app lit]. eapply ks_next; [eapply o_takes_yes; [apply t_rune; lia|reflexivity]|].
    apply ks_here. exact IH.
  - left. exact IH.
  - right. apply stuck_more; [|exact IH]. apply (words_read Member); auto. apply follow_comma.
  - eapply k_rule; [apply env_element|]. apply k_seq. eapply ks_next; [apply o_ws; auto; apply cut_first; auto|]. apply ks_here. exact IH.
  - left. exact IH.
  - right. apply stuck_more; [|exact IH]. apply (words_read Element); auto. apply follow_comma.
Qed.

(* ------------------------------------------------------------- JSON() *)

Lemma json_covered : eall covered E. Proof. apply eall_check. vm_compute. reflexivity. Qed.
Lemma json_safe : eall (safe E) E. Proof. apply eall_check. vm_compute. reflexivity. Qed.
Lemma json_safe_itself : rall (safe E) json = true. Proof. vm_compute. reflexivity. Qed.
Definition leaves_cells (r : reader) : bool := match r with RJanusEnd _ _ | RWrap _ _ => false | _ => true end.
Lemma json_local : eallP no_janus_end E.
Proof.
  intros i r R. assert (H : eall leaves_cells E) by (apply eall_check; vm_compute; reflexivity). specialize (H i r R). apply rallP_rall in H.
  eapply rallP_impl; [|exact H]. intros q. destruct q; cbn; auto; discriminate.
Qed.
Lemma json_eats c b ok c' b' : eats E (IR json) c b ok c' b' <-> eats E (IR (RRule jElement)) c b ok c' b'.
Proof. apply grammar_is_rule. Qed.
Lemma json_run b : run (IR json) (json_text Element) (cut Element) b.
Proof.
  destruct (element_runs (S (length b)) b (le_n _)) as [(w & b' & Q & J & O)|[O|C]].
  - left. exists w, b'. split; auto. split; auto. intros c. apply json_eats, O.
  - right. left. intros c. apply json_eats, O.
  - right. right. exact C.
Qed.
Lemma json_stuck b : cut Element b -> stuck (IR json) b.
Proof. intros C c ok c' b' D. apply json_eats in D. exact (cut_stuck Element b C c ok c' b' D). Qed.
End Json.
