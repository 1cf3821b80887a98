(** JsonBlame.v - the error of JSON(). *)
From Verif Require Export JsonFacts Blame.
From Verif Require Import ReaderSteps ReaderLaws.
From Coq Require Import Lia ZifyBool.

(** [m] is the longest beginning of [m ++ r] in [P]. *)
Definition longest (P : bytes -> Prop) (m r : bytes) : Prop := P m /\ forall d r', r = d ++ r' -> P (m ++ d) -> d = [].
Definition inside (s : jsort) (m : bytes) : Prop := json_text s m \/ j_ws m.

(** The value [v] is wrong: behind [u], where [w] was expected. *)
Definition starts (P : byte -> Prop) (b : bytes) : Prop := exists x r, b = x :: r /\ P x.
Inductive wrong : bytes -> bytes -> bytes -> Prop :=
| wr_object m r : longest (inside Members) m r -> ~ starts (eq x7d) r -> wrong (lit "{" ++ m ++ r) (lit "{" ++ m) (lit "'}'")
| wr_array m r : longest (inside Elements) m r -> ~ starts (eq x5d) r -> wrong (lit "[" ++ m ++ r) (lit "[" ++ m) (lit "']'")
| wr_string u r : longest j_chars u r -> ~ starts (eq x22) r -> wrong (x22 :: u ++ r) (x22 :: u) [x27; x22; x27]
| wr_minus r : ~ starts dig r -> wrong (lit "-" ++ r) (lit "-") (lit "<19>")
| wr_other v : ~ starts (fun x => In x (x22 :: lit "{[-") \/ dig x) v -> (forall w r, In w [lit "true"; lit "false"; lit "null"] -> v <> w ++ r) ->
    wrong v [] (x22 :: lit "null" ++ [x22]).

Lemma rule_out {L : GoLib} e i r c b ok c' b' : r_reader (get_rule e i) = Some r -> eats e (IR (RRule i)) c b ok c' b' -> eats e (IR r) c b ok c' b'.
Proof. intros R H. inversion H; subst; try discriminate. congruence. Qed.

Lemma zom_seq_no {L : GoLib} e r c b c' b' : ~ eats e (ISeq [RZom r]) c b false c' b'.
Proof. intros D. apply seq_cons in D as [[_ D]|(c4 & b6 & D2 & D3)]; [apply zom_in in D as [X _]; discriminate X|]. apply seq_nil in D3 as (X & _). discriminate X. Qed.

Definition upto (P : Z -> Prop) (x : err) : Prop := exists n v, x = EReadError n v /\ P n.
Lemma loop_low xs m w : Forall (upto (fun n => n < m)) xs -> deepest_loop xs m w = EReadError m w.
Proof. induction 1 as [|x xs (n & v & -> & Hn) F IH]; auto. cbn [deepest_loop]. unfold err_later. rewrite (proj2 (Z.leb_gt _ _)) by lia. exact IH. Qed.
Lemma loop_hit xs ys m w : Forall (upto (fun n => n <= m)) xs -> Forall (upto (fun n => n < m)) ys -> forall m0 w0, m0 <= m -> deepest_loop (xs ++ EReadError m w :: ys) m0 w0 = EReadError m w.
Proof.
  intros X Y. induction X as [|x xs (n & v & -> & Hn) F IH]; intros m0 w0 H; cbn [app deepest_loop]; unfold err_later.
  - rewrite (proj2 (Z.leb_le _ _)) by lia. apply loop_low, Y.
  - destruct (m0 <=? n); apply IH; lia.
Qed.

Lemma grammar_blame {L : GoLib} t e w p i c b x : blames t e (IR (RGrammar w p i)) c b [x] -> exists y, x = EOther (p ++ err_text y) /\ blames t e (IR (RRule i)) c b [y].
Proof. intros H. inversion H; subst; try discriminate. eexists. split; [reflexivity|]. eapply b_rule; eauto. Qed.

Section JsonBlame.
Context {L : GoLib}.
Notation E := json_env.
Notation out := (out json_env).

(* ---------------------------------------------------- a word is read at least *)

Definition reaches (i : item) (w : bytes) : Prop := forall b, exists d b', b = d ++ b' /\ out i (w ++ b) true b'.
Lemma ws_reach b : exists d b', b = d ++ b' /\ j_ws d /\ out (IR (RRule jWS)) b true b'.
Proof. destruct (ws_run b) as (w & b' & -> & W & _ & O). eauto. Qed.
Lemma ws_more w b : j_ws w -> exists d b', b = d ++ b' /\ first b_ws b' = false /\ out (IR (RRule jWS)) (w ++ b) true b'.
Proof. intros W. destruct (ws_run b) as (d & b' & -> & D & F & _). exists d, b'. split; auto. split; auto. rewrite app_assoc. apply o_ws; auto. apply Forall_app. auto. Qed.
Lemma dig_span b : exists d b', b = d ++ b' /\ Forall dig d /\ first b_dig b' = false.
Proof. destruct (byte_span b_dig b) as (w & t & -> & W & F). exists w, t. split; auto. split; auto. apply (all_is dig_is). auto. Qed.
Lemma number_reach w : j_number w -> reaches (IR (RRule jNumber)) w.
Proof.
  intros (i & f & x & -> & I & F & X) b. destruct (dig_span b) as (d & t & -> & D & Nt).
  assert (Fin : forall u v, out (IR (RRule jInteger)) ((i ++ f ++ x) ++ d ++ t) true u -> out (IR (RRule jFraction)) u true v -> (exists p q, d ++ t = p ++ q /\ out (IR (RRule jExponent)) v true q) ->
    exists d0 b', d ++ t = d0 ++ b' /\ out (IR (RRule jNumber)) ((i ++ f ++ x) ++ d ++ t) true b').
  { intros u v O1 O2 (p & q & Q & O3). exists p, q. split; auto. eapply o_rule; [apply env_number|]. apply o_seq. eapply os_next; [exact O1|]. eapply os_next; [exact O2|]. eapply os_next; [exact O3|apply os_nil]. }
  destruct X as [->|(y & sg & k & -> & Y & Sg & K)].
  - destruct F as [->|(k & -> & K)].
    + (* only an integer *) rewrite !app_nil_r in *. destruct I as (m & n & -> & M & N).
      assert (O : exists p q, d ++ t = p ++ q /\ out (IR (RRule jInteger)) ((m ++ n) ++ d ++ t) true q).
      { destruct N as [->|(z & k & -> & Z & K)].
        - exists [], (d ++ t). split; auto. eapply o_rule; [apply env_int|]. apply o_seq. rewrite <- app_assoc. eapply os_next with (b1 := lit "0" ++ d ++ t).
          + destruct M as [->| ->]; [cbn [app]; eapply o_opt_no, o_takes_no; [apply t_minus|reflexivity]|apply o_opt_yes; eapply o_takes_yes; [apply t_minus|reflexivity]].
          + eapply os_next; [apply o_nat; [left; auto|congruence]|apply os_nil].
        - exists d, t. split; auto. replace ((m ++ z :: k) ++ d ++ t) with ((m ++ z :: k ++ d) ++ t) by (rewrite <- !app_assoc; cbn [app]; rewrite <- ?app_assoc; reflexivity). apply o_int; auto.
          exists m, (z :: k ++ d). split; auto. split; auto. right. exists z, (k ++ d). split; auto. split; auto. apply Forall_app. auto. }
      destruct O as (p & q & Q & O). destruct (frac_run q) as (f2 & q2 & Q2 & _ & O2). destruct (exp_run q2) as (x2 & q3 & Q3 & _ & O3).
      apply (Fin q q2 O O2). exists (p ++ f2 ++ x2), q3. split; auto. rewrite Q, Q2, Q3, !app_assoc. auto.
    + rewrite !app_nil_r in *. assert (K2 : digs (k ++ d)) by (destruct K as [K1 K]; split; [destruct k; [congruence|discriminate]|apply Forall_app; auto]).
      destruct (exp_run t) as (x2 & q3 & Q3 & _ & O3). apply (Fin (x2e :: (k ++ d) ++ t) t); [| |exists (d ++ x2), q3; split; auto; rewrite Q3, app_assoc; auto].
      * replace ((i ++ x2e :: k) ++ d ++ t) with (i ++ x2e :: (k ++ d) ++ t) by (rewrite <- !app_assoc; cbn [app]; rewrite <- ?app_assoc; reflexivity). apply o_int; auto.
      * eapply o_rule; [apply env_frac|]. apply o_opt_yes, o_seq. eapply os_next; [eapply o_takes_yes; [apply t_dot|reflexivity]|]. eapply os_next; [apply o_digits; auto|apply os_nil].
  - assert (K2 : digs (k ++ d)) by (destruct K as [K1 K]; split; [destruct k; [congruence|discriminate]|apply Forall_app; auto]).
    assert (X : j_exp (y :: sg ++ k ++ d)) by (right; exists y, sg, (k ++ d); auto).
    destruct (exp_run ((y :: sg ++ k ++ d) ++ t)) as (x2 & q3 & Q3 & _ & O3).
    assert (N1 : first (is 0x2E) ((y :: sg ++ k ++ d) ++ t) = false /\ first b_dig ((y :: sg ++ k ++ d) ++ t) = false) by (destruct Y as [->| ->]; auto).
    replace ((i ++ f ++ y :: sg ++ k) ++ d ++ t) with (i ++ f ++ (y :: sg ++ k ++ d) ++ t) in Fin by (rewrite <- !app_assoc; cbn [app]; rewrite <- ?app_assoc; reflexivity).
    replace ((i ++ f ++ y :: sg ++ k) ++ d ++ t) with (i ++ f ++ (y :: sg ++ k ++ d) ++ t) by (rewrite <- !app_assoc; cbn [app]; rewrite <- ?app_assoc; reflexivity).
    apply (Fin (f ++ (y :: sg ++ k ++ d) ++ t) ((y :: sg ++ k ++ d) ++ t)).
    + apply o_int; auto. destruct F as [->|(u & -> & _)]; auto. apply N1.
    + eapply o_rule; [apply env_frac|]. destruct F as [->|(u & -> & U)]; [eapply o_opt_no, o_seq_no, os_stop, o_takes_no; [apply t_dot|apply N1]|].
      apply o_opt_yes, o_seq. cbn [app]. eapply os_next; [eapply o_takes_yes; [apply t_dot|reflexivity]|]. eapply os_next; [apply o_digits; [auto|apply N1]|apply os_nil].
    + exists d, t. split; auto. cbn [app]. rewrite <- !app_assoc. eapply o_rule; [apply env_exp|]. apply o_opt_yes, o_seq. eapply os_next; [eapply o_takes_yes; [apply t_e|destruct Y as [-> | ->]; reflexivity]|].
      eapply os_next with (b1 := (k ++ d) ++ t); [|eapply os_next; [apply o_digits; auto|apply os_nil]]. rewrite <- !app_assoc.
      eapply o_rule; [apply env_sign|]. destruct Sg as [->|[->| ->]].
      * cbn [app]. eapply o_opt_no. eapply o_takes_no; [apply t_sign|]. destruct K as [K0 K]. destruct k as [|z k]; [congruence|]. inversion K; subst.
        cbn [app first]. unfold b_sign, is, dig in *. lia.
      * apply o_opt_yes. eapply o_takes_yes; [apply t_sign|reflexivity].
      * apply o_opt_yes. eapply o_takes_yes; [apply t_sign|reflexivity].
Qed.
(** All values but numbers are read whatever follows. *)
Lemma classic_number w : json_text Value w -> j_number w \/ forall b, out (IR (RRule jValue)) (w ++ b) true b.
Proof.
  intros H. inversion H as [w0 W|m Hm|w0 W|l Hl|w0 Sw|w0 Nw| | | | | | | | |]; subst; auto; right; intros b.
  - eapply o_rule; [apply env_value|]. apply o_any, oa_hit. eapply o_rule; [apply env_object|]. rewrite bracketed. apply (o_bracket 0x7B 0x7D); try lia; [|reflexivity].
    eapply o_any, oa_next; [|apply oa_hit, o_ws; [exact W|reflexivity]]. eapply o_rule; [apply env_members|]. eapply o_seq_no, os_stop. eapply o_rule; [apply env_member|].
    eapply o_seq_no, os_next; [apply o_ws; [exact W|reflexivity]|]. apply os_stop. apply o_string_no; [apply env_key|reflexivity].
  - eapply o_rule; [apply env_value|]. apply o_any, oa_hit. eapply o_rule; [apply env_object|]. rewrite bracketed. apply (o_bracket 0x7B 0x7D); try lia; [|reflexivity].
    apply o_any, oa_hit. eapply o_rule; [apply env_members|]. destruct (words_read _ _ Hm (x7d :: b) (ends_close _ _ (or_intror eq_refl))) as (b1 & O1 & O2). apply o_seq.
    eapply os_next; [exact O1|]. eapply os_next; [apply o_zom; exact O2|apply os_nil].
  - eapply o_rule; [apply env_value|]. eapply o_any, oa_next; [apply o_object_no; reflexivity|]. apply oa_hit. eapply o_rule; [apply env_array|]. rewrite bracketed.
    apply (o_bracket 0x5B 0x5D); try lia; [|reflexivity].
    eapply o_any, oa_next; [|apply oa_hit, o_ws; [exact W|reflexivity]]. eapply o_rule; [apply env_elements|]. eapply o_seq_no, os_stop. eapply o_rule; [apply env_element|].
    eapply o_seq_no, os_next; [apply o_ws; [exact W|reflexivity]|]. apply os_stop. apply o_value_close. auto.
  - eapply o_rule; [apply env_value|]. eapply o_any, oa_next; [apply o_object_no; reflexivity|]. apply oa_hit. eapply o_rule; [apply env_array|]. rewrite bracketed.
    apply (o_bracket 0x5B 0x5D); try lia; [|reflexivity].
    apply o_any, oa_hit. eapply o_rule; [apply env_elements|]. destruct (words_read _ _ Hl (x5d :: b) (ends_close _ _ (or_introl eq_refl))) as (b1 & O1 & O2). apply o_seq.
    eapply os_next; [exact O1|]. eapply os_next; [apply o_zom; exact O2|apply os_nil].
  - pose proof (o_string w b Sw) as O. apply string_first in Sw as [t ->]. eapply o_rule; [apply env_value|]. eapply o_any, oa_next; [apply o_object_no; reflexivity|].
    eapply oa_next; [apply o_array_no; reflexivity|]. apply oa_hit. eapply o_rule; [apply env_string|exact O].
  - eapply o_rule; [apply env_value|]. eapply o_any, oa_next; [apply o_object_no; reflexivity|]. eapply oa_next; [apply o_array_no; reflexivity|].
    eapply oa_next; [apply o_string_no; [apply env_string|reflexivity]|]. eapply oa_next; [apply o_number_no; reflexivity|]. apply oa_hit. eapply o_rule; [apply env_bool|].
    apply o_any, oa_hit, o_lit.
  - eapply o_rule; [apply env_value|]. eapply o_any, oa_next; [apply o_object_no; reflexivity|]. eapply oa_next; [apply o_array_no; reflexivity|].
    eapply oa_next; [apply o_string_no; [apply env_string|reflexivity]|]. eapply oa_next; [apply o_number_no; reflexivity|]. apply oa_hit. eapply o_rule; [apply env_bool|].
    eapply o_any, oa_next; [apply o_lit_no; intros t; discriminate|]. apply oa_hit, o_lit.
  - eapply o_rule; [apply env_value|]. eapply o_any, oa_next; [apply o_object_no; reflexivity|]. eapply oa_next; [apply o_array_no; reflexivity|].
    eapply oa_next; [apply o_string_no; [apply env_string|reflexivity]|]. eapply oa_next; [apply o_number_no; reflexivity|]. eapply oa_next; [apply o_bool_no; reflexivity|].
    apply oa_hit. eapply o_rule; [apply env_null|]. apply o_lit.
Qed.
(** Values, members and elements: only numbers and white space can go on behind a word. *)
Lemma value_reach w : json_text Value w -> reaches (IR (RRule jValue)) w.
Proof.
  intros H b. destruct (classic_number w H) as [N|X].
  - destruct (number_reach w N b) as (d & b' & -> & O). exists d, b'. split; auto. apply number_first in N as (x & t & -> & X). cbn [app] in *. eapply o_rule; [apply env_value|].
    assert (N : forall n, n = 0x7B \/ n = 0x5B \/ n = 0x22 -> first (is n) (x :: t ++ d ++ b') = false).
    { intros n Hn. cbn [first]. destruct X as [->|X]; [destruct Hn as [->|[->| ->]]; reflexivity|]. unfold is, dig in *. lia. }
    eapply o_any, oa_next; [apply o_object_no; apply N; auto|]. eapply oa_next; [apply o_array_no, N; auto|]. eapply oa_next; [apply o_string_no; [apply env_string|apply N; auto]|].
    apply oa_hit. exact O.
  - exists [], b. split; auto.
Qed.
Lemma element_reach w : json_text Element w -> reaches (IR (RRule jElement)) w.
Proof.
  intros H b. inversion H as [| | | | | | | | | | | |w1 v w2 W1 V W2| |]; subst.
  assert (X : exists d b', b = d ++ b' /\ exists b1, out (IR (RRule jValue)) (v ++ w2 ++ b) true b1 /\ out (IR (RRule jWS)) b1 true b').
  { destruct w2 as [|y w2].
    - cbn [app]. destruct (value_reach v V b) as (d & b1 & -> & O1). destruct (ws_reach b1) as (d2 & b2 & -> & _ & O2). exists (d ++ d2), b2. split; [rewrite app_assoc; auto|]. eauto.
    - destruct (ws_more (y :: w2) b W2) as (d & b' & -> & F & O). exists d, b'. split; auto. exists ((y :: w2) ++ d ++ b'). split; auto. apply (words_read Value); auto.
      inversion W2 as [|? ? Y _]; subst. unfold no_frac, no_exp. cbn [app first]. destruct Y as [<-|[<-|[<-|[<-|[]]]]]; auto. }
  destruct X as (d & b' & -> & b1 & O1 & O2). exists d, b'. split; auto. eapply o_rule; [apply env_element|]. apply o_seq. rewrite <- !app_assoc.
  eapply os_next; [apply o_ws; [exact W1|apply value_first; auto]|]. eapply os_next; [exact O1|]. eapply os_next; [exact O2|apply os_nil].
Qed.
Lemma member_reach w : json_text Member w -> reaches (IR (RRule jMember)) w.
Proof.
  intros H b. inversion H as [| | | | | | | | |w1 k w2 x W1 Sk W2 X| | | | |]; subst. destruct (element_reach x X b) as (d & b' & -> & O). exists d, b'. split; auto.
  eapply o_rule; [apply env_member|]. apply o_seq. rewrite <- !app_assoc. eapply os_next; [apply o_ws; auto; apply string_first in Sk as [t ->]; reflexivity|].
  eapply os_next; [eapply o_rule; [apply env_key|apply o_string; auto]|]. eapply os_next; [apply o_ws; auto|]. eapply os_next; [eapply o_takes_yes; [apply t_rune; lia|reflexivity]|].
  eapply os_next; [exact O|apply os_nil].
Qed.
(** Elements and members: the word is read and then maybe more. *)
Lemma rep_len r c b ok c' b' : eats E (IRep r) c b ok c' b' -> (length b' <= length b)%nat.
Proof. apply rep_le. Qed.
Definition list_reach (k : nat) (w : bytes) : Prop := forall r, exists b1, out (IR (RRule k)) (w ++ r) true b1 /\ forall c c' b', eats E (IRep (rd_more k)) c b1 true c' b' -> (length b' <= length r)%nat.
Lemma list_one k w : reaches (IR (RRule k)) w -> list_reach k w.
Proof. intros H r. destruct (H r) as (d & b1 & -> & O). exists b1. split; auto. intros c c' b' R. apply rep_len in R. rewrite app_length. lia. Qed.
Lemma list_cons k x l : (forall b, out (IR (RRule k)) (x ++ x2c :: b) true (x2c :: b)) -> list_reach k l -> list_reach k (x ++ lit "," ++ l).
Proof.
  intros Hx Hl r. exists (x2c :: l ++ r). split; [rewrite <- !app_assoc; apply Hx|]. intros c c' b' R. destruct (Hl r) as (b2 & O & Le).
  assert (M : out (IR (rd_more k)) (x2c :: l ++ r) true b2). { apply o_seq. eapply os_next; [eapply o_takes_yes; [apply t_comma|reflexivity]|]. eapply os_next; [exact O|apply os_nil]. }
  inversion R; subst; (match goal with X : eats E (IR (rd_more k)) _ _ _ _ _ |- _ => destruct (out_eats _ _ _ _ _ _ _ _ _ M X) as (Y & -> & <-) end); [discriminate|eauto].
Qed.
Lemma lists_reach s w : json_text s w -> match s with Elements => list_reach jElement w | Members => list_reach jMember w | _ => True end.
Proof.
  induction 1 as [w W|m H IH|w W|l H IH|w Sw|w Nw| | | |w1 k w2 x W1 Sk W2 H IH|m H IH|m l H1 IH1 H2 IH2|w1 v w2 W1 H IH W2|x H IH|x l H1 IH1 H2 IH2]; auto.
  - apply list_one, member_reach. auto.
  - apply list_cons; auto. intros b. apply (words_read Member); auto. apply follow_comma.
  - apply list_one, element_reach. auto.
  - apply list_cons; auto. intros b. apply (words_read Element); auto. apply follow_comma.
Qed.
(** What stands behind an opening bracket is read as far as possible. *)
Definition pair_of (s : jsort) (k ks : nat) : Prop := s = Elements /\ k = jElement /\ ks = jElements \/ s = Members /\ k = jMember /\ ks = jMembers.
Lemma pair_rule s k ks : pair_of s k ks -> r_reader (get_rule E ks) = Some (RSeq [RRule k; RZom (rd_more k)]).
Proof. intros [(-> & -> & ->)|(-> & -> & ->)]; [apply env_elements|apply env_members]. Qed.
Lemma first_ws s k ks c b ok c' b' w : pair_of s k ks -> out (IR (RRule jWS)) b true w -> eats E (IR (RRule k)) c b ok c' b' -> ok = true -> (length b' <= length w)%nat.
Proof.
  intros P O D ->. assert (exists rs, r_reader (get_rule E k) = Some (RSeq (RRule jWS :: rs))) as [rs G] by (destruct P as [(_ & -> & _)|(_ & -> & _)]; eexists; [apply env_element|apply env_member]).
  apply (rule_out _ _ _ _ _ _ _ _ G) in D. apply seq_in in D as (b1 & D & ->). apply seq_cons in D as [[X _]|(c1 & b2 & D1 & D2)]; [discriminate X|].
  destruct (out_eats _ _ _ _ _ _ _ _ _ O D1) as (_ & _ & ->). apply eats_suffix in D2 as [d ->]. rewrite app_length. lia.
Qed.
Lemma longest_inside s k ks m b' : pair_of s k ks -> inside s m ->
  out (IR (RAny [RRule ks; RRule jWS])) (m ++ b') true b' -> longest (inside s) m b'.
Proof.
  intros Hs I O. pose proof (pair_rule _ _ _ Hs) as G. split; auto. intros d r' -> [J|W].
  - assert (R : list_reach k (m ++ d)) by (pose proof (lists_reach s (m ++ d) J) as X; destruct Hs as [(-> & -> & ->)|(-> & -> & ->)]; exact X).
    destruct (R r') as (b1 & O1 & Le). rewrite <- app_assoc in O1. specialize (O []). apply any_in in O as (b2 & O & Q2). cbv beta iota in Q2. subst b2. apply any_cons in O as [[_ O]|(c1 & b3 & F & _)].
    + apply (rule_out _ _ _ _ _ _ _ _ G) in O. apply seq_in in O as (b3 & D & Q3). cbv beta iota in Q3. apply seq_cons in D as [[X _]|(c3 & b4 & D1 & D2)]; [discriminate X|].
      destruct (out_eats _ _ _ _ _ _ _ _ _ O1 D1) as (_ & -> & <-). apply seq_cons in D2 as [[X _]|(c4 & b5 & D2 & D3)]; [discriminate X|]. apply zom_in in D2 as [_ D2]. apply seq_nil in D3 as (_ & _ & Q). subst b3 b5.
      apply Le in D2. rewrite app_length in D2. destruct d; auto. cbn in D2. lia.
    + exfalso. apply (rule_out _ _ _ _ _ _ _ _ G) in F. apply seq_in in F as (b4 & D & ->). apply seq_cons in D as [[_ D]|(c3 & b5 & D1 & D2)].
      * destruct (out_eats _ _ _ _ _ _ _ _ _ O1 D) as (X & _). discriminate X.
      * exact (zom_seq_no _ _ _ _ _ _ D2).
  - destruct (ws_more (m ++ d) r' W) as (d2 & r2 & -> & F & O1). rewrite <- app_assoc in O1. assert (Le : (length (d ++ d2 ++ r2) <= length r2)%nat).
    + specialize (O []). apply any_in in O as (b2 & O & Q2). cbv beta iota in Q2. subst b2. apply any_cons in O as [[_ O]|(c1 & b3 & N & O)].
      * apply (rule_out _ _ _ _ _ _ _ _ G) in O. apply seq_in in O as (b3 & D & Q3). cbv beta iota in Q3. apply seq_cons in D as [[X _]|(c3 & b4 & D1 & D2)]; [discriminate X|].
        pose proof (first_ws _ _ _ _ _ _ _ _ _ Hs O1 D1 eq_refl) as Le. apply eats_suffix in D2 as [d3 D2]. rewrite <- Q3 in D2. rewrite D2, app_length in Le. lia.
      * assert (b3 = m ++ d ++ d2 ++ r2) as ->. { apply (rule_out _ _ _ _ _ _ _ _ G) in N. apply seq_in in N as (b4 & _ & ->). reflexivity. }
        apply any_cons in O as [[_ O]|(c2 & b4 & N2 & O)]; [|apply any_nil in O as (X & _); discriminate X].
        destruct (out_eats _ _ _ _ _ _ _ _ _ O1 O) as (_ & _ & <-). lia.
    + rewrite !app_length in Le. destruct d; auto. cbn in Le. lia.
Qed.
(** String contents are read as far as possible. *)
Lemma chars_cancel u d : j_chars u -> j_chars (u ++ d) -> j_chars d.
Proof.
  induction 1 as [|x w P J IH|x w I J IH|h1 h2 h3 h4 w H1 H2 H3 H4 J IH]; cbn [app]; auto; intros X.
  - destruct P as (P1 & P2 & P3). inversion X; subst; auto; congruence.
  - inversion X as [|y v P Y|y v I2 Y|g1 g2 g3 g4 v G1 G2 G3 G4 Y]; subst; [destruct P as (_ & _ & P); congruence|auto|].
    exfalso. cbn in I. repeat destruct I as [I|I]; try discriminate; auto.
  - inversion X as [|y v P Y|y v I2 Y|g1 g2 g3 g4 v G1 G2 G3 G4 Y]; subst; [destruct P as (_ & _ & P); congruence| |auto].
    exfalso. cbn in I2. repeat destruct I2 as [I2|I2]; try discriminate; auto.
Qed.
Lemma no_char b : out (IR (RRule jCharacter)) b false b -> forall d r, b = d ++ r -> j_chars d -> d = [].
Proof.
  intros O d r -> J. destruct (chars_cases d J) as [->|[(x & t & -> & P)|(v & t & -> & V & Jt)]]; auto; exfalso.
  - destruct (o_char_plain x (t ++ r) P) as (? & ? & _ & _ & _ & O2). destruct (out_det _ _ _ _ _ _ _ O O2). discriminate.
  - cbn [app] in O. rewrite <- app_assoc in O. destruct (out_det _ _ _ _ _ _ _ O (o_char_escape v (t ++ r) V)). discriminate.
Qed.
Lemma chars_stop : forall n b, (length b <= n)%nat ->
  (exists u b', b = u ++ b' /\ j_chars u /\ out (IRep (RRule jCharacter)) b true b' /\ out (IR (RRule jCharacter)) b' false b') \/ j_chars b.
Proof.
  induction n as [|n IH]; intros b Hn; (destruct b as [|x b]; [right; constructor|]); cbn [length] in Hn; [lia|].
  assert (Here : out (IR (RRule jCharacter)) (x :: b) false (x :: b) -> (exists u b', x :: b = u ++ b' /\ j_chars u /\ out (IRep (RRule jCharacter)) (x :: b) true b' /\ out (IR (RRule jCharacter)) b' false b')).
  { intros O. exists [], (x :: b). split; auto. split; [constructor|]. split; auto. apply or_stop. exact O. }
  destruct (b_plain x) eqn:P.
  - apply plain_is in P. destruct (o_char_plain x b P) as (v & t & Q & N & F & O).
    assert (X : (length t <= n)%nat). { assert (X : length (x :: b) = length (v ++ t)) by congruence. rewrite app_length in X. cbn in X. destruct v; [congruence|cbn in X; lia]. }
    clear Here. rewrite Q in *. destruct (IH t X) as [(u & b' & -> & J & O2 & O3)|J].
    + left. exists (v ++ u), b'. split; [rewrite <- app_assoc; auto|]. split; [apply chars_plain; auto|]. split; auto. eapply or_next; eauto.
    + right. apply chars_plain; auto.
  - assert (NP : ~ plain x) by (rewrite <- plain_is; congruence). destruct (is 0x5C x) eqn:B.
    + apply is_eq in B as ->. destruct (escape_run b) as [(u & t & -> & V)|O].
      * rewrite app_length in Hn. destruct (IH t ltac:(lia)) as [(w & b' & -> & J & O2 & O3)|J].
        -- left. exists (x5c :: u ++ w), b'. split; [cbn; rewrite <- app_assoc; auto|]. split; [apply chars_escape; auto|]. split; auto. eapply or_next; [apply o_char_escape; auto|auto].
        -- right. apply chars_escape; auto.
      * left. apply Here. eapply o_rule; [apply env_char|]. eapply o_any_no, oa_next; [apply o_holey_no; auto|].
        eapply oa_next; [|apply oa_nil]. eapply o_seq_no, os_next; [eapply o_takes_yes; [apply t_back|reflexivity]|]. apply os_stop. exact O.
    + left. apply Here, o_char_no; auto. intros ->. discriminate.
Qed.

(* ---------------------------------------------------------- the errors of the values *)

Context (t : Z).
Notation bl := (blames t json_env).
(** [i] fails before [b] whatever strings Janus holds, with the errors [xs]. *)
Definition faults (i : item) (b : bytes) (xs : list err) : Prop := forall c, bl i c b xs.
Definition ere (b w : bytes) : err := EReadError (t - slen b) w.
Lemma f_takes r g b : speaks r = true -> takes E r g -> first g b = false -> faults (IR r) b [ere b (what E r)].
Proof. intros S T F c. eapply b_self; auto. eapply o_takes_no; eauto. Qed.
Lemma f_lit x b : (forall y, b <> x ++ y) -> faults (IR (RLit x)) b [ere b (quote_str x)].
Proof. intros N c. apply (b_self t E (RLit x) c b c b); auto. apply o_lit_no. auto. Qed.
Lemma f_rule i r b x : r_reader (get_rule E i) = Some r -> faults (IR r) b [x] -> faults (IR (RRule i)) b [x].
Proof. intros R F c. eapply b_rule; eauto. Qed.
Lemma f_seq rs b x : faults (ISeq rs) b [x] -> faults (IR (RSeq rs)) b [x].
Proof. intros F c. apply b_seq, F. Qed.
Lemma f_stop r rs b x : faults (IR r) b [x] -> faults (ISeq (r :: rs)) b [x].
Proof. intros F c. apply bi_seq_stop, F. Qed.
Lemma f_next r rs b b1 x : out (IR r) b true b1 -> faults (ISeq rs) b1 [x] -> faults (ISeq (r :: rs)) b [x].
Proof. intros O F c. eapply bi_seq_next; [apply O|apply F]. Qed.
Lemma f_any rs b xs : faults (IAny rs) b xs -> faults (IR (RAny rs)) b [get_deepest xs].
Proof. intros F c. apply b_any, F. Qed.
Lemma f_nil b : faults (IAny []) b [].
Proof. intros c. constructor. Qed.
Lemma f_more r rs b x xs : out (IR r) b false b -> faults (IR r) b [x] -> faults (IAny rs) b xs -> faults (IAny (r :: rs)) b (x :: xs).
Proof. intros O F G c. eapply bi_any; [apply F|apply O|apply G]. Qed.
Lemma f_bracket o c k ks s w b : pair_of s k ks -> 0 <= o < 128 -> 0 <= c < 128 -> out (IR (RAny [RRule ks; RRule jWS])) (w ++ b) true b -> first (is c) b = false ->
  faults (IR (RSeq [RRune o; RAny [RRule ks; RRule jWS]; RRune c])) (zb o :: w ++ b) [ere b (quote_rune_graphic c)].
Proof.
  intros P Ho Hc O F. assert (To : is o (zb o) = true) by (unfold is; rewrite bz_zb by lia; lia). apply f_seq. eapply f_next; [eapply o_takes_yes; [apply t_rune; auto|auto]|]. eapply f_next; [exact O|].
  apply f_stop. exact (f_takes (RRune c) (is c) b eq_refl ltac:(apply t_rune; exact Hc) F).
Qed.

(* ------------------------------------------------------------- every container *)

Lemma member_runs b : runs Member b.
Proof.
  eapply run_rule; [apply env_member|]. destruct (ws_run b) as (w1 & b1 & -> & W1 & F1 & O1).
  assert (No : out (IR (RRule jKey)) b1 false b1 -> out (IR (RSeq [RRule jWS; RRule jKey; RRule jWS; RRune 0x3A; RRule jElement])) (w1 ++ b1) false (w1 ++ b1)).
  { intros O. eapply o_seq_no, os_next; [exact O1|]. apply os_stop. exact O. }
  destruct (string_run b1) as [(k & b2 & -> & Sk & O2)|[O2|C]].
  - destruct (ws_run b2) as (w2 & b3 & -> & W2 & F2 & O3).
    assert (O2' : out (IR (RRule jKey)) (k ++ w2 ++ b3) true (w2 ++ b3)) by (eapply o_rule; [apply env_key|exact O2]).
    destruct (first (is 0x3A) b3) eqn:F.
    + apply first_is in F as [b4 ->].
      assert (O4 : out (IR (RRune 0x3A)) (zb 0x3A :: b4) true b4) by (eapply o_takes_yes; [apply t_rune; lia|reflexivity]).
      destruct (element_runs (S (length b4)) b4 (le_n _)) as [(x & b5 & -> & Jx & O5)|[O5|Cx]].
      * left. exists (w1 ++ k ++ w2 ++ lit ":" ++ x), b5. split; [rewrite <- !app_assoc; auto|]. split; [apply jt_member; auto|].
        apply o_seq. eapply os_next; [exact O1|]. eapply os_next; [exact O2'|]. eapply os_next; [exact O3|]. eapply os_next; [exact O4|]. eapply os_next; [exact O5|apply os_nil].
      * right. left. eapply o_seq_no, os_next; [exact O1|]. eapply os_next; [exact O2'|]. eapply os_next; [exact O3|]. eapply os_next; [exact O4|]. apply os_stop. exact O5.
      * right. right. apply (cut_member w1 k w2 b4); auto.
    + right. left. eapply o_seq_no, os_next; [exact O1|]. eapply os_next; [exact O2'|]. eapply os_next; [exact O3|]. eapply os_stop, o_takes_no; [apply t_rune; lia|auto].
  - right. left. apply No. eapply o_rule; [apply env_key|exact O2].
  - right. right. apply cut_key; auto.
Qed.
Lemma elements_runs b : runs Elements b.
Proof. eapply run_rule; [apply env_elements|]. eapply list_run with (n := S (length b)); [exact jt_elements1|exact jt_elements|exact cut_elements1|exact cut_elements|apply element_runs|lia]. Qed.
Lemma members_runs b : runs Members b.
Proof. eapply run_rule; [apply env_members|]. eapply list_run with (n := S (length b)); [exact jt_members1|exact jt_members|exact cut_members1|exact cut_members|intros; apply member_runs|lia]. Qed.
Lemma inside_run s k ks b : pair_of s k ks -> (exists m r, b = m ++ r /\ longest (inside s) m r /\ out (IR (RAny [RRule ks; RRule jWS])) b true r) \/ cut s b.
Proof.
  intros P. assert (R : run (IR (RRule ks)) (json_text s) (cut s) b) by (destruct P as [(-> & -> & ->)|(-> & -> & ->)]; [apply elements_runs|apply members_runs]).
  destruct R as [(m & r & -> & J & O)|[O|C]]; auto; left.
  - assert (O2 : out (IR (RAny [RRule ks; RRule jWS])) (m ++ r) true r) by (apply o_any, oa_hit; exact O). exists m, r. split; auto. split; auto. eapply longest_inside; eauto. left. auto.
  - destruct (ws_run b) as (m & r & -> & W & _ & O1). assert (O2 : out (IR (RAny [RRule ks; RRule jWS])) (m ++ r) true r) by (eapply o_any, oa_next; [exact O|]; apply oa_hit; exact O1).
    exists m, r. split; auto. split; auto. eapply longest_inside; eauto. right. auto.
Qed.

(** Errors of the six alternatives. *)
Lemma f_object_no b : first (is 0x7B) b = false -> faults (IR (RRule jObject)) b [ere b (lit "'{'")].
Proof. intros F. eapply f_rule; [apply env_object|]. apply f_seq, f_stop. apply (f_takes (RRune 0x7B) (is 0x7B)); auto. apply t_rune; lia. Qed.
Lemma f_array_no b : first (is 0x5B) b = false -> faults (IR (RRule jArray)) b [ere b (lit "'['")].
Proof. intros F. eapply f_rule; [apply env_array|]. apply f_seq, f_stop. apply (f_takes (RRune 0x5B) (is 0x5B)); auto. apply t_rune; lia. Qed.
Lemma f_string_no b : first (is 0x22) b = false -> faults (IR (RRule jString)) b [ere b [x27; x22; x27]].
Proof. intros F. eapply f_rule; [apply env_string|]. apply f_seq, f_stop. apply (f_takes (RRune 0x22) (is 0x22)); auto. apply t_rune; lia. Qed.
Lemma deepest_two b w1 w2 : slen b <= t -> get_deepest [ere b w1; ere b w2] = ere b w2.
Proof. intros H. unfold get_deepest, ere. cbn [deepest_loop err_later]. unfold err_later. rewrite (proj2 (Z.leb_le 0 _)) by lia. rewrite (proj2 (Z.leb_le _ _)) by lia. reflexivity. Qed.
Lemma f_number_no b u : slen b <= t -> (u = [] /\ first (is 0x2D) b = false \/ u = lit "-") -> first b_dig b = false -> faults (IR (RRule jNumber)) (u ++ b) [ere b (lit "<19>")].
Proof.
  intros Hb Hu F. eapply f_rule; [apply env_number|]. apply f_seq, f_stop. eapply f_rule; [apply env_int|]. apply f_seq.
  eapply f_next with (b1 := b); [destruct Hu as [[-> F1]| ->]; [eapply o_opt_no, o_takes_no; [apply t_minus|auto]|apply o_opt_yes; eapply o_takes_yes; [apply t_minus|reflexivity]]|].
  assert (F0 : first (is 0x30) b = false) by (clear Hu Hb; destruct b as [|x b]; auto; cbn [first] in *; unfold b_dig, PegBytes.within, is in *; lia).
  assert (F9 : first b_onenine b = false) by (clear Hu Hb; destruct b as [|x b]; auto; cbn [first] in *; unfold b_dig, b_onenine, PegBytes.within in *; lia).
  apply f_stop. rewrite <- (deepest_two b (lit "'0'") (lit "<19>") Hb). apply f_any. apply f_more.
  - eapply o_takes_no; [apply t_zero|auto].
  - apply (f_takes (RRune 0x30) (is 0x30)); auto. apply t_zero.
  - apply f_more; [| |apply f_nil].
    + eapply o_seq_no, os_stop, o_takes_no; [apply t_onenine|auto].
    + apply f_seq, f_stop. eapply f_rule; [apply env_onenine|]. apply (f_takes (RBetween 0x31 0x39) b_onenine); auto. apply takes_byte, rb_between. lia.
Qed.
Lemma f_bool_no b : slen b <= t -> (forall w r, In w [lit "true"; lit "false"] -> b <> w ++ r) -> faults (IR (RRule jBool)) b [ere b (quote_str (lit "false"))] /\ out (IR (RRule jBool)) b false b.
Proof.
  intros Hb N. assert (N1 : forall r, b <> lit "true" ++ r) by (intros r; apply N; left; auto). assert (N2 : forall r, b <> lit "false" ++ r) by (intros r; apply N; right; left; auto). split.
  - eapply f_rule; [apply env_bool|]. rewrite <- (deepest_two b (quote_str (lit "true")) (quote_str (lit "false")) Hb). apply f_any. apply f_more; [apply o_lit_no, N1|apply f_lit, N1|].
    apply f_more; [apply o_lit_no, N2|apply f_lit, N2|apply f_nil].
  - eapply o_rule; [apply env_bool|]. eapply o_any_no, oa_next; [apply o_lit_no, N1|]. eapply oa_next; [apply o_lit_no, N2|apply oa_nil].
Qed.
Lemma f_null_no b : (forall r, b <> lit "null" ++ r) -> faults (IR (RRule jNull)) b [ere b (x22 :: lit "null" ++ [x22])] /\ out (IR (RRule jNull)) b false b.
Proof. intros N. split; [eapply f_rule; [apply env_null|]; apply f_lit, N|eapply o_rule; [apply env_null|]; apply o_lit_no, N]. Qed.
(** The six errors make one. *)
Lemma f_value b x1 x2 x3 x4 x5 x6 : 
  faults (IR (RRule jObject)) b [x1] -> faults (IR (RRule jArray)) b [x2] -> faults (IR (RRule jString)) b [x3] -> faults (IR (RRule jNumber)) b [x4] ->
  faults (IR (RRule jBool)) b [x5] -> faults (IR (RRule jNull)) b [x6] ->
  out (IR (RRule jObject)) b false b -> out (IR (RRule jArray)) b false b -> out (IR (RRule jString)) b false b -> out (IR (RRule jNumber)) b false b -> out (IR (RRule jBool)) b false b -> out (IR (RRule jNull)) b false b ->
  faults (IR (RRule jValue)) b [get_deepest [x1; x2; x3; x4; x5; x6] ].
Proof. intros. eapply f_rule; [apply env_value|]. apply f_any. repeat (apply f_more; [assumption|assumption|]). apply f_nil. Qed.

Lemma value_yes v b : json_text Value v -> out (IR (RRule jValue)) (v ++ b) false (v ++ b) -> False.
Proof. intros J O. destruct (value_reach v J b) as (d & b' & -> & O2). destruct (out_det _ _ _ _ _ _ _ O O2). discriminate. Qed.
Lemma value_cut v : cut Value v -> out (IR (RRule jValue)) v false v -> False.
Proof. intros C O. exact (cut_stuck Value v C [] _ _ _ (O [])). Qed.
Lemma starts_first n b : 0 <= n < 256 -> first (is n) b = false -> ~ starts (eq (zb n)) b.
Proof. intros H F (x & r & -> & <-). cbn [first] in F. unfold is in F. rewrite bz_zb in F by lia. lia. Qed.
Lemma first_starts n b : first (is n) b = true -> starts (eq (zb n)) b.
Proof. intros F. apply first_is in F as [r ->]. exists (zb n), r. auto. Qed.
Ltac low := repeat (constructor; [eexists _, _; split; [reflexivity|cbv beta; lia]|]); try constructor.
Lemma hit_here xs ys r w b : slen r <= t -> get_deepest (xs ++ ere r w :: ys) = ere r w -> faults (IR (RRule jValue)) b [get_deepest (xs ++ ere r w :: ys)] -> faults (IR (RRule jValue)) b [ere r w].
Proof. intros H -> F. exact F. Qed.
Lemma slen_cons x (b : bytes) : slen (x :: b) = slen b + 1.
Proof. unfold slen. cbn [length]. lia. Qed.
Lemma slen_split (u r : bytes) : slen (u ++ r) = slen u + slen r.
Proof. unfold slen. rewrite app_length. lia. Qed.
Lemma slen_pos (b : bytes) : 0 <= slen b.
Proof. unfold slen. lia. Qed.
Lemma number_at x b : first (is 0x2D) (x :: b) = false -> first b_dig (x :: b) = false -> slen (x :: b) <= t -> faults (IR (RRule jNumber)) (x :: b) [ere (x :: b) (lit "<19>")].
Proof. intros F1 F2 H. apply (f_number_no (x :: b) []); auto. Qed.
Theorem value_blame b : slen b <= t -> out (IR (RRule jValue)) b false b -> exists u r w, b = u ++ r /\ wrong b u w /\ faults (IR (RRule jValue)) b [ere r w].
Proof.
  intros Hb No. destruct (first (is 0x7B) b) eqn:F1.
  { apply first_is in F1 as [v ->]. destruct (inside_run Members jMember jMembers v (or_intror (conj eq_refl (conj eq_refl eq_refl)))) as [(m & r & -> & Lo & O)|C].
    2:{ exfalso. exact (value_cut _ (cut_object v C) No). }
    destruct (first (is 0x7D) r) eqn:F2.
    { exfalso. apply first_is in F2 as [r' ->]. apply (value_yes (lit "{" ++ m ++ lit "}") r'); [destruct Lo as [[J|W] _]; [apply jt_object|apply jt_object0]; auto|]. rewrite bracketed. exact No. }
    exists (lit "{" ++ m), r, (lit "'}'"). split; [rewrite <- app_assoc; auto|]. split; [apply wr_object; auto; apply (starts_first 0x7D); [lia|auto]|].
    assert (Le : slen r < slen (zb 0x7B :: m ++ r)) by (rewrite slen_cons, slen_split; pose proof (slen_pos m); lia).
    destruct (f_bool_no (zb 0x7B :: m ++ r) Hb ltac:(intros w q [<-|[<-|[]]] X; discriminate X)) as [B1 B2]. destruct (f_null_no (zb 0x7B :: m ++ r) ltac:(intros q X; discriminate X)) as [N1 N2].
    assert (Ob : out (IR (RRule jObject)) (zb 0x7B :: m ++ r) false (zb 0x7B :: m ++ r)).
    { eapply o_rule; [apply env_object|]. eapply o_seq_no, os_next; [eapply o_takes_yes; [apply t_rune; lia|reflexivity]|]. eapply os_next; [exact O|]. eapply os_stop, o_takes_no; [apply t_rune; lia|auto]. }
    assert (Hole : faults (IR (RRule jObject)) (zb 0x7B :: m ++ r) [ere r (lit "'}'")]).
    { eapply f_rule; [apply env_object|]. exact (f_bracket 0x7B 0x7D jMember jMembers Members m r (or_intror (conj eq_refl (conj eq_refl eq_refl))) ltac:(lia) ltac:(lia) O F2). }
    pose proof (f_value (zb 0x7B :: m ++ r) _ _ _ _ _ _ Hole (f_array_no (zb 0x7B :: m ++ r) eq_refl) (f_string_no (zb 0x7B :: m ++ r) eq_refl) (number_at (zb 0x7B) (m ++ r) eq_refl eq_refl Hb) B1 N1 Ob
      (o_array_no (zb 0x7B :: m ++ r) eq_refl) (o_string_no _ (zb 0x7B :: m ++ r) env_string eq_refl) (o_number_no (zb 0x7B :: m ++ r) eq_refl eq_refl) B2 N2) as V.
    revert V. apply (hit_here [] _); [lia|]. apply loop_hit; [constructor| |lia]. low. }
  destruct (first (is 0x5B) b) eqn:F2.
  { apply first_is in F2 as [v ->]. destruct (inside_run Elements jElement jElements v (or_introl (conj eq_refl (conj eq_refl eq_refl)))) as [(m & r & -> & Lo & O)|C].
    2:{ exfalso. exact (value_cut _ (cut_array v C) No). }
    destruct (first (is 0x5D) r) eqn:F2.
    { exfalso. apply first_is in F2 as [r' ->]. apply (value_yes (lit "[" ++ m ++ lit "]") r'); [destruct Lo as [[J|W] _]; [apply jt_array|apply jt_array0]; auto|]. rewrite bracketed. exact No. }
    exists (lit "[" ++ m), r, (lit "']'"). split; [rewrite <- app_assoc; auto|]. split; [apply wr_array; auto; apply (starts_first 0x5D); [lia|auto]|].
    assert (Le : slen r < slen (zb 0x5B :: m ++ r)) by (rewrite slen_cons, slen_split; pose proof (slen_pos m); lia).
    destruct (f_bool_no (zb 0x5B :: m ++ r) Hb ltac:(intros w q [<-|[<-|[]]] X; discriminate X)) as [B1 B2]. destruct (f_null_no (zb 0x5B :: m ++ r) ltac:(intros q X; discriminate X)) as [N1 N2].
    assert (Ob : out (IR (RRule jArray)) (zb 0x5B :: m ++ r) false (zb 0x5B :: m ++ r)).
    { eapply o_rule; [apply env_array|]. eapply o_seq_no, os_next; [eapply o_takes_yes; [apply t_rune; lia|reflexivity]|]. eapply os_next; [exact O|]. eapply os_stop, o_takes_no; [apply t_rune; lia|auto]. }
    assert (Hole : faults (IR (RRule jArray)) (zb 0x5B :: m ++ r) [ere r (lit "']'")]).
    { eapply f_rule; [apply env_array|]. exact (f_bracket 0x5B 0x5D jElement jElements Elements m r (or_introl (conj eq_refl (conj eq_refl eq_refl))) ltac:(lia) ltac:(lia) O F2). }
    pose proof (f_value (zb 0x5B :: m ++ r) _ _ _ _ _ _ (f_object_no (zb 0x5B :: m ++ r) eq_refl) Hole (f_string_no (zb 0x5B :: m ++ r) eq_refl) (number_at (zb 0x5B) (m ++ r) eq_refl eq_refl Hb) B1 N1
      (o_object_no (zb 0x5B :: m ++ r) eq_refl) Ob (o_string_no _ (zb 0x5B :: m ++ r) env_string eq_refl) (o_number_no (zb 0x5B :: m ++ r) eq_refl eq_refl) B2 N2) as V.
    revert V. apply (hit_here [_] _); [lia|]. apply (loop_hit [_]); [| |lia]; low. }
  destruct (first (is 0x22) b) eqn:F3.
  { apply first_is in F3 as [v ->]. destruct (chars_stop (length v) v (le_n _)) as [(u & r & -> & J & O & St)|C].
    2:{ exfalso. apply (value_cut (x22 :: v)); [|exact No]. apply cut_str. exists v. auto. }
    destruct (first (is 0x22) r) eqn:F3.
    { exfalso. apply first_is in F3 as [r' ->]. apply (value_yes (x22 :: u ++ [x22]) r'); [apply jt_string; exists u; auto|]. cbn [app]. rewrite <- app_assoc. exact No. }
    exists (x22 :: u), r, [x27; x22; x27]. split; auto. split.
    { apply wr_string; [|apply (starts_first 0x22); [lia|auto]]. split; [exact J|]. intros d r' Q Jd. exact (no_char r St d r' Q (chars_cancel u d J Jd)). }
    assert (Le : slen r < slen (zb 0x22 :: u ++ r)) by (rewrite slen_cons, slen_split; pose proof (slen_pos u); lia).
    destruct (f_bool_no (zb 0x22 :: u ++ r) Hb ltac:(intros w q [<-|[<-|[]]] X; discriminate X)) as [B1 B2]. destruct (f_null_no (zb 0x22 :: u ++ r) ltac:(intros q X; discriminate X)) as [N1 N2].
    assert (Oc : out (IR (RRule jCharacters)) (u ++ r) true r) by (eapply o_rule; [apply env_chars|]; apply o_zom; auto).
    assert (Ob : out (IR (RRule jString)) (zb 0x22 :: u ++ r) false (zb 0x22 :: u ++ r)).
    { eapply o_rule; [apply env_string|]. eapply o_seq_no, os_next; [eapply o_takes_yes; [apply t_quote|reflexivity]|]. eapply os_next; [exact Oc|]. eapply os_stop, o_takes_no; [apply t_quote|auto]. }
    assert (Hole : faults (IR (RRule jString)) (zb 0x22 :: u ++ r) [ere r [x27; x22; x27]]).
    { eapply f_rule; [apply env_string|]. apply f_seq. eapply f_next; [eapply o_takes_yes; [apply t_quote|reflexivity]|]. eapply f_next; [exact Oc|]. apply f_stop.
      apply (f_takes (RRune 0x22) (is 0x22)); auto. apply t_quote. }
    pose proof (f_value (zb 0x22 :: u ++ r) _ _ _ _ _ _ (f_object_no (zb 0x22 :: u ++ r) eq_refl) (f_array_no (zb 0x22 :: u ++ r) eq_refl) Hole (number_at (zb 0x22) (u ++ r) eq_refl eq_refl Hb) B1 N1
      (o_object_no (zb 0x22 :: u ++ r) eq_refl) (o_array_no (zb 0x22 :: u ++ r) eq_refl) Ob (o_number_no (zb 0x22 :: u ++ r) eq_refl eq_refl) B2 N2) as V.
    revert V. apply (hit_here [_; _] _); [lia|]. apply (loop_hit [_; _]); [| |lia]; low. }
  assert (Tr : forall r, b <> lit "true" ++ r) by (intros r ->; exact (value_yes _ _ jt_true No)).
  assert (Fa : forall r, b <> lit "false" ++ r) by (intros r ->; exact (value_yes _ _ jt_false No)).
  assert (Nu : forall r, b <> lit "null" ++ r) by (intros r ->; exact (value_yes _ _ jt_null No)).
  destruct (f_bool_no b Hb ltac:(intros w q [<-|[<-|[]]]; auto)) as [B1 B2]. destruct (f_null_no b Nu) as [N1 N2].
  assert (Nn : forall n r, j_number n -> b <> n ++ r) by (intros n r N ->; exact (value_yes _ _ (jt_number n N) No)).
  assert (On : out (IR (RRule jNumber)) b false b) by (destruct (number_run b) as [(n & r & -> & N & _)|O]; [elim (Nn n r N eq_refl)|exact O]).
  assert (Dg : forall m x r, m = [] \/ m = lit "-" -> dig x -> b <> m ++ x :: r).
  { intros m x r M D. destruct (Z.eq_dec (bz x) 0x30) as [Z|Z].
    - rewrite (app_assoc m [x] r : m ++ x :: r = (m ++ [x]) ++ r). apply Nn. exists (m ++ [x]), [], []. split; [rewrite !app_nil_r; auto|]. split; [|split; left; auto].
      exists m, [x]. split; auto. split; auto. left. rewrite (is_eq 0x30 x) by (unfold is; lia). reflexivity.
    - rewrite (app_assoc m [x] r : m ++ x :: r = (m ++ [x]) ++ r). apply Nn. exists (m ++ [x]), [], []. split; [rewrite !app_nil_r; auto|]. split; [|split; left; auto].
      exists m, [x]. split; auto. split; auto. right. exists x, []. split; auto. split; [unfold dig in D; lia|constructor]. }
  destruct (first (is 0x2D) b) eqn:F4.
  { apply first_is in F4 as [r ->]. exists (lit "-"), r, (lit "<19>"). split; auto.
    assert (Nd : ~ starts dig r) by (intros (x & q & -> & D); exact (Dg (lit "-") x q (or_intror eq_refl) D eq_refl)).
    assert (Fd : first b_dig r = false). { destruct (first b_dig r) eqn:Q; auto. elim Nd. destruct r as [|x r]; [discriminate|]. exists x, r. split; auto. apply dig_is. exact Q. }
    split; [apply (wr_minus r); auto|]. assert (Le : slen r < slen (zb 0x2D :: r)) by (rewrite slen_cons; lia).
    assert (Hole : faults (IR (RRule jNumber)) (zb 0x2D :: r) [ere r (lit "<19>")]).
    { apply (f_number_no r (lit "-")); auto. lia. }
    pose proof (f_value (zb 0x2D :: r) _ _ _ _ _ _ (f_object_no (zb 0x2D :: r) eq_refl) (f_array_no (zb 0x2D :: r) eq_refl) (f_string_no (zb 0x2D :: r) eq_refl) Hole B1 N1
      (o_object_no (zb 0x2D :: r) eq_refl) (o_array_no (zb 0x2D :: r) eq_refl) (o_string_no _ (zb 0x2D :: r) env_string eq_refl) On B2 N2) as V.
    revert V. apply (hit_here [_; _; _] _); [lia|]. apply (loop_hit [_; _; _]); [| |lia]; low. }
  exists [], b, (x22 :: lit "null" ++ [x22]). split; auto.
  assert (Nd : ~ starts dig b) by (intros (x & q & -> & D); exact (Dg [] x q (or_introl eq_refl) D eq_refl)).
  assert (Fd : first b_dig b = false). { destruct (first b_dig b) eqn:Q; auto. elim Nd. destruct b as [|x b]; [discriminate|]. exists x, b. split; auto. apply dig_is. exact Q. }
  split.
  - apply wr_other; [|intros w r [<-|[<-|[<-|[]]]]; auto]. intros (x & r & -> & [I|D]); [|apply Nd; exists x, r; auto].
    cbn in I. destruct I as [<-|[<-|[<-|[<-|[]]]]]; discriminate.
  - assert (Hole : faults (IR (RRule jNumber)) b [ere b (lit "<19>")]).
    { apply (f_number_no b []); auto. }
    pose proof (f_value b _ _ _ _ _ _ (f_object_no b F1) (f_array_no b F2) (f_string_no b F3) Hole B1 N1
      (o_object_no b F1) (o_array_no b F2) (o_string_no _ b env_string F3) On B2 N2) as V.
    revert V. apply (hit_here [_; _; _; _; _] []); [lia|]. apply (loop_hit [_; _; _; _; _]); [| |lia]; low.
Qed.
(** Element: white space in front. *)
Lemma value_runs b : runs Value b.
Proof.
  eapply run_rule; [apply env_value|]. apply run_any. repeat apply run_any_cons; [| | | | | |apply run_any_nil].
  - eapply run_rule; [apply env_object|]. apply (bracket_run 0x7B 0x7D jMembers (json_text Members) (cut Members)); try lia.
    + intros b' _. apply members_runs.
    + intros l Jl. exact (jt_object l Jl).
    + intros l Jl. exact (jt_object0 l Jl).
    + intros l Jl. exact (cut_object l Jl).
  - eapply run_rule; [apply env_array|]. apply (bracket_run 0x5B 0x5D jElements (json_text Elements) (cut Elements)); try lia.
    + intros b' _. apply elements_runs.
    + intros l Jl. exact (jt_array l Jl).
    + intros l Jl. exact (jt_array0 l Jl).
    + intros l Jl. exact (cut_array l Jl).
  - eapply run_rule; [apply env_string|]. eapply run_weaken; [apply jt_string|apply cut_str|apply string_runs].
  - destruct (number_run b) as [(w & b' & Q & Jw & O)|O]; [left; exists w, b'; repeat (split; auto); apply jt_number; auto|right; left; auto].
  - eapply run_rule; [apply env_bool|]. apply run_any. repeat apply run_any_cons; [apply run_lit, jt_true|apply run_lit, jt_false|apply run_any_nil].
  - eapply run_rule; [apply env_null|]. apply run_lit, jt_null.
Qed.
Theorem element_blame b : slen b <= t -> out (IR (RRule jElement)) b false b ->
  exists z v u r w, b = z ++ v /\ j_ws z /\ ~ starts ws_byte v /\ v = u ++ r /\ wrong v u w /\ faults (IR (RRule jElement)) b [ere r w].
Proof.
  intros Hb No. destruct (ws_run b) as (z & v & -> & W & F & O). rewrite slen_split in Hb. pose proof (slen_pos z).
  assert (Ov : out (IR (RRule jValue)) v false v).
  { destruct (value_runs v) as [(w & r & -> & J & O2)|[X|C]]; auto; exfalso.
    - destruct (ws_run r) as (w2 & r2 & -> & W2 & _ & O3).
      assert (Y : out (IR (RRule jElement)) (z ++ w ++ w2 ++ r2) true r2) by (eapply o_rule; [apply env_element|]; apply o_seq; eapply os_next; [exact O|]; eapply os_next; [exact O2|]; eapply os_next; [exact O3|apply os_nil]).
      destruct (out_det _ _ _ _ _ _ _ No Y). discriminate.
    - exact (cut_stuck Element _ (cut_element z v W C) [] _ _ _ (No [])). }
  destruct (value_blame v ltac:(lia) Ov) as (u & r & w & Q & Wr & Fa). exists z, v, u, r, w. split; auto. split; auto. split; [|split; auto; split; auto].
  - intros (x & q & -> & X). apply ws_is in X. cbn [first] in F. congruence.
  - eapply f_rule; [apply env_element|]. apply f_seq. eapply f_next; [exact O|]. apply f_stop. exact Fa.
Qed.
End JsonBlame.

(** JSON() itself. *)
Definition complains (b u w : bytes) : Prop := exists z v u0, b = z ++ v /\ j_ws z /\ ~ starts ws_byte v /\ u = z ++ u0 /\ wrong v u0 w.
Theorem json_blame {L : GoLib} te c b s x s' : stands te c b s -> reads json_env json s (Some x) s' ->
  exists u w, complains b u w /\ x = EOther (lit "json parse error: " ++ err_text (EReadError (pos (sc s) + slen u) w)).
Proof.
  intros St R. pose proof (stands_pos _ _ _ _ St) as Po. assert (Hb : slen b <= slen te) by (pose proof (stands_nonneg _ _ _ _ St); lia).
  destruct (reads_eats json_env json te c b s (Some x) s' json_covered eq_refl St R) as (c' & b' & _ & D). cbn [okx] in D.
  pose proof (reads_blames json_env json te c b s x s' json_covered eq_refl St R) as B.
  assert (No : out json_env (IR (RRule jElement)) b false b).
  { apply json_eats in D. destruct (element_runs (S (length b)) b (le_n _)) as [(w & r & _ & _ & O)|[O|C]]; auto; exfalso.
    - destruct (out_eats _ _ _ _ _ _ _ _ _ O D) as [X _]. discriminate X.
    - exact (cut_stuck Element b C _ _ _ _ D). }
  destruct (element_blame (slen te) b Hb No) as (z & v & u & r & w & -> & W & F & -> & Wr & Fa). exists (z ++ u), w. split.
  - exists z, (u ++ r), u. auto.
  - rewrite !slen_split in Po. destruct (grammar_blame _ _ _ _ _ _ _ _ B) as (y & -> & By). pose proof (blames_det json_env _ _ _ _ _ By _ (Fa c)) as Y. injection Y as ->.
    unfold ere. rewrite slen_split. do 4 f_equal. lia.
Qed.
