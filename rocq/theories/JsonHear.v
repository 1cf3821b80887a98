(** JsonHear.v - the calls of functions mapped to rules of JSON(). *)
From Verif Require Export JsonTree Silent.
From Coq Require Import Lia ZifyBool.

Section Heard.
Context {L : GoLib} (who : bytes -> nat) (ids : list nat) (Nd : NoDup ids) (Sub : incl ids stack_ids) (N : Z).
Notation E := json_env.
Notation E2 := (map_rules who ids json_env).
Notation on := (named json_env ids).
Notation R := (chosen leaf_ids).
(** A call for every segment: of the function for its name, with its token. *)
Definition told (l : list segment) : list act := map (fun g => ACall (who (s_info g)) (s_tok g)) l.
Definition yields (i : item) (b : bytes) (ok : bool) (b' : bytes) (l : list segment) : Prop := forall c, traces E2 N i c b ok c b' (told l).
Lemma told_app l m : told (l ++ m) = told l ++ told m.
Proof. apply map_app. Qed.

Lemma heard_altered : altered (fun r => rule_map E (who (r_name r)) r) (chosen ids) E E2.
Proof. apply map_altered; auto. intros i H. apply Sub in H. cbn in H. repeat destruct H as [<-|H]; try contradiction; vm_compute; lia. Qed.
Lemma not_picked i r : chosen ids i = false -> r_reader (get_rule E i) = Some r -> r_reader (get_rule E2 i) = Some r.
Proof. apply (map_no _ _ _ _ heard_altered). Qed.
Lemma picked_rule i r : chosen ids i = true -> r_reader (get_rule E i) = Some r -> r_reader (get_rule E2 i) = Some (RMap (who (r_name (get_rule E i))) r).
Proof. apply (map_yes _ _ _ _ heard_altered). Qed.
Lemma leaves_silent i r : R i = true -> r_reader (get_rule E i) = Some r -> r_reader (get_rule E2 i) = Some r /\ rallP (silent R) r.
Proof.
  intros H Q. split; [apply not_picked; eauto using leaf_not_picked|].
  apply existsb_exists in H as (j & J & X). apply Nat.eqb_eq in X. subst j. cbn in J.
  repeat destruct J as [<-|J]; try contradiction; vm_compute in Q; injection Q as <-; cbn; repeat split.
Qed.
Lemma y_plain i b ok b' : out E i b ok b' -> iallP (silent R) i -> yields i b ok b' [].
Proof. intros O H c. eapply (silent_traces E E2 R leaves_silent); eauto. Qed.

(** The lemmas of PegBytes.v with segments. *)
Lemma y_rule i r b ok b' l : chosen ids i = false -> r_reader (get_rule E i) = Some r -> yields (IR r) b ok b' l -> yields (IR (RRule i)) b ok b' l.
Proof. intros H Q Y c. eapply te_rule; [apply not_picked; eauto|apply Y]. Qed.
Lemma y_any rs b b' l : yields (IAny rs) b true b' l -> yields (IR (RAny rs)) b true b' l.
Proof. intros Y c. exact (te_any E2 rs c b true c b' N _ (Y c)). Qed.
Lemma y_any_no rs b b' : yields (IAny rs) b false b' [] -> yields (IR (RAny rs)) b false b [].
Proof. intros Y c. exact (te_any E2 rs c b false c b' N _ (Y c)). Qed.
Lemma y_seq rs b b' l : yields (ISeq rs) b true b' l -> yields (IR (RSeq rs)) b true b' l.
Proof. intros Y c. exact (te_seq E2 rs c b true c b' N _ (Y c)). Qed.
Lemma y_seq_no rs b b' : yields (ISeq rs) b false b' [] -> yields (IR (RSeq rs)) b false b [].
Proof. intros Y c. exact (te_seq E2 rs c b false c b' N _ (Y c)). Qed.
Lemma ya_hit r rs b b' l : yields (IR r) b true b' l -> yields (IAny (r :: rs)) b true b' l.
Proof. intros Y c. apply ti_any_hit. apply Y. Qed.
Lemma ya_next r rs b ok b' l : yields (IR r) b false b [] -> yields (IAny rs) b ok b' l -> yields (IAny (r :: rs)) b ok b' l.
Proof. intros Y Z c. exact (ti_any_next E2 r rs c b c b ok c b' N _ _ (Y c) (Z c)). Qed.
Lemma ya_nil b : yields (IAny []) b false b [].
Proof. intros c. constructor. Qed.
Lemma ys_nil b : yields (ISeq []) b true b [].
Proof. intros c. constructor. Qed.
Lemma ys_stop r rs b b' l : yields (IR r) b false b' l -> yields (ISeq (r :: rs)) b false b' l.
Proof. intros Y c. apply ti_seq_stop. apply Y. Qed.
Lemma ys_next r rs b b1 l1 ok b' l : yields (IR r) b true b1 l1 -> yields (ISeq rs) b1 ok b' l -> yields (ISeq (r :: rs)) b ok b' (l1 ++ l).
Proof. intros Y Z c. rewrite told_app. eapply ti_seq_next; [apply Y|apply Z]. Qed.
Lemma ys_skip r rs b b1 ok b' l : yields (IR r) b true b1 [] -> yields (ISeq rs) b1 ok b' l -> yields (ISeq (r :: rs)) b ok b' l.
Proof. intros Y Z. apply (ys_next r rs b b1 [] ok b' l Y Z). Qed.
Lemma yr_stop r b b' l : yields (IR r) b false b' l -> yields (IRep r) b true b' l.
Proof. intros Y c. apply ti_rep_stop. apply Y. Qed.
Lemma yr_next r b b1 l1 b' l : yields (IR r) b true b1 l1 -> yields (IRep r) b1 true b' l -> yields (IRep r) b true b' (l1 ++ l).
Proof. intros Y Z c. rewrite told_app. eapply ti_rep_next; [apply Y|apply Z]. Qed.
Lemma y_zom r b b' l : yields (IRep r) b true b' l -> yields (IR (RZom r)) b true b' l.
Proof. intros Y c. apply te_zom. apply Y. Qed.
Lemma y_rune_yes n x b : 0 <= n < 128 -> is n x = true -> yields (IR (RRune n)) (x :: b) true b [].
Proof. intros H X. apply y_plain; [eapply o_takes_yes; [apply t_rune; auto|auto]|repeat split]. Qed.
Lemma y_rune_no n b : 0 <= n < 128 -> first (is n) b = false -> yields (IR (RRune n)) b false b [].
Proof. intros H X. apply y_plain; [eapply o_takes_no; [apply t_rune; auto|auto]|repeat split]. Qed.
Lemma y_ws w b : j_ws w -> first b_ws b = false -> yields (IR (RRule jWS)) (w ++ b) true b [].
Proof. intros H X. apply y_plain; [apply o_ws; auto|repeat split]. Qed.

(** A rule that may be mapped. *)
Lemma y_node i name r w b kids : r_reader (get_rule E i) = Some r -> r_name (get_rule E i) = name -> In i stack_ids -> on name = chosen ids i ->
  yields (IR r) (w ++ b) true b (flat_map post kids) ->
  yields (IR (RRule i)) (w ++ b) true b (flat_map post (shown on name (N - slen (w ++ b)) w kids)).
Proof.
  intros Q Nm In On Y c. unfold shown. rewrite On. destruct (chosen ids i) eqn:H.
  - eapply te_rule; [apply picked_rule; eauto|]. pose proof (te_map E2 (who (r_name (get_rule E i))) r c (w ++ b) true c b N _ (Y c)) as G.
    cbn [flat_map post]. rewrite app_nil_r, told_app, Nm in *. unfold told at 2. cbn [map s_info s_tok].
    replace (N - slen (w ++ b) + slen w) with (N - slen b); [exact G|]. unfold slen. rewrite app_length. lia.
  - eapply te_rule; [apply not_picked; eauto|]. apply Y.
Qed.
Lemma y_no i r b : r_reader (get_rule E i) = Some r -> yields (IR r) b false b [] -> yields (IR (RRule i)) b false b [].
Proof.
  intros Q Y c. destruct (chosen ids i) eqn:H.
  - eapply te_rule; [apply picked_rule; eauto|]. exact (te_map E2 (who (r_name (get_rule E i))) r c b false c b N _ (Y c)).
  - eapply te_rule; [apply not_picked; eauto|]. apply Y.
Qed.
Ltac in_stack := cbn; tauto.
Ltac node i name env := apply (y_node i name _ _ _ _ env); [vm_compute; reflexivity|in_stack|apply (on_is ids Sub i); [in_stack|vm_compute; reflexivity]|].
Lemma y_object w b kids : yields (IR (RAny [RRule jMembers; RRule jWS])) (w ++ x7d :: b) true (x7d :: b) (flat_map post kids) ->
  yields (IR (RRule jObject)) ((lit "{" ++ w ++ lit "}") ++ b) true b (flat_map post (shown on (lit "object") (N - slen ((lit "{" ++ w ++ lit "}") ++ b)) (lit "{" ++ w ++ lit "}") kids)).
Proof.
  intros Y. node jObject (lit "object") env_object. rewrite bracketed. apply y_seq. cbn [app lit]. apply ys_skip with (b1 := w ++ x7d :: b); [apply y_rune_yes; [lia|reflexivity]|].
  rewrite <- (app_nil_r (flat_map post kids)). eapply ys_next; [exact Y|]. eapply ys_skip; [apply y_rune_yes; [lia|reflexivity]|apply ys_nil].
Qed.
Lemma y_array w b kids : yields (IR (RAny [RRule jElements; RRule jWS])) (w ++ x5d :: b) true (x5d :: b) (flat_map post kids) ->
  yields (IR (RRule jArray)) ((lit "[" ++ w ++ lit "]") ++ b) true b (flat_map post (shown on (lit "array") (N - slen ((lit "[" ++ w ++ lit "]") ++ b)) (lit "[" ++ w ++ lit "]") kids)).
Proof.
  intros Y. node jArray (lit "array") env_array. rewrite bracketed. apply y_seq. cbn [app lit]. apply ys_skip with (b1 := w ++ x5d :: b); [apply y_rune_yes; [lia|reflexivity]|].
  rewrite <- (app_nil_r (flat_map post kids)). eapply ys_next; [exact Y|]. eapply ys_skip; [apply y_rune_yes; [lia|reflexivity]|apply ys_nil].
Qed.
Lemma y_object_no b : first (is 0x7B) b = false -> yields (IR (RRule jObject)) b false b [].
Proof. intros F. eapply y_no; [apply env_object|]. eapply y_seq_no, ys_stop, y_rune_no; [lia|auto]. Qed.
Lemma y_array_no b : first (is 0x5B) b = false -> yields (IR (RRule jArray)) b false b [].
Proof. intros F. eapply y_no; [apply env_array|]. eapply y_seq_no, ys_stop, y_rune_no; [lia|auto]. Qed.
Lemma y_string_no i b : r_reader (get_rule E i) = Some rd_string -> first (is 0x22) b = false -> yields (IR (RRule i)) b false b [].
Proof. intros Q F. eapply y_no; [exact Q|]. eapply y_seq_no, ys_stop, y_rune_no; [lia|auto]. Qed.
Lemma y_number_no b : first (is 0x2D) b = false -> first b_dig b = false -> yields (IR (RRule jNumber)) b false b [].
Proof.
  intros F1 F2. eapply y_no; [apply env_number|]. apply y_plain; [|repeat split]. eapply out_rule_inv; [apply env_number|]. apply o_number_no; auto.
Qed.
Lemma y_bool_no b : first (is 0x74) b = false -> first (is 0x66) b = false -> yields (IR (RRule jBool)) b false b [].
Proof.
  intros F1 F2. eapply y_no; [apply env_bool|]. apply y_plain; [|repeat split]. eapply out_rule_inv; [apply env_bool|]. apply o_bool_no; auto.
Qed.
Lemma y_null_no b : first (is 0x6E) b = false -> yields (IR (RRule jNull)) b false b [].
Proof.
  intros F1. eapply y_no; [apply env_null|]. apply y_plain; [|repeat split]. eapply out_rule_inv; [apply env_null|]. apply o_null_no; auto.
Qed.
Ltac inner env := eapply y_rule; [apply (inner_not_picked ids Sub); cbn; tauto|apply env|].
Lemma y_value_close x b : x = x5d \/ x = x7d -> yields (IR (RRule jValue)) (x :: b) false (x :: b) [].
Proof.
  intros X. inner env_value. eapply y_any_no.
  apply ya_next; [apply y_object_no; destruct X as [->| ->]; reflexivity|]. apply ya_next; [apply y_array_no; destruct X as [->| ->]; reflexivity|].
  apply ya_next; [apply y_string_no; [apply env_string|destruct X as [->| ->]; reflexivity]|]. apply ya_next; [apply y_number_no; destruct X as [->| ->]; reflexivity|].
  apply ya_next; [apply y_bool_no; destruct X as [->| ->]; reflexivity|]. apply ya_next; [apply y_null_no; destruct X as [->| ->]; reflexivity|apply ya_nil].
Qed.
Lemma y_more_stop i b : first (is 0x2C) b = false -> yields (IRep (rd_more i)) b true b [].
Proof. intros F. eapply yr_stop, y_seq_no, ys_stop, y_rune_no; [lia|auto]. Qed.

Definition yields_as (s : jsort) (w : bytes) (p : Z) (kids : list node) : Prop :=
  match s with
  | Value => forall b, p = N - slen (w ++ b) -> (j_number w -> no_frac b) -> yields (IR (RRule jValue)) (w ++ b) true b (flat_map post kids)
  | Element => forall b, p = N - slen (w ++ b) -> follow b -> yields (IR (RRule jElement)) (w ++ b) true b (flat_map post kids)
  | Member => forall b, p = N - slen (w ++ b) -> follow b -> yields (IR (RRule jMember)) (w ++ b) true b (flat_map post kids)
  | Elements => forall b, p = N - slen (w ++ b) -> ends b -> exists b1 l1 l2, yields (IR (RRule jElement)) (w ++ b) true b1 l1 /\ yields (IRep (rd_more jElement)) b1 true b l2 /\ flat_map post kids = l1 ++ l2
  | Members => forall b, p = N - slen (w ++ b) -> ends b -> exists b1 l1 l2, yields (IR (RRule jMember)) (w ++ b) true b1 l1 /\ yields (IRep (rd_more jMember)) b1 true b l2 /\ flat_map post kids = l1 ++ l2
  end.
Ltac at_pos := match goal with Hp : _ = N - slen _ |- _ => revert Hp; clear; rewrite !slen_app; change (slen (lit "{")) with 1; change (slen (lit "[")) with 1; change (slen (lit "}")) with 1;
  change (slen (lit "]")) with 1; change (slen (lit ":")) with 1; change (slen (lit ",")) with 1; rewrite ?slen_cons; lia end.
Ltac two := apply ya_next; [apply y_object_no; reflexivity|]; apply ya_next; [apply y_array_no; reflexivity|].
Ltac four := two; apply ya_next; [apply y_string_no; [apply env_string|reflexivity]|]; apply ya_next; [apply y_number_no; reflexivity|].
Lemma nodes_read s p w kids : json_nodes on s p w kids -> yields_as s w p kids.
Proof.
  induction 1 as [p w W|p m kids H IH|p w W|p l kids H IH|p w Sw|p w Nw|p|p|p|p w1 q w2 x kids W1 Sk W2 H IH|p m kids H IH|p m l k1 k2 H1 IH1 H2 IH2|p w1 v w2 kids W1 H IH W2|p x kids H IH|p x l k1 k2 H1 IH1 H2 IH2]; cbn [yields_as] in *; intros b Hp Fb.
  - inner env_value. apply y_any, ya_hit. rewrite Hp. apply y_object. cbn [flat_map]. apply y_any, ya_next; [|apply ya_hit, y_ws; [exact W|reflexivity]].
    inner env_members. eapply y_seq_no, ys_stop. inner env_member. eapply y_seq_no, ys_skip; [apply y_ws; [exact W|reflexivity]|]. eapply ys_stop, y_string_no; [apply env_key|reflexivity].
  - inner env_value. apply y_any, ya_hit. rewrite Hp. apply y_object. apply y_any, ya_hit. inner env_members.
    destruct (IH (x7d :: b)) as (b1 & l1 & l2 & Y1 & Y2 & ->); [at_pos|apply ends_close; auto|]. apply y_seq. eapply ys_next; [exact Y1|].
    rewrite <- (app_nil_r l2). eapply ys_next; [apply y_zom; exact Y2|apply ys_nil].
  - inner env_value. apply y_any, ya_next; [apply y_object_no; reflexivity|]. apply ya_hit. rewrite Hp. apply y_array. cbn [flat_map]. apply y_any, ya_next; [|apply ya_hit, y_ws; [exact W|reflexivity]].
    inner env_elements. eapply y_seq_no, ys_stop. inner env_element. eapply y_seq_no, ys_skip; [apply y_ws; [exact W|reflexivity]|]. apply ys_stop, y_value_close. auto.
  - inner env_value. apply y_any, ya_next; [apply y_object_no; reflexivity|]. apply ya_hit. rewrite Hp. apply y_array. apply y_any, ya_hit. inner env_elements.
    destruct (IH (x5d :: b)) as (b1 & l1 & l2 & Y1 & Y2 & ->); [at_pos|apply ends_close; auto|]. apply y_seq. eapply ys_next; [exact Y1|].
    rewrite <- (app_nil_r l2). eapply ys_next; [apply y_zom; exact Y2|apply ys_nil].
  - pose proof (o_string w b Sw) as O. rewrite Hp. inner env_value. pose proof Sw as Sw0. apply string_first in Sw0 as [t Et]. apply y_any. apply ya_next; [rewrite Et; apply y_object_no; reflexivity|]. apply ya_next; [rewrite Et; apply y_array_no; reflexivity|].
    apply ya_hit. node jString (lit "string") env_string. apply y_plain; [exact O|repeat split].
  - pose proof (o_number w b Nw (Fb Nw)) as O. rewrite Hp. inner env_value. pose proof Nw as Nw0. apply number_first in Nw0 as (x & t & Et & X).
    assert (Nx : forall n, n = 0x7B \/ n = 0x5B \/ n = 0x22 -> first (is n) (w ++ b) = false).
    { intros n Hn. rewrite Et. cbn [app first]. destruct X as [->|X]; [destruct Hn as [->|[->| ->]]; reflexivity|]. unfold is, dig in *. lia. }
    apply y_any. apply ya_next; [apply y_object_no, Nx; auto|]. apply ya_next; [apply y_array_no, Nx; auto|]. apply ya_next; [apply y_string_no; [apply env_string|apply Nx; auto]|].
    apply ya_hit. node jNumber (lit "number") env_number. apply y_plain; [|repeat split]. eapply out_rule_inv; [apply env_number|exact O].
  - rewrite Hp. inner env_value. apply y_any. four. apply ya_hit. node jBool (lit "bool") env_bool. apply y_plain; [apply o_any, oa_hit, o_lit|repeat split].
  - rewrite Hp. inner env_value. apply y_any. four. apply ya_hit. node jBool (lit "bool") env_bool.
    apply y_plain; [eapply o_any, oa_next; [apply o_lit_no; intros t; discriminate|]; apply oa_hit, o_lit|repeat split].
  - rewrite Hp. inner env_value. apply y_any. four. apply ya_next; [apply y_bool_no; reflexivity|]. apply ya_hit. node jNull (lit "null") env_null. apply y_plain; [apply o_lit|repeat split].
  - inner env_member. apply y_seq. rewrite <- !app_assoc. eapply ys_skip; [apply y_ws; auto; apply string_first in Sk as [t ->]; reflexivity|].
    rewrite flat_map_app. eapply ys_next.
    { replace (p + slen w1) with (N - slen (q ++ w2 ++ (lit ":" ++ x) ++ b)) by at_pos. node jKey (lit "key") env_key. apply y_plain; [apply o_string; auto|repeat split]. }
    eapply ys_skip; [apply y_ws; [exact W2|reflexivity]|]. eapply ys_skip; [apply y_rune_yes; [lia|reflexivity]|]. rewrite <- (app_nil_r (flat_map post kids)).
    eapply ys_next; [apply IH; [at_pos|auto]|apply ys_nil].
  - exists b, (flat_map post kids), []. split; [apply IH; [auto|apply Fb]|]. split; [apply y_more_stop; apply Fb|rewrite app_nil_r; auto].
  - destruct (IH2 b) as (b1 & l1 & l2 & Y1 & Y2 & Q); [at_pos|auto|]. exists (x2c :: l ++ b), (flat_map post k1), (l1 ++ l2). rewrite <- !app_assoc in *.
    split; [apply IH1; [exact Hp|apply follow_comma]|]. split; [|rewrite flat_map_app; congruence]. eapply yr_next; [|exact Y2]. apply y_seq.
    eapply ys_skip; [apply y_rune_yes; [lia|reflexivity]|]. rewrite <- (app_nil_r l1). eapply ys_next; [exact Y1|apply ys_nil].
  - inner env_element. apply y_seq. rewrite <- !app_assoc. eapply ys_skip; [apply y_ws; [exact W1|apply value_first; eapply tree_text; eauto]|].
    rewrite <- (app_nil_r (flat_map post kids)). eapply ys_next; [apply IH; [at_pos|intros _; apply follow_ws; auto]|]. eapply ys_skip; [apply y_ws; [exact W2|apply Fb]|apply ys_nil].
  - exists b, (flat_map post kids), []. split; [apply IH; [auto|apply Fb]|]. split; [apply y_more_stop; apply Fb|rewrite app_nil_r; auto].
  - destruct (IH2 b) as (b1 & l1 & l2 & Y1 & Y2 & Q); [at_pos|auto|]. exists (x2c :: l ++ b), (flat_map post k1), (l1 ++ l2). rewrite <- !app_assoc in *.
    split; [apply IH1; [exact Hp|apply follow_comma]|]. split; [|rewrite flat_map_app; congruence]. eapply yr_next; [|exact Y2]. apply y_seq.
    eapply ys_skip; [apply y_rune_yes; [lia|reflexivity]|]. rewrite <- (app_nil_r l1). eapply ys_next; [exact Y1|apply ys_nil].
Qed.
End Heard.

Section Top.
Context {L : GoLib} (who : bytes -> nat) (ids : list nat) (Nd : NoDup ids) (Sub : incl ids stack_ids) (N : Z).
Notation E := json_env.
Notation on := (named json_env ids).
Notation yields := (yields who ids N).
(** Either a JSON text with its tree, or failure, or a cut string. *)
Lemma top_tree b : (exists w kids b', b = w ++ b' /\ json_nodes on Element (N - slen b) w kids /\ yields (IR (RRule jElement)) b true b' (flat_map post kids)) \/
  out E (IR (RRule jElement)) b false b \/ SpecJson.cut Element b.
Proof.
  destruct (element_runs (S (length b)) b (le_n _)) as [(w & b0 & -> & J & _)|[O|C]]; auto.
  inversion J as [| | | | | | | | | | | |w1 v w2 W1 V W2| |]; subst. clear J. rewrite <- !app_assoc. set (r := w2 ++ b0). clearbody r. clear b0 w2 W2.
  assert (Y1 : yields (IR (RRule jWS)) (w1 ++ v ++ r) true (v ++ r) []) by (apply y_ws; auto; apply value_first; auto).
  assert (O1 : out E (IR (RRule jWS)) (w1 ++ v ++ r) true (v ++ r)) by (apply o_ws; auto; apply value_first; auto).
  assert (F : forall n kids b2, v ++ r = n ++ b2 -> json_nodes on Value (N - slen (n ++ b2)) n kids -> yields (IR (RRule jValue)) (v ++ r) true b2 (flat_map post kids) ->
     exists w kids b', w1 ++ v ++ r = w ++ b' /\ json_nodes on Element (N - slen (w1 ++ v ++ r)) w kids /\ yields (IR (RRule jElement)) (w1 ++ v ++ r) true b' (flat_map post kids)).
  { intros n kids b2 Q T Y2. destruct (ws_run b2) as (w2 & b3 & -> & W2 & F2 & O2). exists (w1 ++ n ++ w2), kids, b3.
    split; [rewrite Q, <- !app_assoc; auto|]. split.
    - apply jn_element; auto. replace (N - slen (w1 ++ v ++ r) + slen w1) with (N - slen (n ++ w2 ++ b3)); auto. rewrite Q, (slen_app w1). lia.
    - eapply y_rule; auto; [apply (inner_not_picked ids Sub); cbn; tauto|apply env_element|]. apply y_seq; auto. eapply ys_skip; [exact Y1|].
      rewrite <- (app_nil_r (flat_map post kids)). eapply ys_next; [exact Y2|]. eapply ys_skip; [apply y_ws; auto|apply ys_nil]. }
  destruct (value_kind v V) as [Nv|Nv].
  - pose proof Nv as Nv0. apply number_first in Nv0 as (x & t & -> & X).
    assert (Nx : forall n, n = 0x7B \/ n = 0x5B \/ n = 0x22 \/ n = 0x74 \/ n = 0x66 \/ n = 0x6E -> first (is n) ((x :: t) ++ r) = false).
    { intros n Hn. cbn [app first]. destruct X as [->|X]; [repeat destruct Hn as [->|Hn]; try reflexivity; subst; reflexivity|]. unfold is, dig in *. lia. }
    destruct (number_run ((x :: t) ++ r)) as [(n & b2 & Q & Jn & O)|O].
    + left. apply (F n (shown on (lit "number") (N - slen (n ++ b2)) n []) b2 Q); [apply jn_number; auto|]. rewrite Q in *.
      eapply y_rule; auto; [apply (inner_not_picked ids Sub); cbn; tauto|apply env_value|]. apply y_any. apply ya_next; [apply y_object_no; auto|]. apply ya_next; [apply y_array_no; auto|].
      apply ya_next; [apply y_string_no; auto; apply env_string|]. apply ya_hit. apply (y_node who ids Nd Sub N jNumber (lit "number") _ _ _ _ env_number); [vm_compute; reflexivity|cbn; tauto|apply (on_is ids Sub jNumber); [cbn; tauto|vm_compute; reflexivity]|].
      apply y_plain; auto; [|repeat split]. eapply out_rule_inv; [apply env_number|exact O].
    + right. left. eapply o_rule; [apply env_element|]. eapply o_seq_no, os_next; [exact O1|]. eapply os_stop. eapply o_rule; [apply env_value|]. eapply o_any_no.
      eapply oa_next; [apply o_object_no; apply Nx; tauto|]. eapply oa_next; [apply o_array_no; apply Nx; tauto|]. eapply oa_next; [apply o_string_no; [apply env_string|apply Nx; tauto]|]. eapply oa_next; [exact O|].
      eapply oa_next; [apply o_bool_no; apply Nx; tauto|]. eapply oa_next; [apply o_null_no; apply Nx; tauto|apply oa_nil].
  - left. destruct (tree_total on Value v V (N - slen (v ++ r))) as [kids T]. apply (F v kids r eq_refl T).
    apply (nodes_read who ids Nd Sub N Value (N - slen (v ++ r)) v kids T r eq_refl). tauto.
Qed.
End Top.
