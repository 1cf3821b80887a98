(** PropLua.v - C65, C66: long brackets and binary operators of the Lua grammar. *)
From Verif Require Import LuaFacts UseFacts ExKit.
From Coq Require Import Lia ZifyBool.
From Verif Require Import ReaderSteps ReaderScan.

Section Strings.
Context {L : GoLib} (e : env).
Lemma quoted_no q b : bz q < 128 -> ~ begins b [q] -> out e (IR (lua_quoted q)) b false b.
Proof. intros Q N. eapply o_seq_no. apply os_stop. apply (rune_no e q); auto. Qed.
Lemma string_long b ok c c' b' : eats e (IR (long lua_str_cell (RRune 0x5b))) c (x5b :: b) ok c' b' ->
  eats e (IR lua_string) c (x5b :: b) ok c' (if ok then b' else x5b :: b).
Proof.
  intros D. apply (e_any e _ c _ ok c' b'). eapply i_any_next; [apply (quoted_no x22); [reflexivity|intros [q Q]; discriminate]|].
  eapply i_any_next; [apply (quoted_no x27); [reflexivity|intros [q Q]; discriminate]|]. destruct ok; [apply i_any_hit; exact D|].
  eapply i_any_next; [exact D|apply i_any_nil].
Qed.
Lemma open_bracket b : out e (IR (RRune 0x5b)) (x5b :: b) true b.
Proof. apply (rune_yes e x5b). reflexivity. Qed.
Lemma opening_is k b : opening k ++ b = [x5b] ++ eqs k ++ x5b :: b.
Proof. unfold opening. cbn [app]. rewrite <- app_assoc. reflexivity. Qed.
Lemma run_to r c s a b w rest c' : at_split s a b -> h_cells (hp s) = c -> b = w ++ rest -> eats e (IR r) c b true c' rest -> exists s', reads e r s None s' /\ at_split s' (a ++ w) rest.
Proof.
  intros H <- -> D. destruct (eats_reads _ _ _ _ _ _ _ _ _ D (stands_split _ _ _ H)) as ([x|] & s' & R & O & S); [discriminate|]. exists s'. split; auto.
  eapply stands_at; [|exact S]. rewrite app_assoc. auto.
Qed.
Lemma run_fail r c s a b c' : at_split s a b -> h_cells (hp s) = c -> eats e (IR r) c b false c' b -> exists x s', reads e r s (Some x) s' /\ at_split s' a b.
Proof.
  intros H <- D. destruct (eats_reads _ _ _ _ _ _ _ _ _ D (stands_split _ _ _ H)) as ([x|] & s' & R & O & S); [|discriminate]. exists x, s'. split; auto.
  eapply stands_at; [|exact S]. auto.
Qed.
Lemma eats_word r c b c' rest : eats e (IR r) c b true c' rest -> exists w, b = w ++ rest.
Proof. apply eats_suffix. Qed.
End Strings.

(** C65.  False: a bracket and [k] equal signs inside the string make LuaString forget its level. *)
Theorem C65_long_bracket_refuted {L : GoLib} : ~ (forall e s a k v rest, at_split s a (opening k ++ v ++ closing k ++ rest) ->
  wf_text (v ++ closing k ++ rest) -> first_at (v ++ closing k ++ rest) v (closing k) ->
  exists s', reads e lua_string s None s' /\ at_split s' (a ++ opening k ++ v ++ closing k) rest).
Proof.
  intros H. set (t := lit "[=[a]=b]=]"). assert (F : exists x s', reads [] lua_string (init_st t) (Some x) s') by (eexists _, _; run 100%nat).
  destruct (H [] (init_st t) [] 1%nat (lit "a]=b") []) as (s' & R & _).
  - repeat split; reflexivity.
  - apply valid_wf. vm_compute. reflexivity.
  - split; [exists []; reflexivity|]. intros v' t' E. cbn in E. do 4 (destruct v' as [|? v']; cbn [app] in E; [discriminate E|]; injection E as _ E). cbn. lia.
  - destruct F as (x & s2 & R2). destruct (reads_fun _ _ _ _ _ _ _ R R2) as [X _]. discriminate.
Qed.
Print Assumptions C65_long_bracket_refuted.
(** Nor is it true at level 0, when the content is not well-formed UTF-8: Past steps by three bytes over an ill-formed one. *)
Theorem C65_ill_formed_refuted {L : GoLib} : ~ (forall e s a v rest, at_split s a (opening 0 ++ v ++ closing 0 ++ rest) ->
  first_at (v ++ closing 0 ++ rest) v (closing 0) -> exists s', reads e lua_string s None s' /\ at_split s' (a ++ opening 0 ++ v ++ closing 0) rest).
Proof.
  intros H. set (t := lit "[[" ++ [xff] ++ lit "]]"). assert (F : exists x s', reads [] lua_string (init_st t) (Some x) s') by (eexists _, _; run 100%nat).
  destruct (H [] (init_st t) [] [xff] []) as (s' & R & _).
  - repeat split; reflexivity.
  - split; [exists []; reflexivity|]. intros v' t' E. destruct v' as [|? v']; [discriminate E|]. cbn. lia.
  - destruct F as (x & s2 & R2). destruct (reads_fun _ _ _ _ _ _ _ R R2) as [X _]. discriminate.
Qed.
Print Assumptions C65_ill_formed_refuted.
(** On well-formed text it is true, if no bracket followed by [k] equal signs comes before the closing bracket, or [k = 0]. *)
Theorem C65_long_bracket_partial {L : GoLib} e s a k v rest : at_split s a (opening k ++ v ++ closing k ++ rest) ->
  wf_text (v ++ closing k ++ rest) -> first_at (v ++ closing k ++ rest) v (closing k) ->
  (k = 0%nat \/ first_at (v ++ closing k ++ rest) v (near k)) ->
  exists s', reads e lua_string s None s' /\ at_split s' (a ++ opening k ++ v ++ closing k) rest.
Proof.
  intros H W F N. destruct (long_yes e lua_str_cell (RRune 0x5b) [x5b] k _ rest (open_bracket e _) W (le_close _ _ _ _ eq_refl F N) (h_cells (hp s))) as (c' & D).
  eapply run_to; [exact H|reflexivity| |].
  - rewrite <- !app_assoc. reflexivity.
  - rewrite opening_is. exact (string_long e _ true _ _ _ D).
Qed.
Print Assumptions C65_long_bracket_partial.
(** Exactly: what LuaString reads of a well-formed text behind an opening bracket. *)
Theorem C65_long_bracket_exact {L : GoLib} e s a k b : at_split s a (opening k ++ b) -> wf_text b ->
  (forall rest, long_ends k b rest -> exists w s', b = w ++ rest /\ reads e lua_string s None s' /\ at_split s' (a ++ opening k ++ w) rest) /\
  ((forall rest, ~ long_ends k b rest) -> exists x s', reads e lua_string s (Some x) s' /\ at_split s' a (opening k ++ b)).
Proof.
  intros H W. split.
  - intros rest E. destruct (long_yes e lua_str_cell (RRune 0x5b) [x5b] k b rest (open_bracket e _) W E (h_cells (hp s))) as (c' & D).
    assert (X : exists w, b = w ++ rest) by (destruct (past_true e 0 k b rest W E (put [] [] 0 (eqs k)) (level_put 0 k [])) as (c2 & _ & P); exact (eats_suffix _ _ _ _ _ _ _ P)).
    destruct X as [w Ew]. exists w. destruct (run_to e lua_string (h_cells (hp s)) s a _ (opening k ++ w) rest c' H eq_refl) as (s' & R & S).
    + rewrite Ew, app_assoc. reflexivity.
    + rewrite opening_is. exact (string_long e _ true _ _ _ D).
    + exists s'. auto.
  - intros N. destruct (long_no e lua_str_cell (RRune 0x5b) [x5b] k b (open_bracket e _) W N (h_cells (hp s))) as (c' & D).
    eapply run_fail; [exact H|reflexivity|]. rewrite opening_is. exact (string_long e _ false _ _ _ D).
Qed.
Print Assumptions C65_long_bracket_exact.
(** One bracket that is none: equal signs followed by another byte. *)
Theorem C65_no_bracket {L : GoLib} e s a k b : at_split s a (x5b :: eqs k ++ b) -> ~ begins b [x3d] -> ~ begins b [x5b] ->
  exists x s', reads e lua_string s (Some x) s' /\ at_split s' a (x5b :: eqs k ++ b).
Proof.
  intros H N1 N2. destruct (long_open e lua_str_cell (RRune 0x5b) [x5b] k b (open_bracket e _) N1 N2 (h_cells (hp s))) as (c' & D).
  eapply run_fail; [exact H|reflexivity|]. exact (string_long e _ false _ _ _ D).
Qed.
Print Assumptions C65_no_bracket.
(** Cases: a bracket of level 2 with one of level 1 inside; one that is lost and found again. *)
Example C65_here {L : GoLib} : exists s', reads [] lua_string (init_st (lit "[==[a]=]]b]==]c")) None s' /\ at_split s' (lit "[==[a]=]]b]==]") (lit "c").
Proof.
  apply (C65_long_bracket_partial [] (init_st (lit "[==[a]=]]b]==]c")) [] 2 (lit "a]=]]b") (lit "c")); [repeat split; reflexivity|apply valid_wf; vm_compute; reflexivity| |right];
  (split; [exists (lit "]c") + exists (lit "c"); reflexivity|]; intros v' t' E; cbn in E; do 6 (destruct v' as [|? v']; cbn [app] in E; [discriminate E|]; injection E as _ E); cbn; lia).
Qed.
Example C65_lost_here : long_ends 1 (lit "a]=b]=]c]]d") (lit "d").
Proof.
  apply (le_lost 1 _ (lit "a") (lit "b]=]c]]d") (lit "=b]=]c") (lit "d")); [lia|reflexivity| |intros [q Q]; discriminate|reflexivity|];
  (split; [eexists; reflexivity|]; intros v' t' E; cbn in E; repeat (destruct v' as [|? v']; cbn [app] in E; [discriminate E|]; injection E as _ E); cbn; lia).
Qed.

(** C66.  The order in which binop tries its literals (lua.go:118). *)
Definition binop_order : list bytes := map lit
  [".."; "<="; "<"; ">="; ">"; "=="; "~="; "and"; "or"; "+"; "-"; "*"; "/"; "//"; "^"; "%"; "&"; "~"; "|"; ">>"; "<<"]%string.
Definition binop_reads (op : bytes) : bytes := if existsb (bytes_eqb op) (map lit ["//"; "<<"; ">>"]%string) then firstn 1 op else op.
Lemma binop_rule {L : GoLib} : r_reader (get_rule lua_env lBinOp) = Some (RAny (map RLit binop_order)).
Proof. vm_compute. reflexivity. Qed.
Lemma binop_run {L : GoLib} b : match first_lit binop_order b with
  | Some x => exists t, b = x ++ t /\ out lua_env (IR (RRule lBinOp)) b true t | None => out lua_env (IR (RRule lBinOp)) b false b end.
Proof.
  pose proof (any_lits lua_env binop_order b) as H. destruct (first_lit binop_order b) as [x|].
  - destruct H as (t & E & O). exists t. split; auto. eapply o_rule; [apply binop_rule|exact O].
  - eapply o_rule; [apply binop_rule|exact H].
Qed.
Lemma binop_same x : In x binop_order <-> In x lua_binops.
Proof. cbn. tauto. Qed.
Lemma has_longer b op x : longest_op b op -> In x lua_binops -> (length op < length x)%nat -> has_prefix b x = false.
Proof. intros (_ & _ & M) I Lt. destruct (has_prefix b x) eqn:Q; auto. apply has_prefix_iff in Q. specialize (M x I Q). lia. Qed.
Lemma binop_first b op : longest_op b op -> first_lit binop_order b = Some (binop_reads op).
Proof.
  intros H. pose proof H as (I & [t ->] & _). unfold binop_order, lua_binops in *. cbn [map] in *.
  assert (Long : forall x, In x lua_binops -> (length op < length x)%nat -> has_prefix (op ++ t) x = false) by (intros x; apply has_longer; auto). clear H.
  cbn [In] in I. repeat match type of I with _ \/ _ => destruct I as [I|I] end; try contradiction; subst op; destruct t as [|y t]; try (vm_compute; reflexivity); cbn [first_lit];
    match goal with |- context [has_prefix (lit "~" ++ _)] => rewrite (Long (lit "~=") ltac:(cbn; tauto) ltac:(cbn; lia))
    | |- context [has_prefix (lit "<" ++ _)] => rewrite (Long (lit "<=") ltac:(cbn; tauto) ltac:(cbn; lia))
    | |- context [has_prefix (lit ">" ++ _)] => rewrite (Long (lit ">=") ltac:(cbn; tauto) ltac:(cbn; lia)) end; vm_compute; reflexivity.
Qed.
(** False: of the operators with two slashes, two less-than or two greater-than signs it reads the first byte only. *)
Theorem C66_binop_refuted {L : GoLib} : ~ (forall s a op rest, at_split s a (op ++ rest) -> longest_op (op ++ rest) op ->
  exists s', reads lua_env (RRule lBinOp) s None s' /\ at_split s' (a ++ op) rest).
Proof.
  intros H. assert (F : exists s', reads lua_env (RRule lBinOp) (init_st (lit "//")) None s' /\ pos (sc s') = 1) by (eexists; split; [run 10%nat|reflexivity]).
  destruct (H (init_st (lit "//")) [] (lit "//") []) as (s' & R & A).
  - repeat split; reflexivity.
  - split; [cbn; tauto|]. split; [exists []; reflexivity|]. intros op' I (t & E). apply (f_equal (@length _)) in E. rewrite !app_length in E. change (2 = length op' + length t)%nat in E. change (length op' <= 2)%nat. lia.
  - destruct F as (s2 & R2 & P). destruct (reads_fun _ _ _ _ _ _ _ R R2) as [_ ->]. destruct A as (_ & Q & _). cbn in Q. lia.
Qed.
Print Assumptions C66_binop_refuted.
(** The other operators are read completely. *)
Theorem C66_binop_partial {L : GoLib} s a op rest : at_split s a (op ++ rest) -> longest_op (op ++ rest) op ->
  ~ In op (map lit ["//"; "<<"; ">>"]%string) -> exists s', reads lua_env (RRule lBinOp) s None s' /\ at_split s' (a ++ op) rest.
Proof.
  intros H O N. pose proof (binop_run (op ++ rest)) as B. rewrite (binop_first _ _ O) in B. unfold binop_reads in B. destruct (existsb _ _) eqn:Q in B.
  { apply existsb_exists in Q as (x & I & E). apply bytes_eqb_eq in E. subst x. tauto. }
  destruct B as (t & E & D). apply app_inv_head in E. subst t. eapply run_to; [exact H|reflexivity|reflexivity|apply D].
Qed.
Print Assumptions C66_binop_partial.
(** Exactly: what is read where an operator stands, and where none stands. *)
Theorem C66_binop_exact {L : GoLib} s a b : at_split s a b ->
  (forall op, longest_op b op -> exists rest s', b = binop_reads op ++ rest /\ reads lua_env (RRule lBinOp) s None s' /\ at_split s' (a ++ binop_reads op) rest) /\
  ((forall op, In op lua_binops -> ~ begins b op) -> exists x s', reads lua_env (RRule lBinOp) s (Some x) s' /\ at_split s' a b).
Proof.
  intros H. pose proof (binop_run b) as B. split.
  - intros op O. rewrite (binop_first _ _ O) in B. destruct B as (t & E & D). exists t. destruct (run_to lua_env (RRule lBinOp) _ s a b _ t _ H eq_refl E (D _)) as (s' & R & S). exists s'. auto.
  - intros N. assert (X : first_lit binop_order b = None) by (apply first_lit_none; intros x I; apply N, binop_same; auto). rewrite X in B.
    eapply run_fail; [exact H|reflexivity|apply B].
Qed.
Print Assumptions C66_binop_exact.
Example C66_here {L : GoLib} : longest_op (lit "<=1") (lit "<=") /\ exists s', reads lua_env (RRule lBinOp) (mk (lit "a<=1") 1) None s' /\ at_split s' (lit "a<=") (lit "1").
Proof.
  assert (Q : longest_op (lit "<=1") (lit "<=")).
  { split; [cbn; tauto|]. split; [exists (lit "1"); reflexivity|]. intros op I [t E]. cbn in I.
    repeat match type of I with _ \/ _ => destruct I as [I|I] end; try contradiction; subst op; try discriminate E; cbn; lia. }
  split; auto. apply (C66_binop_partial (mk (lit "a<=1") 1) (lit "a") (lit "<=") (lit "1")); [split_here|exact Q|]. cbn. intros X. repeat match type of X with _ \/ _ => destruct X as [X|X] end; try discriminate; contradiction.
Qed.
