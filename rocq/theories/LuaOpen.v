(** LuaOpen.v - grammar/lua.go on texts that do not break off inside a quoted string. *)
From Verif Require Export LuaComment SpecLuaOpen.
From Coq Require Import Lia ZifyBool.
From Verif Require Import ReaderSteps ReaderScan PegTotal.

(** Passing *)
Lemma passes_trans a b c : passes a b -> passes b c -> passes a c.
Proof.
  intros H. induction H as [| | |k b r b' E _ IH|v b b' N _ IH]; intros G; auto; [apply p_byte|apply p_string|apply (p_long k b r)|apply p_line]; auto.
Qed.
Lemma passes_bytes u b : Forall (fun x => ~ is_quote x) u -> passes (u ++ b) b.
Proof. induction 1; [apply p_here|]. cbn [app]. apply p_byte; auto. Qed.
Lemma breaks_passes b b' : passes b b' -> breaks_off b' -> breaks_off b.
Proof. intros P (d & Q & O). exists d. split; auto. eapply passes_trans; eauto. Qed.
Lemma open_breaks b : open_string b -> breaks_off b.
Proof. intros O. exists b. split; [apply p_here|auto]. Qed.

Lemma ends_suffix k b r : long_ends k b r -> exists d, b = d ++ r.
Proof.
  intros [v rest E _ _|v w v2 rest K E _ _ E2 _]; [exists (v ++ closing k); rewrite E, <- app_assoc; reflexivity|].
  exists (v ++ [x5d] ++ v2 ++ closing 0). rewrite E. unfold near. cbn [app]. rewrite E2, <- app_assoc. cbn [app]. rewrite <- app_assoc. reflexivity.
Qed.
Lemma passes_suffix b b' : passes b b' -> exists d, b = d ++ b'.
Proof.
  intros H. induction H as [b|x b b' N _ [d ->]|q u b b' Q J _ [d ->]|k b r b' E _ [d ->]|v b b' N _ [d IH]].
  - exists []. reflexivity.
  - exists (x :: d). reflexivity.
  - exists (q :: u ++ q :: d). cbn [app]. rewrite <- app_assoc. reflexivity.
  - apply ends_suffix in E as [p ->]. exists (opening k ++ p ++ d). rewrite <- !app_assoc. reflexivity.
  - rewrite IH. exists (lit "--" ++ v ++ d). rewrite <- !app_assoc. reflexivity.
Qed.
Lemma escape_printable u : l_escape u -> Forall (fun x => 0x20 <= bz x) u.
Proof.
  assert (D : forall x, l_hex x -> 0x20 <= bz x) by (unfold l_hex, l_digit; intros x; lia).
  intros H. destruct H as [x I|x I|h1 h2 A B|d [_ A]]; repeat (apply Forall_cons; [first [cbn; lia|auto]|]); try apply Forall_nil.
  - cbn in I. repeat (destruct I as [<-|I]; [cbn; lia|]). destruct I.
  - unfold l_digit in I. lia.
  - apply Forall_app. split; [|repeat constructor; cbn; lia]. eapply Forall_impl; [|exact A]. exact D.
Qed.
Lemma chars_printable q u : l_chars q u -> Forall (fun x => 0x20 <= bz x) u.
Proof. induction 1 as [|x w [P _] _ IH|v w V _ IH]; [constructor|constructor; auto|]. apply Forall_app. split; auto. apply escape_printable; auto. Qed.

(** Strings whose loop stops at the end of the text. *)
Definition hole2 (q : byte) : reader := RMatch [] (fun v => in_range 0x20 v MaxRune && negb (contains_rune [q; x5c] v)).
Definition char2 (q : byte) : reader := RAny [hole2 q; lua_escape].
Definition quoted2 (q : byte) : reader := RSeq [RRune (bz q); RZom (char2 q); RRune (bz q)].
Definition string2 : reader := RAny [quoted2 x22; quoted2 x27; long lua_str_cell (RRune 0x5b)].

Section Two.
Context {L : GoLib} (e : env).
Lemma hole_same q c b ok c' b' : b <> [] -> eats e (IR (hole q)) c b ok c' b' -> eats e (IR (hole2 q)) c b ok c' b'.
Proof.
  intros N D. inversion D; subst; try discriminate.
  match goal with E : rune_test _ = Some _ |- _ => injection E as <- end. pose proof (e_test e (hole2 q) (fun v i => negb (Nat.eqb i 0) && (in_range 0x20 v MaxRune && negb (contains_rune [q; x5c] v))) c' b eq_refl) as X.
  assert (Q : test (fun v i => negb (Nat.eqb i 0) && (in_range 0x20 v MaxRune && negb (contains_rune [q; x5c] v))) b = test (fun v i => in_range 0x20 v MaxRune && negb (contains_rune [q; x5c] v)) b).
  { unfold test. pose proof (decode_pos b N) as W. destruct (snd (decode_rune b)); [lia|]. reflexivity. }
  rewrite Q in X. exact X.
Qed.
Lemma char_same q c b ok c' b' : b <> [] -> eats e (IR (char_reader q)) c b ok c' b' -> eats e (IR (char2 q)) c b ok c' b'.
Proof.
  intros N D. inversion D; subst; try discriminate. apply (e_any e (hole2 q :: [lua_escape])).
  match goal with X : eats e (IAny _) _ _ _ _ _ |- _ => inversion X; subst end; [apply i_any_hit|eapply i_any_next; [|eassumption]]; apply hole_same; auto.
Qed.
Lemma chars_same q i c b ok c' b' : bz q < 128 -> q <> x5c -> eats e i c b ok c' b' -> i = IRep (char_reader q) -> eats e (IRep (char2 q)) c b ok c' b'.
Proof.
  intros Hq Hs D. induction D; intros E; try discriminate; injection E as ->.
  - eapply i_rep_stop, char_same; eauto. intros ->. exact (k_chs e q Hq 0 [] (le_n 0) (lc_nil q) _ _ _ _ (i_rep_stop _ _ _ _ _ _ D)).
  - eapply i_rep_next; [eapply char_same; eauto|apply IHD2; auto]. intros ->. exact (k_chs e q Hq 0 [] (le_n 0) (lc_nil q) _ _ _ _ (i_rep_next _ _ _ _ _ _ _ _ D1 D2)).
Qed.
Lemma quoted_same q c b ok c' b' : bz q < 128 -> q <> x5c -> eats e (IR (lua_quoted q)) c b ok c' b' -> eats e (IR (quoted2 q)) c b ok c' b'.
Proof.
  intros Hq Hs D. rewrite quoted_is in D. inversion D; subst; try discriminate. apply (e_seq e [RRune (bz q); RZom (char2 q); RRune (bz q)]).
  match goal with X : eats e (ISeq _) _ _ _ _ _ |- _ => inversion X; subst end; [apply i_seq_stop; auto|]. eapply i_seq_next; eauto.
  match goal with X : eats e (ISeq _) _ _ _ _ _ |- _ => inversion X; subst end;
  match goal with X : eats e (IR (RZom _)) _ _ _ _ _ |- _ => inversion X; subst; try discriminate end.
  eapply i_seq_next; [|eassumption]. apply e_zom. eapply chars_same; eauto.
Qed.
Lemma string_same c b ok c' b' : eats e (IR lua_string) c b ok c' b' -> eats e (IR string2) c b ok c' b'.
Proof.
  intros D. rewrite string_is in D. inversion D; subst; try discriminate. apply (e_any e [quoted2 x22; quoted2 x27; long lua_str_cell (RRune 0x5b)]).
  match goal with X : eats e (IAny _) _ _ _ _ _ |- _ => inversion X; subst; clear X end; [apply i_any_hit; apply quoted_same; auto; [reflexivity|discriminate]|].
  eapply i_any_next; [apply quoted_same; [reflexivity|discriminate|eassumption]|].
  match goal with X : eats e (IAny _) _ _ _ _ _ |- _ => inversion X; subst; clear X end; [apply i_any_hit; apply quoted_same; auto; [reflexivity|discriminate]|].
  eapply i_any_next; [apply quoted_same; [reflexivity|discriminate|eassumption]|]. assumption.
Qed.

(** Long brackets: they end somewhere, or the reader fails. *)
Lemma bracket_run b c : wf_text b -> (exists k b2 rest c', b = opening k ++ b2 /\ long_ends k b2 rest /\ eats e (IR (long lua_str_cell (RRune 0x5b))) c b true c' rest) \/
  exists c', eats e (IR (long lua_str_cell (RRune 0x5b))) c b false c' b.
Proof.
  intros W. destruct (lit_cases [x5b] b) as [[t ->]|Q].
  2:{ right. exists c. apply o_no_bracket. intros [t ->]. exact (Q t eq_refl). }
  destruct (eqs_span t) as (k & t2 & -> & N1).
  assert (O : forall u, out e (IR (RRune 0x5b)) ([x5b] ++ u) true u) by (intros u; apply (rune_yes e x5b); reflexivity).
  destruct (lit_cases [x5b] t2) as [[b2 ->]|Q].
  - assert (Wb : wf_text b2) by (eapply (wf_behind (x5b :: eqs k) x5b b2); [exact W|reflexivity]).
    destruct (past_run e lua_str_cell k b2 Wb) as [[rest N]|N].
    + left. destruct (long_yes e lua_str_cell (RRune 0x5b) [x5b] k b2 rest (O _) Wb N c) as (c' & D). exists k, b2, rest, c'. split; auto.
      unfold opening. cbn [app]. rewrite <- app_assoc. reflexivity.
    + right. destruct (N (put [] c lua_str_cell (eqs k)) (level_put lua_str_cell k c)) as (c' & _ & D). exists c'.
      apply (e_seq e _ c _ false c' b2). eapply i_seq_next; [apply (head_yes e lua_str_cell (RRune 0x5b) [x5b] k b2); auto|]. apply i_seq_stop. apply (e_past e _ _ _ false c' [] D).
  - right. apply (long_open e lua_str_cell (RRune 0x5b) [x5b] k t2); [apply O|exact N1|]. intros [q ->]. exact (Q q eq_refl).
Qed.
(** LuaString on a text that is no open string: it returns, and what it consumes is passed. *)
Lemma string_run b c : wf_text b -> ~ open_string b -> exists ok c' b', eats e (IR lua_string) c b ok c' b' /\ passes b b'.
Proof.
  intros W N. assert (X : (exists q t, b = q :: t /\ quote q) \/ (~ begins b [x22] /\ ~ begins b [x27])).
  { destruct b as [|x b]; [right; split; intros [t Q]; discriminate|]. destruct (byte_eq_dec x x22) as [->|A]; [left; exists x22, b; split; auto; left; auto|].
    destruct (byte_eq_dec x x27) as [->|B]; [left; exists x27, b; split; auto; right; auto|]. right. split; intros [t Q]; injection Q as Q _; congruence. }
  destruct X as [(q & t & -> & Q)|[N1 N2]].
  - destruct (quote_ok q Q) as (A & B & _). destruct (quoted_run e q A t) as [(u & rest & -> & J)|[J|O]].
    + exists true, c, rest. split; [apply (string_quoted e q _ true rest Q); apply o_quoted; auto|]. apply p_string; auto. apply p_here.
    + elim N. exists q, t. auto.
    + exists false, c, (q :: t). split; [apply (string_quoted e q t false _ Q O)|apply p_here].
  - rewrite string_is. destruct (bracket_run b c W) as [(k & b2 & rest & c' & E & Le & D)|[c' D]].
    + exists true, c', rest. split; [|rewrite E; eapply p_long; eauto; apply p_here].
      apply (e_any e _ c b true c' rest). eapply i_any_next; [apply (o_other e x22); [reflexivity|auto]|]. eapply i_any_next; [apply (o_other e x27); [reflexivity|auto]|]. apply i_any_hit. exact D.
    + exists false, c', b. split; [|apply p_here].
      apply (e_any e _ c b false c' b). eapply i_any_next; [apply (o_other e x22); [reflexivity|auto]|]. eapply i_any_next; [apply (o_other e x27); [reflexivity|auto]|].
      eapply i_any_next; [exact D|apply i_any_nil].
Qed.
Lemma string_back c b ok c' b' : wf_text b -> ~ open_string b -> eats e (IR string2) c b ok c' b' -> eats e (IR lua_string) c b ok c' b' /\ passes b b'.
Proof.
  intros W N D. destruct (string_run b c W N) as (ok1 & c1 & b1 & D1 & P). destruct (eats_det _ _ _ _ _ _ _ (string_same _ _ _ _ _ D1) _ _ _ D) as (-> & -> & ->). auto.
Qed.
(** LuaComment *)
Lemma comment_run b c : wf_text b -> exists ok c' b', eats e (IR lua_comment) c b ok c' b' /\ passes b b'.
Proof.
  intros W.
  assert (X : (exists k b2 rest c', b = lit "--" ++ opening k ++ b2 /\ long_ends k b2 rest /\ eats e (IR long_comment) c b true c' rest) \/ exists c', eats e (IR long_comment) c b false c' b).
  { destruct (lit_cases (lit "--[") b) as [[t ->]|Q].
    2:{ right. exists c. apply o_long_lit. intros [t ->]. exact (Q t eq_refl). }
    destruct (eqs_span t) as (k & t2 & -> & N1). destruct (lit_cases [x5b] t2) as [[b2 ->]|Q].
    - assert (Wb : wf_text b2) by (eapply (wf_behind (lit "--[" ++ eqs k) x5b b2); [exact W|reflexivity]).
      destruct (past_run e lua_cmt_cell k b2 Wb) as [[rest N]|N].
      + left. destruct (long_yes e lua_cmt_cell (RLit (lit "--[")) (lit "--[") k b2 rest (o_lit e _ _) Wb N c) as (c' & D). exists k, b2, rest, c'. rewrite cmt_opening. auto.
      + right. destruct (N (put [] c lua_cmt_cell (eqs k)) (level_put lua_cmt_cell k c)) as (c' & _ & D). exists c'.
        apply (e_seq e _ c _ false c' b2). eapply i_seq_next; [apply (head_yes e lua_cmt_cell (RLit (lit "--[")) (lit "--[") k b2); apply o_lit|]. apply i_seq_stop. apply (e_past e _ _ _ false c' [] D).
    - right. apply (long_open e lua_cmt_cell (RLit (lit "--[")) (lit "--[") k t2); [apply o_lit|exact N1|]. intros [q ->]. exact (Q q eq_refl). }
  destruct X as [(k & b2 & rest & c' & E & Le & D)|[c' D]].
  - exists true, c', rest. split; [apply comment_long; exact D|]. rewrite E. cbn [app lit]. change (passes (x2d :: x2d :: opening k ++ b2) rest).
    apply p_byte; [intros [Q|Q]; discriminate|]. apply p_byte; [intros [Q|Q]; discriminate|]. eapply p_long; eauto. apply p_here.
  - destruct (lit_cases (lit "--") b) as [[t ->]|Q].
    + assert (Wt : wf_text t) by (change (wf_text ([x2d] ++ x2d :: t)) in W; eapply wf_behind; [exact W|reflexivity]).
      destruct (nl_split t) as [N|(v & t' & -> & N)].
      * exists false, c', (lit "--" ++ t). split; [|apply p_here]. apply (comment_line e c _ c' false (lit "--" ++ t)); auto. apply o_line_none; auto.
      * exists true, c', (x0a :: t'). split; [|apply p_line; auto; apply p_here]. apply (comment_line e c _ c' true (x0a :: t')); auto. apply o_line; auto. eapply wf_cut; [exact Wt|reflexivity].
    + exists false, c', b. split; [|apply p_here]. apply (comment_line e c _ c' false b); auto. eapply o_seq_no, os_stop, o_lit_no. exact Q.
Qed.
End Two.

(** Closed texts *)
Fixpoint has (y b : bytes) : bool := bytes_eqb (firstn (length y) b) y || match b with [] => false | _ :: t => has y t end.
Lemma occurs_has y b : occurs b y -> has y b = true.
Proof.
  intros (v & t & ->). induction v as [|x v IH]; cbn [app].
  - assert (X : bytes_eqb (firstn (length y) (y ++ t)) y = true) by (rewrite firstn_app, Nat.sub_diag, firstn_O, app_nil_r, firstn_all; apply bytes_eqb_eq; reflexivity).
    destruct (y ++ t); cbn [has]; rewrite X; reflexivity.
  - cbn [has]. rewrite IH. apply orb_true_r.
Qed.
Lemma occurs_tail x b y : occurs b y -> occurs (x :: b) y.
Proof. intros (v & t & ->). exists (x :: v), t. reflexivity. Qed.
Lemma occurs_app d b y : occurs b y -> occurs (d ++ b) y.
Proof. intros (v & t & ->). exists (d ++ v), t. rewrite <- app_assoc. reflexivity. Qed.
Lemma string_one q u1 b1 u2 b2 : is_quote q -> l_chars q u1 -> l_chars q u2 -> u1 ++ q :: b1 = u2 ++ q :: b2 -> b1 = b2.
Proof.
  intros Q J1 J2 E. destruct (quote_ok q Q) as (A & B & _). pose proof (o_quoted [] q A B u1 b1 J1) as O1. pose proof (o_quoted [] q A B u2 b2 J2) as O2. rewrite E in O1.
  apply (out_det _ _ _ _ _ _ _ O1 O2).
Qed.
Lemma closed_not_open b : closed b -> ~ open_string b.
Proof.
  intros C (q & u & -> & Q & J). inversion C as [|x b N _|q' u' b' Q' J' _]; subst; auto. destruct (quote_ok q Q) as (A & B & _).
  exact (k_quoted [] q A _ J _ _ _ _ (o_quoted [] q A B u' b' J' [])).
Qed.
Lemma closed_passes b b' : passes b b' -> closed b -> ~ occurs b (lit "--") -> ~ occurs b (lit "[[") -> ~ occurs b (lit "[=") -> closed b'.
Proof.
  intros H. induction H as [b|x b b' N _ IH|q u b b' Q J _ IH|k b r b' E _ IH|v b b' N _ IH]; intros C N1 N2 N3; auto.
  - inversion C; subst; [|contradiction]. apply IH; auto; intros O; [apply N1|apply N2|apply N3]; apply occurs_tail; auto.
  - assert (Cb : closed b) by (inversion C as [|x b1 M _|q' u' b1 Q' J' C']; subst; [contradiction|]; match goal with X : _ ++ q :: _ = _ ++ q :: _ |- _ => rewrite <- (string_one q _ _ _ _ Q J' J X) end; auto).
    apply IH; auto; intros O; [apply N1|apply N2|apply N3]; apply (occurs_app (q :: u ++ [q])) in O; cbn [app] in O; rewrite <- app_assoc in O; exact O.
  - exfalso. destruct k as [|k]; [apply N2|apply N3]; [exists [], b|exists [], (eqs k ++ [x5b] ++ b)]; unfold opening, eqs; cbn [repeat app lit]; rewrite <- ?app_assoc; reflexivity.
  - exfalso. apply N1. exists [], (v ++ x0a :: b). reflexivity.
Qed.
Lemma closed_stays b : closed b -> ~ occurs b (lit "--") -> ~ occurs b (lit "[[") -> ~ occurs b (lit "[=") -> ~ breaks_off b.
Proof. intros C N1 N2 N3 (b' & P & O). exact (closed_not_open b' (closed_passes _ _ P C N1 N2 N3) O). Qed.

(** Readers without rules do the same with every grammar. *)
Definition ruleless (r : reader) : bool := match r with RRule _ | RGrammar _ _ _ => false | _ => true end.
Definition ruleless_item (i : item) : Prop :=
  match i with
  | IR r | IRep r | ITimes _ r | IPast r | ITo r => rall ruleless r = true
  | IAny rs | ISeq rs => forall r, In r rs -> rall ruleless r = true
  | IBody _ _ d t => rall ruleless d = true /\ rall ruleless t = true
  end.
Lemma ruleless_skip (p : reader -> bool) sk rs : rall p sk = true -> forallb (rall p) rs = true -> forall r, In r (interleave sk rs) -> rall p r = true.
Proof. intros A B r. rewrite forallb_forall in B. rewrite interleave_flat. intros [<-|I]; auto. apply in_flat_map in I as (x & I1 & [<-|[<-|[]]]); auto. Qed.
Lemma other_env e e' i c b ok c' b' : eats e i c b ok c' b' -> ruleless_item i -> eats e' i c b ok c' b'.
Proof.
  induction 1; intros F; cbn [ruleless_item rall ruleless andb] in F; try discriminate F;
    try solve [econstructor; eauto];
    try (assert (F1 : forall x, In x rs -> rall ruleless x = true) by (intros x I; apply F; right; exact I));
    try (assert (F0 : rall ruleless r = true) by (apply F; left; reflexivity)); try solve [econstructor; eauto].
  - constructor. apply IHeats. cbn. apply forallb_forall. exact F.
  - constructor. apply IHeats. cbn. apply forallb_forall. exact F.
  - apply andb_true_iff in F as [F1 F2]. constructor. apply IHeats. exact (ruleless_skip _ _ _ F1 F2).
  - apply andb_true_iff in F as [F1 F2]. constructor. apply IHeats. cbn. auto.
  - apply andb_true_iff in F as [F1 F2]. constructor. apply IHeats. cbn. auto.
  - destruct F as [F1 F2]. eapply i_body_hit; eauto.
  - destruct F as [F1 F2]. eapply i_body_next; eauto. apply IHeats2. cbn. auto.
Qed.

(** The grammar with the other strings always returns; as long as no string is open, Lua() does the same. *)
Lemma nth_swap {A} (d x : A) n : forall l i, (n < length l)%nat -> i <> n -> nth i (firstn n l ++ x :: skipn (S n) l) d = nth i l d.
Proof.
  induction n as [|n IH]; intros l i Hn Hi; (destruct l as [|y l]; [cbn in Hn; lia|]).
  - destruct i; [lia|]. reflexivity.
  - destruct i as [|i]; [reflexivity|]. cbn [length] in Hn. apply (IH l i); lia.
Qed.
Lemma nth_here {A} (d x : A) n l t : (n < length l)%nat -> nth n (firstn n l ++ x :: t) d = x.
Proof. intros H. rewrite app_nth2 by (rewrite firstn_length; lia). rewrite firstn_length, Nat.min_l by lia. rewrite Nat.sub_diag. reflexivity. Qed.
Section Walk.
Context {L : GoLib}.
Definition open_nullable : list bool := map (fun i => existsb (Nat.eqb i) [lAttrib; lBlock; lChunk; lScript]) (seq 0 44).
Definition open_levels : list nat := [0; 0; 0; 0; 0; 0; 0; 0; 5; 6; 1; 2; 1; 0; 2; 2; 2; 3; 4; 5; 1; 3; 1; 2; 1; 0; 0; 0; 1; 0; 0; 0; 0; 0; 0; 0; 0; 0; 0; 0; 3; 4; 5; 5]%nat.
Definition lua_env2 : env := firstn lLiteralString lua_env ++ mkRule (r_name (get_rule lua_env lLiteralString)) (Some string2) :: skipn (S lLiteralString) lua_env.
Lemma get_rule2 i : i <> lLiteralString -> get_rule lua_env2 i = get_rule lua_env i.
Proof. apply nth_swap. vm_compute. lia. Qed.
Lemma lua_env2_string : r_reader (get_rule lua_env2 lLiteralString) = Some string2.
Proof. unfold get_rule, lua_env2. rewrite nth_here; [reflexivity|vm_compute; lia]. Qed.
(** Readers that consume no quote, outside of strings and comments. *)
Definition quote_free (r : reader) : bool :=
  match r with
  | RLit x => forallb (fun y => negb (Byte.eqb y x22 || Byte.eqb y x27)) x
  | RRule i | RGrammar _ _ i => negb (Nat.eqb i lSheBang || Nat.eqb i lScript)
  | RBody _ _ | RBodyTail _ _ | RNot _ | RPast _ | RTo _ | RJanusBeg _ _ _ | RJanusEnd _ _ => false
  | RFold _ | RBool _ _ | RInt _ _ _ | RUint _ _ _ | RWrap _ _ => false
  | _ => match rune_test r with Some f => negb (f 0x22 1%nat) && negb (f 0x27 1%nat) | None => true end
  end.
Definition lexical (i : nat) : bool := existsb (Nat.eqb i) [lSheBang; lLiteralString; lComment; lScript].
Lemma rules_check : forallb (fun i => lexical i || match r_reader (get_rule lua_env i) with Some r => rall quote_free r | None => true end) (seq 0 44) = true.
Proof. vm_compute. reflexivity. Qed.
Lemma rule_free i r : lexical i = false -> r_reader (get_rule lua_env i) = Some r -> rall quote_free r = true.
Proof.
  intros H R. pose proof rules_check as C. rewrite forallb_forall in C. destruct (Nat.lt_ge_cases i 44) as [G|G].
  - specialize (C i). rewrite in_seq in C. specialize (C ltac:(lia)). cbv beta in C. rewrite H, R in C. exact C.
  - unfold get_rule in R. rewrite nth_overflow in R; [discriminate|]. exact G.
Qed.
Lemma utf8_unquoted r : is_scalar r -> r <> 0x22 -> r <> 0x27 -> Forall (fun x => ~ is_quote x) (utf8 r).
Proof.
  intros S A B. destruct (Z.ltb_spec r 128) as [G|G].
  - unfold utf8. replace (r <? 0x80) with true by lia. apply Forall_cons; [|apply Forall_nil]. assert (Z : bz (zb r) = r) by (apply bz_zb; unfold is_scalar in S; lia).
    intros [Q|Q]; rewrite Q in Z; cbn in Z; lia.
  - pose proof (utf8_plain x22 r eq_refl S G) as X. pose proof (utf8_plain x27 r eq_refl S G) as Y. rewrite Forall_forall in *.
    intros x I [Q|Q]; [destruct (X x I) as (_ & D & _)|destruct (Y x I) as (_ & D & _)]; auto.
Qed.
Lemma test_passes f b : wf_text b -> f 0x22 1%nat = false -> f 0x27 1%nat = false -> test f b = true -> passes b (after_rune b).
Proof.
  intros W A B T. destruct b as [|x b]; [apply p_here|]. destruct (wf_first _ W) as (r & t & S & E & _); [discriminate|]. rewrite E in *. rewrite after_rune_utf8 by auto.
  apply passes_bytes, utf8_unquoted; auto; intros ->; unfold test in T; rewrite decode_utf8 in T by auto; cbn [fst snd] in T; [change (length (utf8 0x22)) with 1%nat in T|change (length (utf8 0x27)) with 1%nat in T]; congruence.
Qed.
Definition free_item (i : item) : Prop :=
  match i with
  | IR r | IRep r | ITimes _ r => rall quote_free r = true
  | IAny rs | ISeq rs => forall r, In r rs -> rall quote_free r = true
  | _ => False
  end.
Definition certified2 : certified true false (nullable open_nullable) (level open_levels) lua_env2.
Proof. apply certifies_ok. vm_compute. reflexivity. Qed.
Lemma into_rule i r c b ok c' b' : negb (Nat.eqb i lSheBang || Nat.eqb i lScript) = true -> r_reader (get_rule lua_env2 i) = Some r -> eats lua_env2 (IR r) c b ok c' b' ->
  (rall quote_free r = true -> good true false lua_env2 r -> wf_text b -> wfc true c -> ~ breaks_off b -> passes b b' /\ eats lua_env (IR r) c b ok c' b') ->
  wf_text b -> wfc true c -> ~ breaks_off b -> exists r', passes b b' /\ r_reader (get_rule lua_env i) = Some r' /\ eats lua_env (IR r') c b ok c' b'.
Proof.
  intros F R D IH W C K. destruct (Nat.eq_dec i lLiteralString) as [->|N1].
  - rewrite lua_env2_string in R. injection R as <-. apply other_env with (e' := lua_env) in D; [|vm_compute; reflexivity].
    destruct (string_back lua_env _ _ _ _ _ W (fun O => K (open_breaks _ O)) D) as [D1 P]. exists lua_string. split; [exact P|]. split; [apply env_LiteralString|exact D1].
  - pose proof (ct_good _ _ _ _ _ certified2 _ _ R) as G. rewrite get_rule2 in R by auto. destruct (Nat.eq_dec i lComment) as [->|N2].
    + rewrite env_Comment in R. injection R as <-. apply other_env with (e' := lua_env) in D; [|vm_compute; reflexivity].
      destruct (comment_run lua_env b c W) as (ok1 & c1 & b1 & D1 & P). destruct (eats_det _ _ _ _ _ _ _ D1 _ _ _ D) as (-> & -> & ->). exists lua_comment. split; [exact P|]. split; [apply env_Comment|exact D1].
    + destruct IH as [P D1]; auto; [|eauto]. apply (rule_free i); auto. unfold lexical. cbn [existsb]. apply negb_true_iff, orb_false_iff in F as [F1 F2]. rewrite F1, F2.
      apply Nat.eqb_neq in N1, N2. rewrite N1, N2. reflexivity.
Qed.
Lemma walk i c b ok c' b' : eats lua_env2 i c b ok c' b' -> free_item i -> good_item true false lua_env2 i -> wf_text b -> wfc true c -> ~ breaks_off b ->
  passes b b' /\ eats lua_env i c b ok c' b'.
Proof.
  assert (Wf : forall i c b ok c' b', eats lua_env2 i c b ok c' b' -> good_item true false lua_env2 i -> wf_text b -> wfc true c -> wf_text b' /\ wfc true c').
  { intros j d y o d' y' D Gj Wy Wd. destruct (eats_wf _ _ _ _ _ certified2 _ _ _ _ _ _ D Gj (fun _ => Wy) Wd) as [A B]. split; [apply A; reflexivity|exact B]. }
  induction 1; intros F G W C K; cbn [free_item good_item] in F, G; try (exfalso; exact F);
    try (cbn [rall] in F; apply andb_true_iff in F as [F0 F]; cbn [quote_free] in F0; try discriminate F0);
    try (unfold good in G; cbn [rall] in G; apply andb_true_iff in G as [_ G]).
  - apply rall_here in F. assert (X : f 0x22 1%nat = false /\ f 0x27 1%nat = false).
    { destruct r; try discriminate H; cbn [rune_test] in H; injection H as <-; cbn [quote_free rune_test] in F; apply andb_true_iff in F as [F1 F2]; apply negb_true_iff in F1, F2; auto. }
    split; [|apply e_test; auto]. destruct (test f b) eqn:T; [|apply p_here]. apply test_passes with f; tauto.
  - split; [|apply e_lit_yes]. apply passes_bytes. rewrite forallb_forall in F0. apply Forall_forall. intros y I Q. specialize (F0 y I). destruct Q as [-> | ->]; discriminate F0.
  - split; [apply p_here|apply e_lit_no; auto].
  - split; [apply p_here|apply e_end].
  - split; [apply p_here|apply e_invalid].
  - destruct (into_rule i r c b ok c' b' F0 H H0 IHeats W C K) as (r' & P & R & D). split; auto. eapply e_rule; eauto.
  - destruct (into_rule i r c b ok c' b' F0 H H0 IHeats W C K) as (r' & P & R & D). split; auto. eapply e_grammar; eauto.
  - destruct IHeats as [P D]; auto. split; auto. apply e_named; auto.
  - destruct IHeats as [P D]; auto. split; auto. apply e_rule_name; auto.
  - destruct IHeats as [P D]; auto. split; auto. apply e_monitor; auto.
  - destruct IHeats as [P D]; auto. split; [destruct ok; auto; apply p_here|apply e_map; auto].
  - destruct IHeats as [P D]; auto. split; [destruct ok; auto; apply p_here|apply e_pick; auto].
  - destruct IHeats as [P D]; auto. split; auto. eapply e_opt; eauto.
  - destruct IHeats as [P D]; auto. split; [apply p_here|eapply e_at; eauto].
  - destruct IHeats as [P D]; auto; [exact (proj1 (forallb_forall (rall quote_free) rs) F)|exact (proj1 (good_list true false lua_env2 rs) G)|]. split; [destruct ok; auto; apply p_here|apply e_any; auto].
  - destruct IHeats as [P D]; auto; [exact (proj1 (forallb_forall (rall quote_free) rs) F)|exact (proj1 (good_list true false lua_env2 rs) G)|]. split; [destruct ok; auto; apply p_here|apply e_seq; auto].
  - apply andb_true_iff in F as [F1 F2]. apply andb_true_iff in G as [G1 G2]. destruct IHeats as [P D]; auto; [exact (ruleless_skip _ _ _ F1 F2)|exact (ruleless_skip _ _ _ G1 G2)|].
    split; [destruct ok; auto; apply p_here|apply e_skip; auto].
  - destruct IHeats as [P D]; auto. split; auto. apply e_zom; auto.
  - destruct IHeats as [P D]; auto. split; auto. apply e_many; auto.
  - destruct IHeats as [P D]; auto. split; auto. apply e_times; auto.
  - split; [apply p_here|apply i_any_nil].
  - destruct IHeats as [P D]; auto; [apply F; left; auto|apply G; left; auto|]. split; auto. apply i_any_hit; auto.
  - assert (Gr : good_item true false lua_env2 (IR r)) by (apply G; left; auto). destruct IHeats1 as [P1 D1]; auto; [apply F; left; auto|].
    destruct (Wf _ _ _ _ _ _ H Gr W C) as [W1 C1].
    destruct IHeats2 as [P2 D2]; auto; [intros y I; apply F; right; auto|intros y I; apply G; right; auto|intros Q; apply K; eapply breaks_passes; eauto|].
    split; [eapply passes_trans; eauto|eapply i_any_next; eauto].
  - split; [apply p_here|apply i_seq_nil].
  - destruct IHeats as [P D]; auto; [apply F; left; auto|apply G; left; auto|]. split; auto. apply i_seq_stop; auto.
  - assert (Gr : good_item true false lua_env2 (IR r)) by (apply G; left; auto). destruct IHeats1 as [P1 D1]; auto; [apply F; left; auto|].
    destruct (Wf _ _ _ _ _ _ H Gr W C) as [W1 C1].
    destruct IHeats2 as [P2 D2]; auto; [intros y I; apply F; right; auto|intros y I; apply G; right; auto|intros Q; apply K; eapply breaks_passes; eauto|].
    split; [eapply passes_trans; eauto|eapply i_seq_next; eauto].
  - destruct IHeats as [P D]; auto. split; auto. eapply i_rep_stop; eauto.
  - assert (Gr : good_item true false lua_env2 (IR r)) by exact G. destruct IHeats1 as [P1 D1]; auto. destruct (Wf _ _ _ _ _ _ H Gr W C) as [W1 C1].
    destruct IHeats2 as [P2 D2]; auto; [intros Q; apply K; eapply breaks_passes; eauto|]. split; [eapply passes_trans; eauto|eapply i_rep_next; eauto].
  - split; [apply p_here|apply i_times_0].
  - destruct IHeats as [P D]; auto. split; auto. apply i_times_stop; auto.
  - assert (Gr : good_item true false lua_env2 (IR r)) by exact G. destruct IHeats1 as [P1 D1]; auto. destruct (Wf _ _ _ _ _ _ H Gr W C) as [W1 C1].
    destruct IHeats2 as [P2 D2]; auto; [intros Q; apply K; eapply breaks_passes; eauto|]. split; [eapply passes_trans; eauto|eapply i_times_next; eauto].
Qed.
Lemma lua_walk b : wf_text b -> ~ breaks_off b -> exists ok c' b', eats lua_env (IR lua) [] b ok c' b'.
Proof.
  intros W K. destruct (all_total _ _ _ _ _ certified2 (length b) lua ltac:(split; vm_compute; reflexivity) [] b eq_refl) as (ok & c' & b' & D).
  - split; [intros _; exact W|discriminate].
  - intros _ [|i]; apply wf_nil.
  - exists ok, c', b'. assert (F : rall quote_free lua = true) by (vm_compute; reflexivity).
    assert (G : rall (base true false lua_env2) lua = true) by (vm_compute; reflexivity). apply (walk _ _ _ _ _ _ D F G W); [|exact K]. intros _ [|i]; apply wf_nil.
Qed.
End Walk.
