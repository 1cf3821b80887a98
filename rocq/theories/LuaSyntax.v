(** LuaSyntax.v - the rules of grammar/lua.go as phrases of the Lua manual. *)
From Verif Require Export SpecLuaSyntax CfgFacts LuaLex LuaComment PropTotal PropTrack.
From Coq Require Import Lia ZifyBool.
Import SpecLuaSyntax.

(* ---------------------------------------------------------------- phrases *)

Lemma gap_app u v : gap u -> gap v -> gap (u ++ v).
Proof. induction 1; intros V; auto; [constructor; auto| |]; rewrite <- !app_assoc; cbn [app]; rewrite <- ?app_assoc; [apply gap_line|apply gap_long]; auto. Qed.
Lemma spells_gap ts g w : gap g -> spells ts w -> spells ts (g ++ w).
Proof.
  intros G S. destruct S as [g' G'|g' t ts u w G' U S]; [constructor; apply gap_app; auto|]. rewrite app_assoc. constructor; auto. apply gap_app; auto.
Qed.
Lemma spells_app ts ts' u v : spells ts u -> spells ts' v -> spells (ts ++ ts') (u ++ v).
Proof.
  induction 1; intros V; cbn [app]; [apply spells_gap; auto|]. rewrite <- !app_assoc. constructor; auto.
Qed.
Lemma phrase_nil g : gap g -> phrase (Cat []) g.
Proof. intros G. exists []. split; constructor; auto. Qed.
Lemma phrase_cons x l u v : phrase x u -> phrase (Cat l) v -> phrase (Cat (x :: l)) (u ++ v).
Proof. intros (ts & S & D) (ts' & S' & D'). exists (ts ++ ts'). split; [apply spells_app; auto|constructor; auto]. Qed.
Lemma phrase_gap x g w : gap g -> phrase x w -> phrase x (g ++ w).
Proof. intros G (ts & S & D). exists ts. split; auto. apply spells_gap; auto. Qed.
Lemma phrase_tok t w : writes t w -> phrase (T t) w.
Proof.
  intros H. exists [t]. split; [|constructor]. replace w with ([] ++ w ++ []) by apply app_nil_r. constructor; auto; constructor; constructor.
Qed.
Lemma phrase_star x (P : bytes -> Prop) w : (forall u, P u -> phrase x u) -> star_of P w -> phrase (Star x) w.
Proof.
  intros H. induction 1.
  - exists []. split; repeat constructor.
  - destruct (H u) as (ts & S & D); auto. destruct IHstar_of as (ts' & S' & D'). exists (ts ++ ts'). split; [apply spells_app; auto|constructor; auto].
Qed.
Lemma phrase_weak x y w : (forall ts, derives x ts -> derives y ts) -> phrase x w -> phrase y w.
Proof. intros H (ts & S & D). exists ts. auto. Qed.

(* ------------------------------------------------------------ translation *)

Section Tr.
Context (Gp : reader -> bytes -> Prop) (I : nat -> bytes -> Prop) (name : nat -> option ebnf).
Context (H : forall i x w, name i = Some x -> I i w -> phrase x w).
(** [tr r x]: the texts of [r] are phrases [x]. *)
Inductive tr : reader -> ebnf -> Prop :=
| tr_fact r x : (forall w, glang Gp I r w -> phrase x w) -> tr r x
| tr_lit u : tr (RLit u) (T (Sign u))
| tr_rune c y : bz y = c -> c < 128 -> tr (RRune c) (T (Sign [y]))
| tr_rule i x : name i = Some x -> tr (RRule i) x
| tr_any rs xs : Forall2 tr rs xs -> tr (RAny rs) (Alt xs)
| tr_seq rs xs : Forall2 tr rs xs -> tr (RSeq rs) (Cat xs)
| tr_skip sk rs xs : (forall w, glang Gp I sk w -> gap w) -> Forall2 tr rs xs -> tr (RSkipSeq sk rs) (Cat xs)
| tr_zom r x : tr r x -> tr (RZom r) (Star x)
| tr_opt r x : tr r x -> tr (ROpt r) (Maybe x)
| tr_many r x : tr r x -> tr (RMany r) (Cat [x; Star x]).
Lemma byte_lang r g w : reads_byte r g -> glang Gp I r w -> exists x, w = [x] /\ g x = true.
Proof.
  intros (f & E & A & G) Lw. assert (X : rune_of f w) by (destruct r; try discriminate; cbn [glang] in Lw; rewrite E in Lw; exact Lw).
  destruct X as (t & T1 & T2). rewrite (test_byte f g) in T1 by auto. destruct (w ++ t) as [|x b] eqn:Q; [discriminate|]. cbn [first] in T1. exists x. split; auto.
  assert (S : bz x < 128) by (rewrite G in T1; lia). unfold after_rune in T2. rewrite decode_ascii in T2 by auto. cbn in T2. subst t.
  apply same_end with b. exact Q.
Qed.
Lemma rune_lang c y w : bz y = c -> c < 128 -> glang Gp I (RRune c) w -> w = [y].
Proof.
  intros Y C Lw. destruct (byte_lang (RRune c) (is c) w) as (x & -> & X); auto; [apply rb_rune; pose proof (bz_range y); lia|].
  unfold is in X. f_equal. apply Z.eqb_eq in X. apply bz_inj. congruence.
Qed.
Fixpoint reader_size (r : reader) : nat :=
  match r with
  | RAny rs | RSeq rs => S (fold_right (fun x n => reader_size x + n)%nat 0%nat rs)
  | RSkipSeq sk rs => S (reader_size sk + fold_right (fun x n => reader_size x + n)%nat 0%nat rs)
  | RZom a | ROpt a | RMany a => S (reader_size a)
  | _ => 1%nat
  end.
Theorem tr_phrase r : forall x w, tr r x -> glang Gp I r w -> phrase x w.
Proof.
  remember (reader_size r) as n eqn:En. assert (Le : (reader_size r <= n)%nat) by lia. clear En. revert r Le.
  induction n as [|n IH]; intros r Le; [destruct r; cbn in Le; lia|]. intros x w Tr Lw. inversion Tr; subst; cbn [reader_size] in Le.
  - auto.
  - cbn in Lw. subst. apply phrase_tok. reflexivity.
  - pose proof (rune_lang (bz y) y w eq_refl H1 Lw). subst. apply phrase_tok. reflexivity.
  - apply (H i); auto.
  - apply lang_any in Lw as (a & A & Lw). assert (X : exists y, In y xs /\ tr a y /\ (reader_size a <= n)%nat).
    { clear - H0 A Le. induction H0; [destruct A|]. cbn [fold_right] in Le. destruct A as [->|A]; [exists y; cbn; repeat split; auto; lia|]. destruct IHForall2 as (z & Z1 & Z2 & Z3); auto; [lia|]. exists z. cbn. auto. }
    destruct X as (y & Y1 & Y2 & Y3). destruct (IH a Y3 y w Y2 Lw) as (ts & S & D). exists ts. split; auto. econstructor; eauto.
  - cbn [glang] in Lw. clear Tr. revert w Lw. induction H0; intros w Lw.
    + unfold empty_of in Lw. subst. apply phrase_nil. constructor.
    + destruct Lw as (u & v & -> & Lu & Lv). cbn [fold_right] in Le. apply phrase_cons; [apply (IH x); auto; lia|]. apply IHForall2; auto. lia.
  - cbn [glang] in Lw. destruct Lw as (g & w' & -> & Lg & Lw). apply phrase_gap; [auto|]. clear Tr. revert w' Lw. induction H1; intros w Lw.
    + unfold empty_of in Lw. subst. apply phrase_nil. constructor.
    + destruct Lw as (u & v & -> & Lu & g' & v' & -> & Lg' & Lv). cbn [fold_right] in Le. apply phrase_cons; [apply (IH x); auto; lia|]. apply phrase_gap; auto. apply IHForall2; auto. lia.
  - cbn [glang] in Lw. eapply phrase_star; [|exact (proj1 Lw)]. intros u Lu. apply (IH r0); auto. lia.
  - cbn [glang] in Lw. destruct Lw as [->|Lw].
    + exists []. split; repeat constructor.
    + destruct (IH r0 ltac:(lia) x0 w H0 Lw) as (ts & S & D). exists ts. split; auto. constructor. auto.
  - cbn [glang] in Lw. destruct Lw as (u & v & -> & Lu & Lv). apply phrase_cons; [apply (IH r0); auto; lia|]. rewrite <- (app_nil_r v). apply phrase_cons; [|apply phrase_nil; constructor].
    eapply phrase_star; [|exact Lv]. intros z Lz. apply (IH r0); auto. lia.
Qed.
End Tr.

(* ------------------------------------------------------------------ tokens *)

Section Tokens.
Context {L : GoLib} (Gp : reader -> bytes -> Prop) (I : nat -> bytes -> Prop).
Lemma star_byte r g (P : byte -> Prop) w : reads_byte r g -> (forall x, g x = true -> P x) -> star_of (glang Gp I r) w -> Forall P w.
Proof. intros R G. induction 1; cbn; auto. apply (byte_lang Gp I r g) in H as (x & -> & X); auto. constructor; auto. Qed.
Lemma many_byte r g (P : byte -> Prop) w : reads_byte r g -> (forall x, g x = true -> P x) -> glang Gp I (RMany r) w -> some P w.
Proof.
  intros R G (u & v & -> & U & V). pose proof (star_byte r g P v R G V). apply (byte_lang Gp I r g) in U as (x & -> & X); auto. split; [discriminate|]. constructor; auto.
Qed.
Lemma any_byte s w : forallb (fun x => bz x <? 128) s = true -> glang Gp I (RAnyRune s) w -> exists x, w = [x] /\ In x s.
Proof. intros S H. apply (byte_lang Gp I _ (one_of s)) in H as (x & -> & X); [|apply rb_any; auto]. exists x. split; auto. apply one_of_in. auto. Qed.
Lemma rb_dig : reads_byte digit d_dig. Proof. apply rb_between. lia. Qed.
Lemma name_lang w : glang Gp I name_reader w -> l_name w.
Proof.
  intros (u & v & -> & U & v' & z & -> & V & ->). rewrite app_nil_r. destruct (byte_lang Gp I name_head _ u (rb_set [(0x61, 0x7A); (0x41, 0x5A)] eq_refl) U) as (x & -> & X).
  exists x, v'. split; auto. split.
  - apply d_let_is. rewrite <- X. destruct x; reflexivity.
  - eapply (star_byte name_more); [apply rb_set; reflexivity| |exact (proj1 V)]. intros y Y. apply d_word_is. rewrite <- Y. destruct y; reflexivity.
Qed.
Lemma digits_lang w : glang Gp I (RMany digit) w -> some l_digit w.
Proof. apply many_byte with d_dig; [apply rb_dig|]. intros x. apply d_dig_is. Qed.
Lemma hexes_lang w : glang Gp I (RMany hex_digit_reader) w -> some l_hex w.
Proof. eapply (many_byte hex_digit_reader); [apply rb_ranges; reflexivity|]. intros x X. apply d_hex_is. rewrite <- X. destruct x; vm_compute; reflexivity. Qed.
Definition frac_reader (d : reader) : reader := ROpt (RSeq [RRune 0x2E; d]).
Definition exp_reader (m : string) : reader := ROpt (RSeq [RAnyRune (lit m); ROpt (RAnyRune (lit "+-")); RMany digit]).
Lemma numeral_is : lua_numeral = RAny [
  RSeq [RRune 0x30; RAnyRune (lit "xX"); RMany hex_digit_reader; frac_reader (RMany hex_digit_reader); exp_reader "pP"];
  RSeq [RRune 0x30; RAnyRune (lit "xX"); RMany hex_digit_reader];
  RSeq [RMany digit; frac_reader (RMany digit); exp_reader "eE"]; RMany digit].
Proof. reflexivity. Qed.
Lemma frac_lang d (P : byte -> Prop) w : (forall u, glang Gp I d u -> some P u) -> glang Gp I (frac_reader d) w -> l_frac P w.
Proof.
  intros D [->|H]; [left; auto|]. right. destruct H as (u & v & -> & U & v' & z & -> & V & ->). rewrite app_nil_r. apply (rune_lang Gp I 0x2E x2e) in U; [|reflexivity|lia].
  subst. exists v'. auto.
Qed.
Lemma exp_lang m w : forallb (fun x => bz x <? 128) (lit m) = true -> glang Gp I (exp_reader m) w -> l_exp (lit m) w.
Proof.
  intros M [->|H]; [left; auto|]. right. destruct H as (u & v & -> & U & s & v1 & -> & S & d & z & -> & D & ->). rewrite app_nil_r.
  apply any_byte in U as (x & -> & X); auto. exists x, s, d. split; auto. split; auto. split; [|apply digits_lang; auto].
  destruct S as [->|S]; [left; auto|]. apply any_byte in S as (y & -> & [<-|[<-|[]]]); [right; left|right; right|]; reflexivity.
Qed.
Lemma numeral_lang w : glang Gp I lua_numeral w -> l_numeral w.
Proof.
  rewrite numeral_is. intros H. destruct H as [H|[H|[H|[H|[]]]]].
  - right. destruct H as (a & v & -> & A & m & v1 & -> & M & i & v2 & -> & X & f & v3 & -> & F & x & z & -> & E & ->). rewrite app_nil_r.
    apply (rune_lang Gp I 0x30 x30) in A; [|reflexivity|lia]. subst. apply any_byte in M as (y & -> & Y); auto. exists y, i, f, x. split; auto. split; auto.
    split; [apply hexes_lang; auto|]. split; [eapply frac_lang; [apply hexes_lang|exact F]|apply exp_lang; auto].
  - right. destruct H as (a & v & -> & A & m & v1 & -> & M & i & v2 & -> & X & ->).
    apply (rune_lang Gp I 0x30 x30) in A; [|reflexivity|lia]. subst. apply any_byte in M as (y & -> & Y); auto. exists y, i, [], []. split; auto. split; auto.
    split; [apply hexes_lang; auto|]. split; left; auto.
  - left. destruct H as (i & v & -> & X & f & v3 & -> & F & x & z & -> & E & ->). rewrite app_nil_r. exists i, f, x. split; auto.
    split; [apply digits_lang; auto|]. split; [eapply frac_lang; [apply digits_lang|exact F]|apply exp_lang; auto].
  - left. exists w, [], []. rewrite app_nil_r. split; [auto|]. split; [apply digits_lang; auto|]. split; left; auto.
Qed.
Lemma sign_run w : glang Gp I (RZom ws) w -> gap w.
Proof.
  cbn [glang]. change (rune_of _) with (glang Gp I ws). intros H. assert (F : Forall (fun x => In x [x20; x0d; x0a; x09]) w).
  { eapply star_byte; [apply (rb_any [x20; x0d; x0a; x09]); reflexivity| |exact (proj1 H)]. intros x. apply one_of_in. }
  clear H. induction F; constructor; auto.
Qed.

(* strings and comments: what is read decides, not only the language *)
Context (e : env).
Lemma first_cut b u v x rest : b = u ++ rest -> begins u (v ++ x) -> first_at b v x -> first_at u v x.
Proof. intros -> H [_ F]. split; auto. intros v' t ->. apply (F v' (t ++ rest)). rewrite <- !app_assoc. reflexivity. Qed.
Lemma eqs_cut k w v rest : eqs k ++ w = v ++ closing 0 ++ rest -> exists w0, w = w0 ++ rest /\ eqs k ++ w0 = v ++ closing 0.
Proof.
  revert v. induction k as [|k IH]; intros v E.
  - exists (v ++ closing 0). cbn in *. rewrite <- app_assoc. auto.
  - destruct v as [|x v]; [discriminate|]. change (eqs (S k)) with (x3d :: eqs k) in *. injection E as <- E. apply IH in E as (w0 & -> & E). exists w0. split; auto. cbn. rewrite E. auto.
Qed.
Lemma long_ends_cut k b rest : long_ends k b rest -> exists u, b = u ++ rest /\ long_ends k u [].
Proof.
  intros [v rest' E F N|v w v2 rest' K E F N E2 F2].
  - exists (v ++ closing k). split; [rewrite <- app_assoc; auto|]. apply le_close with v; [rewrite app_nil_r; auto| |].
    + apply (first_cut b _ v _ rest'); [rewrite E, <- !app_assoc; reflexivity|exists []; rewrite app_nil_r; auto|exact F].
    + destruct N as [N|N]; auto. right. apply (first_cut b _ v _ rest'); [rewrite E, <- !app_assoc; reflexivity| |exact N]. exists [x5d]. unfold near, closing. rewrite <- app_assoc. reflexivity.
  - destruct (eqs_cut _ _ _ _ E2) as (w0 & -> & E3). exists (v ++ near k ++ w0). split; [rewrite E, <- !app_assoc; auto|]. apply le_lost with v w0 v2; auto.
    + apply (first_cut b _ v _ rest'); [rewrite E, <- !app_assoc; reflexivity| |exact F]. exists w0. rewrite <- app_assoc. reflexivity.
    + intros [t ->]. apply N. exists (t ++ rest'). reflexivity.
    + apply (first_cut (eqs k ++ w0 ++ rest') _ v2 _ rest'); [rewrite <- !app_assoc; reflexivity| |exact F2]. exists []. rewrite E3, app_nil_r. auto.
Qed.
Lemma long_last w : long_text w -> exists u, w = u ++ [x5d].
Proof.
  intros (k & u & Ew & Le). subst w. remember [] as rest eqn:Er. destruct Le as [v rest' E F N|v w v2 rest' K E F N E2 F2]; subst rest'.
  - rewrite app_nil_r in E. rewrite E. exists (opening k ++ v ++ near k). unfold closing, near. rewrite <- !app_assoc. reflexivity.
  - rewrite app_nil_r in E2. destruct w as [|y w] using rev_ind.
    + assert (H : In x5d (eqs k)) by (rewrite app_nil_r in E2; rewrite E2; apply in_or_app; right; left; auto). apply repeat_spec in H. discriminate.
    + change (closing 0) with ([x5d] ++ [x5d]) in E2. rewrite !app_assoc in E2. apply app_inj_tail in E2 as [_ ->]. exists (opening k ++ v ++ near k ++ w). rewrite E, <- !app_assoc. reflexivity.
Qed.
Lemma long_read i o x k b c c' rest : out e (IR o) (x ++ eqs k ++ x5b :: b) true (eqs k ++ x5b :: b) -> wf_text b ->
  eats e (IR (long i o)) c (x ++ eqs k ++ x5b :: b) true c' rest -> long_ends k b rest.
Proof.
  intros O W D. destruct (past_run e i k b W) as [(r & E)|N].
  - destruct (long_yes e i o x k b r O W E c) as (c2 & D2). destruct (eats_det _ _ _ _ _ _ _ D _ _ _ D2) as (_ & _ & <-). exact E.
  - destruct (long_no e i o x k b O W) with (c := c) as (c2 & D2); [|destruct (eats_det _ _ _ _ _ _ _ D _ _ _ D2) as (? & _); discriminate].
    intros r E. destruct (past_true e i k b r W E (put [] [] i (eqs k)) (level_put i k [])) as (c3 & _ & P).
    destruct (N (put [] [] i (eqs k)) (level_put i k [])) as (c4 & _ & P2). destruct (eats_det _ _ _ _ _ _ _ P _ _ _ P2) as (? & _). discriminate.
Qed.
Lemma quoted_read q c b c' rest : bz q < 128 -> q <> x5c -> eats e (IR (lua_quoted q)) c b true c' rest -> exists u, b = (q :: u ++ [q]) ++ rest /\ l_chars q u.
Proof.
  intros Q Q2 D. destruct (lit_cases [q] b) as [[t ->]|N].
  - cbn [app] in D |- *. destruct (quoted_run e q Q t) as [(u & r & -> & J)|[J|O]].
    + pose proof (o_quoted e q Q Q2 u r J c) as D2. destruct (eats_det _ _ _ _ _ _ _ D _ _ _ D2) as (_ & _ & <-). exists u. rewrite <- app_assoc. auto.
    + elim (k_quoted e q Q t J _ _ _ _ D).
    + destruct (eats_det _ _ _ _ _ _ _ D _ _ _ (O c)) as (? & _). discriminate.
  - assert (O : out e (IR (lua_quoted q)) b false b) by (apply o_other; auto; intros [t ->]; exact (N t eq_refl)).
    destruct (eats_det _ _ _ _ _ _ _ D _ _ _ (O c)) as (? & _). discriminate.
Qed.
Lemma bracket_text i o x c b c' w : (forall t, out e (IR o) (x ++ t) true t) -> (forall t, ~ begins t x -> out e (IR o) t false t) ->
  wf_text (w ++ b) -> wf_text x -> eats e (IR (long i o)) c (w ++ b) true c' b -> exists k u, w = x ++ eqs k ++ x5b :: u /\ long_ends k u [].
Proof.
  intros O1 O2 Wf Wx D. destruct (lit_cases x (w ++ b)) as [[t E]|N].
  - rewrite E in *. destruct (eqs_span t) as (k & t2 & -> & N1). destruct (lit_cases [x5b] t2) as [[b2 ->]|N].
    + cbn [app] in *. assert (W2 : wf_text b2) by (rewrite app_assoc in Wf; eapply wf_behind; [exact Wf|reflexivity]).
      pose proof (long_read i o x k b2 c c' b (O1 _) W2 D) as X. apply long_ends_cut in X as (u & -> & J). exists k, u. split; auto.
      apply (app_inv_tail b). rewrite E. rewrite <- !app_assoc. cbn [app]. rewrite <- ?app_assoc. reflexivity.
    + destruct (long_open e i o x k t2 (O1 _) N1) with (c := c) as (c2 & D2); [intros [q ->]; exact (N q eq_refl)|]. destruct (eats_det _ _ _ _ _ _ _ D _ _ _ D2) as (? & _). discriminate.
  - assert (O : out e (IR (long i o)) (w ++ b) false (w ++ b)).
    { eapply o_seq_no, os_stop. eapply o_seq_no, os_stop. apply O2. intros [t E]. exact (N t E). }
    destruct (eats_det _ _ _ _ _ _ _ D _ _ _ (O c)) as (? & _). discriminate.
Qed.
Lemma any_hit rs c b c' b' : eats e (IR (RAny rs)) c b true c' b' -> Forall (fun r => restoring always r = true) rs -> restores e -> exists r c0, In r rs /\ eats e (IR r) c0 b true c' b'.
Proof.
  intros D F Re. assert (D' : eats e (IAny rs) c b true c' b') by (inversion D; subst; auto; discriminate). clear D. revert c D'. induction F as [|r rs R F IH]; intros c D; inversion D; subst.
  - exists r, c. split; [left; auto|auto].
  - assert (b1 = b) as -> by (exact (eats_restore e Re _ _ _ _ _ _ H1 R eq_refl)). destruct (IH c1) as (r' & c0 & I1 & I2); auto. exists r', c0. split; [right; auto|auto].
Qed.
Lemma string_text c b c' w : restores e -> wf_text (w ++ b) -> eats e (IR lua_string) c (w ++ b) true c' b -> lua_literal w.
Proof.
  intros Re Wf D. rewrite string_is in D. apply any_hit in D as (r & c0 & R & D); [|repeat constructor|auto].
  destruct R as [<-|[<-|[<-|[]]]].
  - left. apply quoted_read in D as (u & E & J); [|reflexivity|discriminate]. apply app_inv_tail in E. exists x22, u. auto.
  - left. apply quoted_read in D as (u & E & J); [|reflexivity|discriminate]. apply app_inv_tail in E. exists x27, u. auto.
  - right. apply (bracket_text lua_str_cell (RRune 0x5b) [x5b]) in D as (k & u & -> & J); auto.
    + exists k, u. unfold opening. cbn [app]. rewrite <- app_assoc. auto.
    + intros t. apply (rune_yes e x5b). reflexivity.
    + intros t N. apply (rune_no e x5b); [reflexivity|auto].
    + apply valid_wf. reflexivity.
Qed.
Lemma comment_text c b c' w : restores e -> wf_text (w ++ b) -> eats e (IR lua_comment) c (w ++ b) true c' b ->
  (exists v t, w = lit "--" ++ v /\ ~ In x0a v /\ b = x0a :: t) \/ (exists u, w = lit "--" ++ u /\ long_text u).
Proof.
  intros Re Wf D. rewrite comment_is in D. apply any_hit in D as (r & c0 & R & D); [|repeat constructor|auto].
  destruct R as [<-|[<-|[]]].
  - apply (bracket_text lua_cmt_cell (RLit (lit "--[")) (lit "--[")) in D as (k & u & -> & J); auto.
    + right. exists (opening k ++ u). rewrite cmt_opening. split; auto. exists k, u. auto.
    + intros t. apply o_lit.
    + intros t N. apply o_lit_no. intros v ->. apply N. exists v. auto.
    + apply valid_wf. reflexivity.
  - destruct (lit_cases (lit "--") (w ++ b)) as [[t E]|N].
    + rewrite E in *. assert (Wt : wf_text t) by (eapply wf_rest; [|exact Wf]; apply valid_wf; reflexivity).
      destruct (nl_split t) as [N|(v & t' & -> & N)].
      * pose proof (o_line_none e t Wt N c0) as D2. destruct (eats_det _ _ _ _ _ _ _ D _ _ _ D2) as (? & _). discriminate.
      * assert (Wv : wf_text v) by (eapply wf_cut; [exact Wt|reflexivity]). pose proof (o_line e v t' Wv N c0) as D2.
        destruct (eats_det _ _ _ _ _ _ _ D _ _ _ D2) as (_ & _ & ->). left. exists v, t'. split; auto. rewrite app_assoc in E. apply app_inv_tail in E. exact E.
    + assert (O : out e (IR line_comment) (w ++ b) false (w ++ b)) by (eapply o_seq_no, os_stop, o_lit_no; auto).
      destruct (eats_det _ _ _ _ _ _ _ D _ _ _ (O c0)) as (? & _). discriminate.
Qed.
Lemma comment_remark c b c' w : restores e -> wf_text (w ++ b) -> eats e (IR lua_comment) c (w ++ b) true c' b -> lua_remark w.
Proof. intros Re Wf D. apply comment_text in D as [(v & t & -> & N & _)|(u & -> & U)]; auto; [exists v|exists u]; auto. Qed.
Definition skipped : reader := RAny [ws; RRule lComment].
Lemma ws_inv c b c' b' : eats e (IR ws) c b true c' b' -> exists x, b = x :: b' /\ In x [x20; x0d; x0a; x09].
Proof.
  intros D. assert (Tw : takes e ws (one_of [x20; x0d; x0a; x09])) by (apply takes_byte, rb_any; reflexivity). destruct (first (one_of [x20; x0d; x0a; x09]) b) eqn:F.
  - destruct b as [|x b]; [discriminate|]. destruct (eats_det _ _ _ _ _ _ _ D _ _ _ (o_takes_yes e ws _ x b Tw F c)) as (_ & _ & ->). exists x. split; auto. apply one_of_in. exact F.
  - destruct (eats_det _ _ _ _ _ _ _ D _ _ _ (o_takes_no e ws _ b Tw F c)) as (? & _). discriminate.
Qed.
Lemma rule_inv i r c b ok c' b' : r_reader (get_rule e i) = Some r -> eats e (IR (RRule i)) c b ok c' b' -> eats e (IR r) c b ok c' b'.
Proof. intros R D. inversion D; subst; try discriminate. congruence. Qed.
(** What the skiper reads are gaps. *)
Lemma skip_gap c b c' b' : restores e -> r_reader (get_rule e lComment) = Some lua_comment -> eats e (IRep skipped) c b true c' b' -> wf_text b ->
  exists w, b = w ++ b' /\ gap w /\ forall t, b = x0a :: t -> exists w', w = x0a :: w' /\ gap w'.
Proof.
  intros Re Rc D. remember (IRep skipped) as i eqn:Ei. remember true as ok eqn:Eo. induction D; try discriminate; injection Ei as ->; intros Wf.
  - assert (b' = b) as -> by (exact (eats_restore e Re _ _ _ _ _ _ D eq_refl eq_refl)). exists []. split; auto. split; [constructor|]. intros t ->.
    assert (O : out e (IR skipped) (x0a :: t) true t).
    { apply o_any, oa_hit. eapply o_takes_yes; [apply takes_byte, rb_any; reflexivity|reflexivity]. }
    destruct (eats_det _ _ _ _ _ _ _ D _ _ _ (O c)) as (? & _). discriminate.
  - apply any_hit in D1 as (r & c0 & R & D1); [|repeat constructor|auto]. destruct R as [<-|[<-|[]]].
    + apply ws_inv in D1 as (x & -> & X). destruct IHD2 as (w & -> & G & _); auto.
      { destruct X as [<-|[<-|[<-|[<-|[]]]]]; exact (wf_behind [] _ _ Wf eq_refl). }
      exists (x :: w). split; auto. split; [constructor; auto|]. intros t E. injection E as -> _. eauto.
    + apply (rule_inv _ _ _ _ _ _ _ Rc) in D1. destruct (eats_suffix _ _ _ _ _ _ _ D1) as [d ->]. pose proof D1 as D3.
      apply comment_text in D3 as [(v & t & -> & Nv & ->)|(u & -> & U)]; auto.
      * assert (Wt : wf_text (x0a :: t)). { rewrite <- app_assoc in Wf. apply wf_rest in Wf; [|apply valid_wf; reflexivity]. eapply wf_rest; [|exact Wf]. eapply wf_cut; [exact Wf|reflexivity]. }
        destruct IHD2 as (w & E & G & F); auto. destruct (F t eq_refl) as (w' & -> & G'). exists (lit "--" ++ v ++ x0a :: w'). split; [rewrite E, <- !app_assoc; reflexivity|].
        split; [apply gap_line; auto|]. intros t2 E2. discriminate E2.
      * assert (Wt : wf_text b1).
        { apply long_last in U as (u0 & ->). rewrite <- !app_assoc in Wf. rewrite app_assoc in Wf. exact (wf_behind _ _ _ Wf eq_refl). }
        destruct IHD2 as (w & -> & G & F); auto. exists (lit "--" ++ u ++ w). split; [rewrite <- !app_assoc; reflexivity|]. split; [apply gap_long; auto|]. intros t2 E2. discriminate E2.
Qed.
End Tokens.

(* ------------------------------------------------------------------- rules *)

Section Rules.
Context {L : GoLib} (Gp : reader -> bytes -> Prop) (I : nat -> bytes -> Prop).
Context (HN : forall i x w, lua_name i = Some x -> I i w -> phrase x w) (HG : forall w, Gp skipped w -> gap w).
Lemma tr_ws rs xs : Forall2 (tr Gp I lua_name) rs xs -> tr Gp I lua_name (RSkipSeq (RZom ws) rs) (Cat xs).
Proof. apply tr_skip. apply sign_run. Qed.
Lemma tr_sk rs xs : Forall2 (tr Gp I lua_name) rs xs -> tr Gp I lua_name (RSkipSeq lua_skiper rs) (Cat xs).
Proof. apply tr_skip. intros w [_ H]. apply HG. exact H. Qed.
Lemma tr_ch y c : bz y = c -> c <? 128 = true -> tr Gp I lua_name (RRune c) (T (Sign [y])).
Proof. intros E H. apply tr_rune; auto. lia. Qed.
Lemma tr_num : tr Gp I lua_name lua_numeral Numeral.
Proof. apply tr_fact. intros w H. apply phrase_tok. apply (numeral_lang Gp I). auto. Qed.
Ltac go := first
  [ apply tr_num | apply tr_ws; go | apply tr_sk; go | apply tr_any; go | apply tr_seq; go | apply tr_zom; go | apply tr_opt; go | apply tr_many; go
  | apply tr_rule; reflexivity | apply tr_lit | apply tr_ch; reflexivity | apply Forall2_nil | apply Forall2_cons; [go|go] ].
Lemma t_Field : tr Gp I lua_name lua_Field_r (manual field). Proof. go. Qed.
Lemma t_FieldList : tr Gp I lua_name lua_FieldList_r (manual fieldlist). Proof. go. Qed.
Lemma t_Table : tr Gp I lua_name lua_TableConstructor_r (manual tableconstructor). Proof. go. Qed.
Lemma t_Params : tr Gp I lua_name lua_FuncParams_r (manual parlist). Proof. go. Qed.
Lemma t_Body : tr Gp I lua_name lua_FuncBody_r (manual funcbody). Proof. go. Qed.
Lemma t_Def : tr Gp I lua_name lua_FuncDef_r (manual functiondef). Proof. go. Qed.
Lemma t_Args : tr Gp I lua_name lua_FuncArgs_r (manual args). Proof. go. Qed.
Lemma t_Call : tr Gp I lua_name lua_FuncCall_r (Cat [base_x; Cat [call_x; Star call_x]]). Proof. go. Qed.
Lemma t_Prefix : tr Gp I lua_name lua_PrefixExp_r (Cat [base_x; Star call_x]). Proof. go. Qed.
Lemma t_Final : tr Gp I lua_name lua_FinalExp_r (Alt [K "nil"; K "false"; K "true"; Numeral; LiteralString; K "..."; N functiondef; Cat [N unop; N exp]; N tableconstructor; N prefixexp]). Proof. go. Qed.
Lemma t_Exp : tr Gp I lua_name lua_Exp_r (Alt [Cat [N exp; N binop; N exp]; N exp]). Proof. go. Qed.
Lemma t_ExpList : tr Gp I lua_name lua_ExpList_r (manual explist). Proof. go. Qed.
Lemma t_NameList : tr Gp I lua_name lua_NameList_r (manual namelist). Proof. go. Qed.
Lemma t_Suffix : tr Gp I lua_name lua_VarSuffix_r suffix_x. Proof. go. Qed.
Lemma t_Var : tr Gp I lua_name lua_Var_r (Cat [Alt [Name; Cat [K "("; N exp; K ")"; suffix_x]]; Star suffix_x]). Proof. go. Qed.
Lemma t_VarList : tr Gp I lua_name lua_VarList_r (manual varlist). Proof. go. Qed.
Lemma t_FuncName : tr Gp I lua_name lua_FuncName_r (manual funcname). Proof. go. Qed.
Lemma t_Label : tr Gp I lua_name lua_Label_r (manual label). Proof. go. Qed.
Lemma t_Ret : tr Gp I lua_name lua_RetStat_r (manual retstat). Proof. go. Qed.
Lemma t_Attrib : tr Gp I lua_name lua_Attrib_r (manual attrib). Proof. go. Qed.
Lemma t_AttNames : tr Gp I lua_name lua_AttNameList_r (manual attnamelist). Proof. go. Qed.
Lemma t_UnOp : tr Gp I lua_name lua_UnOp_r (manual unop). Proof. go. Qed.
Lemma t_BinOp : tr Gp I lua_name lua_BinOp_r (Alt (map K [".."; "<="; "<"; ">="; ">"; "=="; "~="; "and"; "or"; "+"; "-"; "*"; "/"; "//"; "^"; "%"; "&"; "~"; "|"; ">>"; "<<"]%string)). Proof. go. Qed.
Lemma t_Break : tr Gp I lua_name lua_Break_r (K "break"). Proof. go. Qed.
Lemma t_GoTo : tr Gp I lua_name lua_GoTo_r (Cat [K "goto"; Name]). Proof. go. Qed.
Lemma t_Do : tr Gp I lua_name lua_Do_r (Cat [K "do"; N block; K "end"]). Proof. go. Qed.
Lemma t_While : tr Gp I lua_name lua_While_r (Cat [K "while"; N exp; K "do"; N block; K "end"]). Proof. go. Qed.
Lemma t_Repeat : tr Gp I lua_name lua_Repeat_r (Cat [K "repeat"; N block; K "until"; N exp]). Proof. go. Qed.
Lemma t_If : tr Gp I lua_name lua_IfElse_r
  (Cat [K "if"; N exp; K "then"; N block; Star (Cat [K "elseif"; N exp; K "then"; N block]); Maybe (Cat [K "else"; N block]); K "end"]). Proof. go. Qed.
Lemma t_For : tr Gp I lua_name lua_For_r
  (Cat [K "for"; Name; K "="; N exp; K ","; N exp; Maybe (Cat [K ","; N exp]); K "do"; N block; K "end"]). Proof. go. Qed.
Lemma t_ForEach : tr Gp I lua_name lua_ForEach_r (Cat [K "for"; N namelist; K "in"; N explist; K "do"; N block; K "end"]). Proof. go. Qed.
Lemma t_Func : tr Gp I lua_name lua_Func_r (Cat [K "function"; N funcname; N funcbody]). Proof. go. Qed.
Lemma t_LocalFunc : tr Gp I lua_name lua_LocalFunc_r (Cat [K "local"; K "function"; Name; N funcbody]). Proof. go. Qed.
Lemma t_LocalAtt : tr Gp I lua_name lua_LocalAtt_r (Cat [K "local"; N attnamelist; Maybe (Cat [K "="; N explist])]). Proof. go. Qed.
Lemma t_Stat : tr Gp I lua_name lua_Stat_r (Alt [K ";"; Cat [N varlist; K "="; N explist]; N label; N stat; N stat; N stat; N stat; N stat; N stat; N stat; N stat; N stat; N stat; N stat; N functioncall]). Proof. go. Qed.
Lemma t_Block : tr Gp I lua_name lua_Block_r (manual block). Proof. go. Qed.
Lemma t_Chunk : tr Gp I lua_name lua_Chunk_r (N block). Proof. go. Qed.
End Rules.

(* ------------------------------------------------------------- derivations *)

Lemma alt_inv l ts : derives (Alt l) ts -> exists x, In x l /\ derives x ts.
Proof. inversion 1; subst; eauto. Qed.
Lemma cat_inv x l ts : derives (Cat (x :: l)) ts -> exists u v, ts = u ++ v /\ derives x u /\ derives (Cat l) v.
Proof. inversion 1; subst; eauto. Qed.
Lemma cat_nil_inv ts : derives (Cat []) ts -> ts = [].
Proof. inversion 1; auto. Qed.
Lemma maybe_inv x ts : derives (Maybe x) ts -> ts = [] \/ derives x ts.
Proof. inversion 1; auto. Qed.
Lemma star_fold x (Q : list lua_token -> Prop) u v : (forall u v, Q u -> derives x v -> Q (u ++ v)) -> Q u -> derives (Star x) v -> Q (u ++ v).
Proof.
  intros H Qu D. remember (Star x) as y eqn:E. revert u Qu. induction D; intros w Qw; try discriminate.
  - rewrite app_nil_r. auto.
  - injection E as ->. rewrite app_assoc. apply IHD2; auto.
Qed.
Lemma alt_rule n l ts x : manual n = Alt l -> In x l -> derives x ts -> derives (N n) ts.
Proof. intros E H D. constructor. rewrite E. econstructor; eauto. Qed.
Lemma cat_one x ts : derives x ts -> derives (Cat [x]) ts.
Proof. intros D. rewrite <- (app_nil_r ts). constructor; auto. constructor. Qed.
Lemma base_prefix ts : derives base_x ts -> derives (N prefixexp) ts.
Proof. intros D. apply alt_inv in D as (x & [<-|[<-|[]]] & D); eapply alt_rule; try reflexivity; try exact D; cbn; tauto. Qed.
Lemma call_prefix ts : derives (N functioncall) ts -> derives (N prefixexp) ts.
Proof. intros D. eapply alt_rule; try reflexivity; try exact D; cbn; tauto. Qed.
Lemma var_prefix ts : derives (N var) ts -> derives (N prefixexp) ts.
Proof. intros D. eapply alt_rule; try reflexivity; try exact D; cbn; tauto. Qed.
Lemma call_more u v : derives (N prefixexp) u -> derives call_x v -> derives (N functioncall) (u ++ v).
Proof.
  intros U D. apply cat_inv in D as (m & a & -> & M & A). apply maybe_inv in M as [->|M].
  - eapply alt_rule; [reflexivity|left; reflexivity|]. constructor; auto.
  - apply cat_inv in M as (c & n & -> & C & M). rewrite <- app_assoc. eapply alt_rule; [reflexivity|right; left; reflexivity|]. constructor; auto. constructor; auto.
    apply cat_inv in M as (d & z & -> & D & Z). apply cat_nil_inv in Z as ->. rewrite app_nil_r. constructor; auto.
Qed.
Lemma calls_more u v : derives (N prefixexp) u -> derives (Star call_x) v -> derives (N prefixexp) (u ++ v).
Proof. apply star_fold. intros a b A B. apply call_prefix, call_more; auto. Qed.
Lemma suffix_more u v : derives (N prefixexp) u -> derives suffix_x v -> derives (N var) (u ++ v).
Proof.
  intros U D. apply cat_inv in D as (m & a & -> & M & A). apply cat_inv in A as (x & z & -> & A & Z). apply cat_nil_inv in Z as ->. rewrite app_nil_r, app_assoc.
  pose proof (calls_more _ _ U M) as P. apply alt_inv in A as (y & [<-|[<-|[]]] & A); (eapply alt_rule; [reflexivity| |constructor; [exact P|exact A]]; cbn; tauto).
Qed.
Lemma r_Call ts : derives (Cat [base_x; Cat [call_x; Star call_x]]) ts -> derives (N functioncall) ts.
Proof.
  intros D. apply cat_inv in D as (u & v & -> & U & D). apply cat_inv in D as (w & z & -> & D & Z). apply cat_nil_inv in Z as ->. rewrite app_nil_r.
  apply cat_inv in D as (a & b & -> & A & B). apply cat_inv in B as (s & z & -> & B & Z). apply cat_nil_inv in Z as ->. rewrite app_nil_r, app_assoc.
  revert B. apply star_fold; [|apply call_more; auto; apply base_prefix; auto]. intros c d C D. apply call_more; auto. apply call_prefix; auto.
Qed.
Lemma r_Prefix ts : derives (Cat [base_x; Star call_x]) ts -> derives (N prefixexp) ts.
Proof.
  intros D. apply cat_inv in D as (u & v & -> & U & D). apply cat_inv in D as (w & z & -> & D & Z). apply cat_nil_inv in Z as ->. rewrite app_nil_r.
  apply calls_more; auto. apply base_prefix; auto.
Qed.
Lemma r_Var ts : derives (Cat [Alt [Name; Cat [K "("; N exp; K ")"; suffix_x]]; Star suffix_x]) ts -> derives (N var) ts.
Proof.
  intros D. apply cat_inv in D as (u & v & -> & U & D). apply cat_inv in D as (w & z & -> & D & Z). apply cat_nil_inv in Z as ->. rewrite app_nil_r.
  revert D. apply star_fold; [intros a b A B; apply suffix_more; auto; apply var_prefix; auto|]. apply alt_inv in U as (x & [<-|[<-|[]]] & U); [eapply alt_rule; [reflexivity|left; reflexivity|auto]|].
  apply cat_inv in U as (a & r & -> & A & U). apply cat_inv in U as (b & r' & -> & B & U). apply cat_inv in U as (c & r & -> & C & U).
  apply cat_inv in U as (d & z & -> & D & Z). apply cat_nil_inv in Z as ->. rewrite app_nil_r, !app_assoc. apply suffix_more; auto. rewrite <- !app_assoc.
  eapply alt_rule; [reflexivity|right; right; left; reflexivity|]. repeat (constructor; auto). apply cat_one. auto.
Qed.
Lemma r_Final ts : derives (Alt [K "nil"; K "false"; K "true"; Numeral; LiteralString; K "..."; N functiondef; Cat [N unop; N exp]; N tableconstructor; N prefixexp]) ts -> derives (N exp) ts.
Proof. intros D. apply alt_inv in D as (x & H & D). eapply alt_rule; [reflexivity| |exact D]. cbn in H |- *. tauto. Qed.
Lemma r_Exp ts : derives (Alt [Cat [N exp; N binop; N exp]; N exp]) ts -> derives (N exp) ts.
Proof. intros D. apply alt_inv in D as (x & [<-|[<-|[]]] & D); auto. eapply alt_rule; [reflexivity| |exact D]. cbn. tauto. Qed.
Lemma r_BinOp ts : derives (Alt (map K [".."; "<="; "<"; ">="; ">"; "=="; "~="; "and"; "or"; "+"; "-"; "*"; "/"; "//"; "^"; "%"; "&"; "~"; "|"; ">>"; "<<"]%string)) ts -> derives (N binop) ts.
Proof.
  intros D. apply alt_inv in D as (x & H & D). eapply alt_rule; [reflexivity| |exact D]. apply in_map_iff in H as (s & <- & H). unfold K. apply (in_map (fun x => T (Sign x))).
  cbn [In] in H. repeat (destruct H as [<-|H]; [vm_compute; tauto|]). destruct H.
Qed.
Lemma r_Stat ts : derives (Alt [K ";"; Cat [N varlist; K "="; N explist]; N label; N stat; N stat; N stat; N stat; N stat; N stat; N stat; N stat; N stat; N stat; N stat; N functioncall]) ts -> derives (N stat) ts.
Proof.
  intros D. apply alt_inv in D as (x & H & D). assert (X : N stat = x \/ In x [K ";"; Cat [N varlist; K "="; N explist]; N functioncall; N label]) by (cbn in H |- *; tauto).
  clear H. destruct X as [<-|X]; auto. eapply alt_rule; [reflexivity| |exact D]. cbn in X |- *. tauto.
Qed.

(* ---------------------------------------------------------------- she-bang *)

Section Bang.
Context (e : env) (r : reader) (g : byte -> bool) (Tk : forall b, first g b = true -> forall c, exists c' t, eats e (IR r) c b true c' t)
  (Tn : forall b, first g b = false -> out e (IR r) b false b).
Lemma to_first v t : wf_text v -> Forall (fun x => g x = false) v -> first g t = true -> forall c, exists c', eats e (ITo r) c (v ++ t) true c' t.
Proof.
  intros (rs & F & ->). induction F as [|x rs Hx F IH]; intros N T1 c.
  - cbn [utf8s flat_map app]. destruct (Tk t T1 c) as (c' & t' & D). exists c'. eapply i_to_hit. exact D.
  - cbn [utf8s flat_map] in *. change (flat_map utf8 rs) with (utf8s rs) in *. apply Forall_app in N as [N1 N2]. rewrite <- app_assoc. destruct (IH N2 T1 c) as (c' & D). exists c'.
    eapply i_to_next; [apply Tn|apply step_utf8; auto|exact D]. pose proof (utf8_nonnil x) as Q. destruct (utf8 x) as [|y u]; [congruence|]. inversion N1; subst. auto.
Qed.
Lemma to_never v : wf_text v -> Forall (fun x => g x = false) v -> out e (ITo r) v false [].
Proof.
  intros (rs & F & ->). induction F as [|x rs Hx F IH]; intros N c.
  - eapply i_to_stop; [apply Tn; reflexivity|reflexivity].
  - cbn [utf8s flat_map] in *. change (flat_map utf8 rs) with (utf8s rs) in *. apply Forall_app in N as [N1 N2]. eapply i_to_next; [apply Tn|apply step_utf8; auto|apply IH; auto].
    pose proof (utf8_nonnil x) as Q. destruct (utf8 x) as [|y u]; [congruence|]. inversion N1; subst. auto.
Qed.
Lemma span (b : bytes) : Forall (fun x => g x = false) b \/ exists v t, b = v ++ t /\ Forall (fun x => g x = false) v /\ first g t = true.
Proof.
  induction b as [|x b IH]; [left; auto|]. destruct (g x) eqn:Q; [right; exists [], (x :: b); auto|]. destruct IH as [H|(v & t & -> & H & T1)]; [left; auto|].
  right. exists (x :: v), t. auto.
Qed.
Lemma to_read c b c' rest : (forall x, g x = true -> bz x < 128) -> wf_text b -> eats e (ITo r) c b true c' rest -> exists v, b = v ++ rest /\ Forall (fun x => g x = false) v.
Proof.
  intros As Wb D. destruct (span b) as [H|(v & t & -> & H & T1)].
  - pose proof (to_never b Wb H c) as D2. destruct (eats_det _ _ _ _ _ _ _ D _ _ _ D2) as (? & _). discriminate.
  - assert (Wv : wf_text v) by (destruct t as [|x t]; [discriminate|]; eapply wf_cut; [exact Wb|apply As; exact T1]).
    destruct (to_first v t Wv H T1 c) as (c2 & D2). destruct (eats_det _ _ _ _ _ _ _ D _ _ _ D2) as (_ & _ & ->). exists v. auto.
Qed.
End Bang.

(* --------------------------------------------------------------- the rules *)

Lemma text_phrase i x w : lua_name i = Some x -> lua_text i w -> phrase x w.
Proof.
  intros E. unfold lua_text. destruct (Nat.eqb_spec i 0) as [->|_]; [discriminate|]. destruct (Nat.eqb_spec i 4) as [->|_]; [discriminate|].
  destruct (Nat.eqb_spec i 43) as [->|_]; [discriminate|]. rewrite E. auto.
Qed.
Lemma lua_restores {L : GoLib} : restores lua_env. Proof. apply restores_check. vm_compute. reflexivity. Qed.
Lemma lua_steady {L : GoLib} : eall steadyb lua_env. Proof. apply eall_check. vm_compute. reflexivity. Qed.
Lemma rallP_and (P Q : reader -> Prop) : forall r, rallP P r -> rallP Q r -> rallP (fun r => P r /\ Q r) r.
Proof.
  refine (reader_ind' _ _ _ _ _ _ _ _ _ _ _ _ _ _ _ _ _ _ _ _ _ _ _ _ _ _ _ _ _ _ _ _ _ _ _ _ _); intros;
    cbn [rallP] in *; repeat match goal with X : _ /\ _ |- _ => destruct X end;
    repeat match goal with |- _ /\ _ => split end; auto.
  all: match goal with X : Forall _ _, Y : fold_right _ _ _, Z : fold_right _ _ _ |- _ => revert Y Z; clear - X; induction X; cbn; [auto|]; intros [Y1 Y2] [Z1 Z2]; split; auto end.
Qed.
Lemma lua_rule {L : GoLib} i : r_reader (get_rule lua_env i) = nth_error lua_readers i.
Proof. do 44 (destruct i as [|i]; [vm_compute; reflexivity|]). vm_compute. destruct i; reflexivity. Qed.
Lemma lua_good {L : GoLib} i r : r_reader (get_rule lua_env i) = Some r -> rall (base true true lua_env) r = true.
Proof. exact (ct_good _ _ _ _ _ (certifies_ok _ _ _ _ _ lua_certifies) i r). Qed.
Definition apt {L : GoLib} (r : reader) : Prop := steady r /\ base true true lua_env r = true.
Lemma apt_all {L : GoLib} r : rall steadyb r = true -> rall (base true true lua_env) r = true -> rallP apt r.
Proof. intros H1 H2. apply rallP_and; [apply steady_check; auto|]. apply rallP_rall in H2. exact H2. Qed.
Definition texts (c : cells) (b : bytes) : Prop := wf_text b /\ forall i, wf_text (get [] c i).
Lemma texts_after {L : GoLib} r c b ok c' b' : rallP apt r -> eats lua_env (IR r) c b ok c' b' -> texts c b -> texts c' b'.
Proof.
  intros H D [B C]. assert (G : rall (base true true lua_env) r = true) by (apply rallP_rall; revert H; apply rallP_impl; intros x [_ H]; exact H).
  destruct (eats_wf _ _ _ _ _ (certifies_ok _ _ _ _ _ lua_certifies) _ _ _ _ _ _ D G) as [B' C']; [intros _; auto|intros _; auto|]. split; [apply B'; auto|apply C'; auto].
Qed.
Lemma pair_inv e a b c t c' t' : eats e (IR (RSeq [a; b])) c t true c' t' -> exists c1 t1, eats e (IR a) c t true c1 t1 /\ eats e (IR b) c1 t1 true c' t'.
Proof.
  intros D. assert (D2 : eats e (ISeq [a; b]) c t true c' t') by (inversion D; subst; try discriminate; auto). clear D.
  inversion D2; subst. match goal with H : eats e (ISeq [b]) _ _ _ _ _ |- _ => inversion H; subst end. match goal with H : eats e (ISeq []) _ _ _ _ _ |- _ => inversion H; subst end. eauto.
Qed.
Lemma to_inv e a c t c' t' : eats e (IR (RTo a)) c t true c' t' -> eats e (ITo a) c t true c' t'.
Proof. intros D. inversion D; subst; try discriminate; auto. Qed.
Lemma zom_inv e a c t c' t' : eats e (IR (RZom a)) c t true c' t' -> eats e (IRep a) c t true c' t'.
Proof. intros D. inversion D; subst; try discriminate; auto. Qed.
Lemma lit_inv e x c t c' t' : eats e (IR (RLit x)) c t true c' t' -> t = x ++ t' /\ c' = c.
Proof.
  intros D. destruct (lit_cases x t) as [[u ->]|N].
  - destruct (eats_det _ _ _ _ _ _ _ D _ _ _ (o_lit e x u c)) as (_ & -> & ->). auto.
  - destruct (eats_det _ _ _ _ _ _ _ D _ _ _ (o_lit_no e x t N c)) as (? & _). discriminate.
Qed.
Definition gaps (a : reader) (w : bytes) : Prop := a = skipped -> gap w.
Definition rightly {L : GoLib} (r : reader) (i : nat) : Prop :=
  forall c b c' b' w, texts c b -> eats lua_env (IR r) c b true c' b' -> b = w ++ b' -> glang gaps lua_text r w -> lua_text i w.
Section Bodies.
Context {L : GoLib}.
Lemma text_of i x w : lua_name i = Some x -> phrase x w -> lua_text i w.
Proof.
  intros E P. unfold lua_text. destruct (Nat.eqb_spec i 0) as [->|_]; [discriminate|]. destruct (Nat.eqb_spec i 4) as [->|_]; [discriminate|].
  destruct (Nat.eqb_spec i 43) as [->|_]; [discriminate|]. rewrite E. exact P.
Qed.
Lemma by_tr r x y i : lua_name i = Some y -> tr gaps lua_text lua_name r x -> (forall ts, derives x ts -> derives y ts) -> rightly r i.
Proof.
  intros E Tr D c b c' b' w _ _ _ Lw. pose proof (tr_phrase gaps lua_text lua_name text_phrase r x w Tr Lw) as P. apply (phrase_weak x y) in P; auto. apply (text_of i y); auto.
Qed.
Lemma by_manual r n i : lua_name i = Some (N n) -> tr gaps lua_text lua_name r (manual n) -> rightly r i.
Proof. intros E Tr. apply (by_tr r (manual n) (N n)); auto. intros ts D. constructor. auto. Qed.
Lemma by_stat r x i : lua_name i = Some (N stat) -> tr gaps lua_text lua_name r x -> In x (match manual stat with Alt l => l | _ => [] end) -> rightly r i.
Proof. intros E Tr H. apply (by_tr r x (N stat)); auto. intros ts D. eapply alt_rule; [reflexivity|exact H|exact D]. Qed.
Definition line_end (x : byte) : bool := is 0x0D x || is 0x0A x.
Definition eol : reader := RAny [RRune 0x0D; RRune 0x0A].
Lemma eol_yes e b : first line_end b = true -> forall c, exists c' t, eats e (IR eol) c b true c' t.
Proof.
  intros H c. destruct b as [|x b]; [discriminate|]. cbn [first] in H. exists c, b. revert c. unfold line_end in H. destruct (is 0x0D x) eqn:Q.
  - apply o_any, oa_hit. eapply o_takes_yes; [apply tk_rune; lia|exact Q].
  - apply o_any. eapply oa_next; [eapply o_takes_no; [apply tk_rune; lia|exact Q]|]. apply oa_hit. eapply o_takes_yes; [apply tk_rune; lia|exact H].
Qed.
Lemma eol_no e b : first line_end b = false -> out e (IR eol) b false b.
Proof.
  intros H. eapply o_any_no. eapply oa_next; [eapply o_takes_no; [apply tk_rune; lia|]|eapply oa_next; [eapply o_takes_no; [apply tk_rune; lia|]|apply oa_nil]];
    (destruct b as [|x b]; [reflexivity|]; cbn [first] in *; unfold line_end in H; lia).
Qed.
Lemma b_bang : rightly lua_SheBang_r lSheBang.
Proof.
  intros c b c' b' w [Wb _] D E _. change (she_bang w). change lua_SheBang_r with (RSeq [RLit (lit "#!"); RTo eol]) in D.
  apply pair_inv in D as (c1 & t1 & D1 & D2). apply lit_inv in D1 as [-> ->]. apply to_inv in D2. assert (Wt : wf_text t1) by (eapply wf_rest; [|exact Wb]; apply valid_wf; reflexivity).
  apply (to_read lua_env eol line_end) in D2 as (v & -> & V); auto.
  - exists v. split; [rewrite app_assoc in E; symmetry; exact (app_inv_tail _ _ _ E)|]. split; intros H; (rewrite Forall_forall in V; specialize (V _ H); discriminate).
  - apply eol_yes.
  - apply eol_no.
  - intros x X. unfold line_end, is in X. lia.
Qed.
Lemma b_name : rightly lua_Name_r lName.
Proof.
  intros c b c' b' w _ _ _ Lw. apply (text_of lName Name); [reflexivity|]. apply phrase_tok. apply (name_lang gaps lua_text).
  replace name_reader with lua_Name_r; [exact Lw|vm_compute; reflexivity].
Qed.
Lemma b_numeral : rightly lua_Numeral_r lNumeral.
Proof. intros c b c' b' w _ _ _ Lw. apply (text_of lNumeral Numeral); [reflexivity|]. apply phrase_tok. apply (numeral_lang gaps lua_text). exact Lw. Qed.
Lemma b_string : rightly lua_LiteralString_r lLiteralString.
Proof.
  intros c b c' b' w [Wb _] D E _. apply (text_of lLiteralString LiteralString); [reflexivity|]. apply phrase_tok. subst b. exact (string_text _ _ _ _ _ lua_restores Wb D).
Qed.
Lemma b_comment : rightly lua_Comment_r lComment.
Proof. intros c b c' b' w [Wb _] D E _. change (lua_remark w). subst b. exact (comment_remark _ _ _ _ _ lua_restores Wb D). Qed.
Lemma b_fieldsep : rightly lua_FieldSep_r lFieldSep.
Proof.
  intros c b c' b' w _ _ _ Lw. apply (text_of lFieldSep (N fieldsep)); [reflexivity|]. apply any_byte in Lw as (x & -> & H); [|reflexivity].
  apply (phrase_weak (T (Sign [x]))); [|apply phrase_tok; reflexivity]. intros ts D. eapply alt_rule; [reflexivity| |exact D]. destruct H as [<-|[<-|[]]]; cbn; tauto.
Qed.
Lemma b_script : rightly lua_Script_r lScript.
Proof.
  intros c b c' b' w _ _ _ Lw. change (script w). destruct Lw as (u & v & -> & U & v' & z & -> & V & ->). rewrite app_nil_r. exists u, v'. split; [reflexivity|]. split; [exact U|exact V].
Qed.
Definition rights (l : list reader) (k : nat) : Prop := forall i r, nth_error l i = Some r -> rightly r (k + i).
Lemma rights_cons x l k : rightly x k -> rights l (S k) -> rights (x :: l) k.
Proof. intros H T [|i] r; cbn [nth_error]; intros E; [apply (f_equal (fun o => match o with Some y => y | None => x end)) in E; subst r; rewrite Nat.add_0_r; auto|]. rewrite Nat.add_succ_r. exact (T i r E). Qed.
Theorem lua_rightly i r : nth_error lua_readers i = Some r -> rightly r i.
Proof.
  assert (HG : forall w, gaps skipped w -> gap w) by (intros w H; apply H; reflexivity). change i with (0 + i)%nat. revert i r. change (rights lua_readers 0). unfold lua_readers.
  apply rights_cons; [apply b_bang|].
  apply rights_cons; [apply b_name|].
  apply rights_cons; [apply b_numeral|].
  apply rights_cons; [apply b_string|].
  apply rights_cons; [apply b_comment|].
  apply rights_cons; [apply (by_manual _ unop); [reflexivity|apply t_UnOp]|].
  apply rights_cons; [eapply by_tr; [reflexivity|apply t_BinOp|apply r_BinOp]|].
  apply rights_cons; [apply b_fieldsep|].
  apply rights_cons; [apply (by_manual _ field); [reflexivity|apply t_Field; auto]|].
  apply rights_cons; [apply (by_manual _ fieldlist); [reflexivity|apply t_FieldList; auto]|].
  apply rights_cons; [apply (by_manual _ tableconstructor); [reflexivity|apply t_Table; auto]|].
  apply rights_cons; [apply (by_manual _ parlist); [reflexivity|apply t_Params; auto]|].
  apply rights_cons; [apply (by_manual _ funcbody); [reflexivity|apply t_Body; auto]|].
  apply rights_cons; [apply (by_manual _ functiondef); [reflexivity|apply t_Def; auto]|].
  apply rights_cons; [apply (by_manual _ args); [reflexivity|apply t_Args; auto]|].
  apply rights_cons; [eapply by_tr; [reflexivity|apply t_Call; auto|apply r_Call]|].
  apply rights_cons; [eapply by_tr; [reflexivity|apply t_Prefix; auto|apply r_Prefix]|].
  apply rights_cons; [eapply by_tr; [reflexivity|apply t_Final; auto|apply r_Final]|].
  apply rights_cons; [eapply by_tr; [reflexivity|apply t_Exp; auto|apply r_Exp]|].
  apply rights_cons; [apply (by_manual _ explist); [reflexivity|apply t_ExpList; auto]|].
  apply rights_cons; [apply (by_manual _ namelist); [reflexivity|apply t_NameList; auto]|].
  apply rights_cons; [eapply by_tr; [reflexivity|apply t_Suffix; auto|auto]|].
  apply rights_cons; [eapply by_tr; [reflexivity|apply t_Var; auto|apply r_Var]|].
  apply rights_cons; [apply (by_manual _ varlist); [reflexivity|apply t_VarList; auto]|].
  apply rights_cons; [apply (by_manual _ funcname); [reflexivity|apply t_FuncName; auto]|].
  apply rights_cons; [apply (by_manual _ label); [reflexivity|apply t_Label; auto]|].
  apply rights_cons; [apply (by_manual _ retstat); [reflexivity|apply t_Ret; auto]|].
  apply rights_cons; [apply (by_manual _ attrib); [reflexivity|apply t_Attrib; auto]|].
  apply rights_cons; [apply (by_manual _ attnamelist); [reflexivity|apply t_AttNames; auto]|].
  apply rights_cons; [eapply by_stat; [reflexivity|apply t_Break; auto|cbn; tauto]|].
  apply rights_cons; [eapply by_stat; [reflexivity|apply t_GoTo; auto|cbn; tauto]|].
  apply rights_cons; [eapply by_stat; [reflexivity|apply t_Do; auto|cbn; tauto]|].
  apply rights_cons; [eapply by_stat; [reflexivity|apply t_While; auto|cbn; tauto]|].
  apply rights_cons; [eapply by_stat; [reflexivity|apply t_Repeat; auto|cbn; tauto]|].
  apply rights_cons; [eapply by_stat; [reflexivity|apply t_If; auto|cbn; tauto]|].
  apply rights_cons; [eapply by_stat; [reflexivity|apply t_For; auto|cbn; tauto]|].
  apply rights_cons; [eapply by_stat; [reflexivity|apply t_ForEach; auto|cbn; tauto]|].
  apply rights_cons; [eapply by_stat; [reflexivity|apply t_Func; auto|cbn; tauto]|].
  apply rights_cons; [eapply by_stat; [reflexivity|apply t_LocalFunc; auto|cbn; tauto]|].
  apply rights_cons; [eapply by_stat; [reflexivity|apply t_LocalAtt; auto|cbn; tauto]|].
  apply rights_cons; [eapply by_tr; [reflexivity|apply t_Stat; auto|apply r_Stat]|].
  apply rights_cons; [apply (by_manual _ block); [reflexivity|apply t_Block; auto]|].
  apply rights_cons; [apply (by_manual _ chunk); [reflexivity|apply t_Chunk; auto]|].
  apply rights_cons; [apply b_script|].
  intros [|i] r H; discriminate.
Qed.
Theorem lua_eats r c b c' b' w : rallP apt r -> texts c b -> eats lua_env (IR r) c b true c' b' -> b = w ++ b' -> glang gaps lua_text r w.
Proof.
  intros G W D E. refine (eats_lang gaps lua_text lua_env lua_restores texts apt _ _ _ _ _ _ _ (IR r) c b true c' b' D eq_refl _ G _ w E).
  - intros i x R. apply apt_all; [exact (lua_steady i x R)|exact (lua_good i x R)].
  - intros x [H _]. exact H.
  - intros x d y ok d' y'. apply texts_after.
  - intros d y [H1 H2]. split; auto. apply wf_step. auto.
  - intros c0 c1 c2 u v v' [H1 _] [H2 _] [_ H3]. split; auto. eapply wf_begin; eauto.
  - intros i x d y d' y' u R. rewrite lua_rule in R. exact (lua_rightly i x R d y d' y' u).
  - intros a d y d' y' u Ga [Wy _] D2 Eu ->. apply zom_inv in D2. destruct (skip_gap _ _ _ _ _ lua_restores env_Comment D2 Wy) as (w2 & E2 & G2 & _).
    rewrite Eu in E2. apply app_inv_tail in E2. subst u. auto.
  - exact Logic.I.
  - split; [exact Logic.I|exact W].
Qed.
End Bodies.
