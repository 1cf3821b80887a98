(** LuaStyleStat.v - the same for statements and blocks. *)
From Verif Require Export LuaStyleList.
From Coq Require Import Lia ZifyBool.
From Verif Require Import ReaderSteps ReaderScan.

Section Stat.
Context {L : GoLib} (e : env) (HE : forall i, r_reader (get_rule e i) = nth_error lua_readers i).
Notation goes := (goes e). Notation balks := (balks e). Notation rounds := (rounds e). Notation chain := (chain e). Notation broken := (broken e). Notation loose := (loose e). Notation sfx := (sfx e).
Notation sem := (sem e).
Notation W := (RZom ws). Notation C := lua_skiper.
Let Sw : skips e W := skips_w e.
Let Sc : skips e C := skips_c e HE.
Hint Resolve Sw Sc blank_nil : core.
Ltac rune x := apply (go_rune e x); [reflexivity|lia].

(* ---------------------------------------------------------------- no assignment, no call *)

Lemma no_assign g w h q0 l q : blank g -> l_name w -> blank h -> word_end (h ++ q0) -> sfx l q0 q -> ~ head_in [x2c] q -> no_eq q -> balks ASSIGN (g ++ w ++ h ++ q0).
Proof.
  intros G N H We X Nc Ne. destruct (go_var e HE w h q0 l q N H We X) as (m & V & T). apply no_seq.
  assert (K : forall gm m', m = gm ++ m' -> blank gm -> solid m' -> ~ head_in [x2c] m' -> halts e [RRune 0x3d; RRule lExpList] m' -> halts e [RRule lVarList; RRune 0x3d; RRule lExpList] (g ++ w ++ h ++ q0)).
  { intros gm m' -> Gm Sm Nm Hm. eapply halts_next; [|exact Hm]. eapply go_rule; [apply is_VarList; auto|]. apply go_skip; auto; [apply let_quiet, name_first; auto|].
    eapply chain_cons; [auto|exact V|exact Gm|exact Sm|]. eapply chain_go; [auto|apply go_zom, r_stop, no_comma_var; auto|exact Sm|apply chain_nil]. }
  assert (Q : halts e [RRune 0x3d; RRule lExpList] q).
  { destruct q as [|y q]; [apply halts_here, (no_rune e x3d); [reflexivity|lia|noh]|]. destruct (Byte.eqb y x3d) eqn:Y.
    - apply Byte.byte_dec_bl in Y. subst y. destruct Ne as [u Eu]; [cbn; auto|]. injection Eu as ->. eapply halts_next; [rune x3d|]. apply halts_here. apply (no_exps_list e HE []); auto. right. cbn. auto.
    - apply halts_here, (no_rune e x3d); [reflexivity|lia|]. intros [<-|[] ]. discriminate Y. }
  destruct (sfx_quiet _ _ _ _ X) as [Sq _]. destruct l as [[]|].
  - destruct T as (gm & q' & q1 & Gm & -> & Ch & Sq' & _). apply (K gm q'); auto.
    + unfold call_head in Ch. destruct q'; cbn in *; intuition (subst; discriminate).
    + apply halts_here, (no_rune e x3d); [reflexivity|lia|]. unfold call_head in Ch. destruct q'; cbn in *; intuition (subst; discriminate).
  - change (m = q) in T. apply (K [] q); auto.
  - change (m = h ++ q) in T. apply (K h q); auto.
Qed.
(** In place of arguments something quiet: no call *)
Lemma no_call_stat g w h q : blank g -> l_name w -> blank h -> word_end (h ++ q) -> quiet q -> balks (RRule lFuncCall) (g ++ w ++ h ++ q).
Proof.
  intros G N H We Q. eapply no_rule; [apply is_FuncCall; auto|]. apply no_seq. destruct G as [|x g X G].
  - destruct (go_var e HE w h q None q N H We (x_end e q Q)) as (m & V & T). change (m = h ++ q) in T. subst m. cbn [app]. eapply halts_next; [apply any_hit; exact V|]. apply halts_here. apply no_many.
    apply no_na; auto. apply quiet_no_call. auto.
  - apply halts_here. assert (F : first d_let ((x :: g) ++ w ++ h ++ q) = false) by (cbn [app first]; cbn in X; intuition (subst; reflexivity)).
    assert (B : forall rs, balks (RSkipSeq C (RRune 0x28 :: rs)) ((x :: g) ++ w ++ h ++ q)).
    { intros rs. apply (no_skip_rune e C x28); auto; [lia|constructor; auto|apply let_quiet, name_first; auto|]. destruct N as (y & t & -> & Y & _). apply d_let_is in Y. cbn [app head_in]. apply let_not; auto. }
    apply any_no; [|apply any_no; [apply B|apply any_nil] ]. eapply no_rule; [apply is_Var; auto|]. apply no_seq, halts_here. apply any_no; [apply no_name; auto|]. apply any_no; [apply B|apply any_nil].
Qed.
(** The statements that begin with a keyword *)
Definition word_stats : list (nat * bytes) := map (fun p => (fst p, lit (snd p))) [(lGoTo, "goto"); (lDo, "do"); (lWhile, "while"); (lRepeat, "repeat"); (lIfElse, "if"); (lFor, "for"); (lForEach, "for");
  (lFunc, "function"); (lLocalFunc, "local"); (lLocalAtt, "local")]%string.
Lemma no_word_stat i k g b : In (i, k) word_stats -> blank g -> solid b -> ~ begins b k -> balks (RRule i) (g ++ b).
Proof.
  intros I G S N. cbn in I. repeat match type of I with _ \/ _ => destruct I as [I|I] end; try contradiction; injection I as <- <-;
    [eapply no_rule; [apply is_GoTo; auto|]|eapply no_rule; [apply is_Do; auto|]|eapply no_rule; [apply is_While; auto|]|eapply no_rule; [apply is_Repeat; auto|]|eapply no_rule; [apply is_IfElse; auto|]
    |eapply no_rule; [apply is_For; auto|]|eapply no_rule; [apply is_ForEach; auto|]|eapply no_rule; [apply is_Func; auto|]|eapply no_rule; [apply is_LocalFunc; auto|]|eapply no_rule; [apply is_LocalAtt; auto|] ]; apply no_skip_lit; auto.
Qed.
(** From a letter on: the alternatives in front of the statements with a keyword balk. *)
Lemma go_stat g w b b' i pre post : blank g -> l_name w -> ~ begins (w ++ b) (lit "break") -> balks ASSIGN (g ++ w ++ b) -> stat_words ++ [RRule lFuncCall] = pre ++ RRule i :: post ->
  Forall (fun r => balks r (g ++ w ++ b)) pre -> goes (RRule i) (g ++ w ++ b) b' -> goes (RRule lStat) (g ++ w ++ b) b'.
Proof.
  intros G N NB A E P X. assert (F := name_first w b N). apply let_first in F as (x & t & Ex & Lx). apply d_let_is in Lx.
  assert (H : forall y, ~ In y whites -> d_let y = false -> forall k, ~ begins (g ++ w ++ b) (y :: k)).
  { intros y Ny Dy k. apply lit_blank; auto. rewrite Ex. intros [u Eu]. injection Eu as -> _. congruence. }
  eapply go_rule; [apply is_Stat; auto|]. rewrite E. apply any_next. { apply (no_rune e x3b); [reflexivity|lia|]. intros I. destruct (g ++ w ++ b) as [|y u] eqn:Eb; [exact I|]. destruct I as [<-|[] ]. apply (H x3b ltac:(noh) eq_refl []). exists u. reflexivity. }
  apply any_next; [exact A|]. apply any_next. { eapply no_rule; [apply is_Label; auto|]. apply no_seq, halts_here, no_lit. apply H; [noh|reflexivity]. }
  apply any_next. { eapply no_rule; [apply is_Break; auto|]. apply no_lit. apply lit_blank; auto. noh. }
  clear E A. induction P as [|r pre R P IH]; cbn [app]; [apply any_hit; exact X|]. apply any_next; auto.
Qed.
(** Where no statement begins *)
Lemma no_stat g k h q : blank g -> In k (map lit ["end"; "else"; "elseif"; "until"; "return"]%string) -> blank h -> word_end (h ++ q) -> quiet q -> ~ head_in [x2c; x3d] q -> balks (RRule lStat) (g ++ k ++ h ++ q).
Proof.
  intros G I H We Q Nq. assert (N : l_name k) by (apply kw_name; cbn in *; tauto).
  assert (S : solid (k ++ h ++ q)) by (apply let_quiet, name_first; auto).
  assert (B : forall y, In y (lit "break") \/ True -> forall j, In j (map lit [";"; "::"; "break"; "goto"; "do"; "while"; "repeat"; "if"; "for"; "function"; "local"]%string) -> ~ begins (k ++ h ++ q) j).
  { intros _ _ j J [u E]. cbn in I, J. repeat match type of I with _ \/ _ => destruct I as [I|I] end; try contradiction; subst k;
    repeat match type of J with _ \/ _ => destruct J as [J|J] end; try contradiction; subst j; cbn in E; discriminate E. }
  assert (K : forall j, In j (map lit [";"; "::"; "break"; "goto"; "do"; "while"; "repeat"; "if"; "for"; "function"; "local"]%string) -> ~ begins (k ++ h ++ q) j) by (intros j; apply (B x20); auto). clear B.
  assert (KG : forall y t, ~ In y whites -> ~ begins (k ++ h ++ q) (y :: t) -> ~ begins (g ++ k ++ h ++ q) (y :: t)) by (intros y t Ny Ky; apply lit_blank; auto).
  eapply no_rule; [apply is_Stat; auto|]. apply any_no. { apply (no_rune e x3b); [reflexivity|lia|]. intros J. destruct (g ++ k ++ h ++ q) as [|y u] eqn:Eb; [exact J|]. destruct J as [<-|[] ].
    apply (KG x3b []); [noh|apply K; cbn; tauto|]. exists u. reflexivity. }
  apply any_no. { apply (no_assign g k h q None q); auto; [apply x_end; auto|eapply head_sub; [exact Nq|reflexivity]|]. intros J. elim (head_sub _ [x3d] _ Nq eq_refl). exact J. }
  apply any_no. { eapply no_rule; [apply is_Label; auto|]. apply no_seq, halts_here, no_lit. apply KG; [noh|apply K; cbn; tauto]. }
  apply any_no. { eapply no_rule; [apply is_Break; auto|]. apply no_lit. apply KG; [noh|apply K; cbn; tauto]. }
  cbn [stat_words app]. do 10 (apply any_no; [eapply no_word_stat; [cbn; tauto|auto|auto|apply K; cbn; tauto]|]). apply any_no; [|apply any_nil]. apply no_call_stat; auto.
Qed.
Lemma no_stat_nil g : blank g -> balks (RRule lStat) (g ++ []).
Proof.
  intros G. assert (KG : forall y t, ~ In y whites -> ~ begins (g ++ []) (y :: t)) by (intros y t Ny; apply lit_blank; auto; intros [u E]; discriminate).
  eapply no_rule; [apply is_Stat; auto|]. apply any_no. { apply (no_rune e x3b); [reflexivity|lia|]. intros J. destruct (g ++ []) as [|y u] eqn:Eb; [exact J|]. destruct J as [<-|[] ]. apply (KG x3b []); [noh|]. exists u. reflexivity. }
  apply any_no. { apply no_seq, halts_here. eapply no_rule; [apply is_VarList; auto|]. apply no_skip; auto using solid_nil. apply broken_here. apply (no_var e HE []); auto using solid_nil. }
  apply any_no. { eapply no_rule; [apply is_Label; auto|]. apply no_seq, halts_here, no_lit. apply KG. noh. }
  apply any_no. { eapply no_rule; [apply is_Break; auto|]. apply no_lit. apply KG. noh. }
  cbn [stat_words app]. do 10 (apply any_no; [eapply no_word_stat; [cbn; tauto|auto|apply solid_nil|intros [u E]; discriminate]|]). apply any_no; [|apply any_nil].
  eapply no_rule; [apply is_FuncCall; auto|]. apply no_seq, halts_here. apply no_varexp; auto using solid_nil.
Qed.
Lemma no_stat_shut r g : shut r -> blank g -> balks (RRule lStat) (g ++ r).
Proof. intros [->|(k & h & q & I & -> & F & N)] G; [apply no_stat_nil; auto|]. apply no_stat; auto; [cbn in *; tauto|apply F|apply fol_word; auto|apply F]. Qed.

(* ---------------------------------------------------------------- single statements *)

Lemma m_semicolon : sem (Stat false false) (str ";").
Proof. intros h g r _ Hh _ _. rewrite (Hh eq_refl). flat. eapply go_rule; [apply is_Stat; auto|]. apply any_hit. rune x3b. Qed.
Lemma m_assign b v g1 g2 l : style Vars v -> sem Vars v -> blank g1 -> blank g2 -> style (Exprs b) l -> sem (Exprs b) l -> sem (Stat true true) (v ++ g1 ++ str "=" ++ g2 ++ l).
Proof.
  intros Stv Sv G1 G2 Stl Sl h g r H _ Nr K. destruct (style_heads _ _ Stl) as [Nl Xl]. flat.
  assert (Ns : g = [] -> r = [] \/ head_in [x3b] r). { intros Eg. destruct K as [_ K]. destruct (K Eg) as [S|S]; [exact S|]. destruct (style_heads _ _ Stv) as (w & u & -> & T & _). rewrite <- app_assoc in S. elim (name_semi _ _ (proj1 T) S). }
  assert (E : ends false g r) by (apply next_ends; auto; apply K).
  eapply go_rule; [apply is_Stat; auto|]. apply any_next.
  - apply (no_rune e x3b); [reflexivity|lia|]. apply head_gap; auto; [intros x X; cbn in X; intuition (subst; cbn in *; intuition discriminate)|]. destruct (style_heads _ _ Stv) as (w & u & -> & T & _).
    rewrite <- app_assoc. destruct T as [(y & t & -> & Y & _) _]. apply d_let_is in Y. cbn [app head_in]. apply let_not; auto.
  - apply any_hit. apply go_seq. eapply seqs_cons; [apply (go_vars e HE h v g1 (x3d :: g2 ++ l ++ g ++ r)); auto; [apply fol_byte; auto; cbn; tauto|noh]|].
    eapply seqs_cons; [rune x3d|]. eapply seqs_cons; [eapply sem_exp_list; eauto; apply Xl|apply seqs_nil].
Qed.
Lemma m_call_stat w t : tidy w -> style (Suffixes (Some true)) t -> sem (Suffixes (Some true)) t -> sem (Stat false true) (w ++ t).
Proof.
  intros T St Se h g r _ Hh Nr K. rewrite (Hh eq_refl). rewrite <- app_assoc.
  assert (Ns : g = [] -> r = [] \/ head_in [x3b] r). { intros Eg. destruct K as [_ K]. destruct (K Eg) as [S|S]; [exact S|]. elim (name_semi _ _ (proj1 T) S). }
  assert (F : fol g r) by (apply next_fol; auto; apply K). destruct (Se g r F) as (h' & q & E & H & X & _).
  assert (We : word_end (t ++ g ++ r)) by (eapply suffix_word; [apply (style_heads _ _ St)|apply fol_word; auto]). assert (Wq := We). rewrite E in Wq.
  destruct (go_var e HE w h' q _ r (proj1 T) H Wq X) as (m & V & Tl). destruct Tl as (gm & q' & q1 & Gm & -> & Ch & Sq' & Na & Lt & Rn). rewrite E.
  apply (go_stat [] w (h' ++ q) r lFuncCall stat_words []); auto.
  - apply T.
  - apply tidy_no_kw; auto. cbn. tauto.
  - apply (no_assign [] w h' q (Some true) r); auto; [apply T|apply next_not; auto|]. intros Hq. elim (next_not [x3d] r Nr eq_refl). exact Hq.
  - cbn [stat_words app]. assert (B : forall k, In k lua_keywords -> ~ begins (w ++ h' ++ q) k) by (intros k Ik; apply tidy_no_kw; auto).
    assert (Sl : solid (w ++ h' ++ q)) by (apply let_quiet, name_first; apply T).
    repeat (apply Forall_cons; [eapply (no_word_stat _ _ []); [cbn; tauto|auto|auto|apply B; cbn; tauto]|]). apply Forall_nil.
  - eapply go_rule; [apply is_FuncCall; auto|]. apply go_seq. cbn [app]. eapply seqs_cons; [apply any_hit; exact V|]. eapply seqs_cons; [|apply seqs_nil].
    apply (go_many e NA _ q1); auto. rewrite app_length. lia.
Qed.
Lemma m_label w : ident w -> sem (Stat false false) (str "::" ++ w ++ str "::").
Proof.
  intros [N _] h g r _ Hh _ _. rewrite (Hh eq_refl). rewrite <- !app_assoc. cbn [app]. eapply go_rule; [apply is_Stat; auto|]. apply any_next; [apply (no_rune e x3b); [reflexivity|lia|noh]|].
  assert (S : solid (str "::" ++ w ++ str "::" ++ g ++ r)) by so.
  apply any_next. { apply no_seq, halts_here. eapply no_rule; [apply is_VarList; auto|]. apply (no_skip e W _ [] _); auto. apply broken_here. apply (no_var e HE []); auto. noh. }
  apply any_hit. eapply go_rule; [apply is_Label; auto|]. apply go_seq. eapply seqs_cons; [apply go_lit|]. eapply seqs_cons; [apply go_name; auto; reflexivity|]. eapply seqs_cons; [apply go_lit|apply seqs_nil].
Qed.
Lemma stat_fol t g r : next_ok t g r -> next r -> t <> str ";" -> fol g r /\ ends false g r /\ opf false g r /\ word_end (g ++ r).
Proof.
  intros K Nr Nt. assert (Ns : g = [] -> r = [] \/ head_in [x3b] r) by (intros Eg; destruct K as [_ K]; destruct (K Eg) as [S|S]; [exact S|contradiction]).
  assert (F : fol g r) by (apply next_fol; auto; apply K). assert (E : ends false g r) by (apply next_ends; auto; apply K). split; auto. split; auto. split; [apply ends_opf; auto|apply fol_word; auto].
Qed.
Lemma m_break : sem (Stat false false) (str "break").
Proof.
  intros h g r _ Hh Nr K. rewrite (Hh eq_refl). destruct (stat_fol _ g r K Nr) as (F & E & _ & We); [discriminate|]. cbn [app]. eapply go_rule; [apply is_Stat; auto|]. apply any_next; [apply (no_rune e x3b); [reflexivity|lia|noh]|].
  apply any_next. { apply (no_assign [] (lit "break") g r None r); auto; [apply kw_name; cbn; tauto|apply F|apply x_end, F|apply next_not; auto|]. intros Hq. elim (next_not [x3d] r Nr eq_refl). exact Hq. }
  apply any_next. { eapply no_rule; [apply is_Label; auto|]. apply no_seq, halts_here, no_lit. intros [u Eu]. discriminate. }
  apply any_hit. eapply go_rule; [apply is_Break; auto|]. apply go_lit.
Qed.
(** A keyword, white space, and something that is neither arguments nor an assignment *)
Ltac others := repeat (apply Forall_cons; [eapply no_word_stat; [cbn; tauto|auto|so|intros [? ?]; discriminate]|]); try apply Forall_nil.
Lemma go_kw_stat g k h q b' i pre post l q' : blank g -> In k lua_keywords -> k <> lit "break" -> blank h -> word_end (h ++ q) -> sfx l q q' -> ~ head_in [x2c] q' -> no_eq q' ->
  stat_words ++ [RRule lFuncCall] = pre ++ RRule i :: post -> Forall (fun r => balks r (g ++ k ++ h ++ q)) pre -> goes (RRule i) (g ++ k ++ h ++ q) b' -> goes (RRule lStat) (g ++ k ++ h ++ q) b'.
Proof.
  intros G I NB H We X Nc Ne E P Y. eapply go_stat; eauto; [apply kw_name; auto| |].
  - intros [u Eu]. cbn in I. repeat match type of I with _ \/ _ => destruct I as [I|I] end; try contradiction; subst k; try discriminate Eu. elim (NB eq_refl).
  - eapply no_assign; eauto. apply kw_name; auto.
Qed.
Lemma m_goto g w : space g -> ident w -> sem (Stat true true) (str "goto" ++ g ++ w).
Proof.
  intros [G Ng] [N _] h g0 r H _ Nr K. destruct (stat_fol _ g0 r K Nr) as (F & E & _ & We); [discriminate|]. rewrite <- !app_assoc. assert (Q : quiet (w ++ g0 ++ r)) by (apply let_quiet, name_first; auto).
  assert (Nh : ~ head_in [x2c; x3d] (w ++ g0 ++ r)) by (destruct N as (y & t & -> & Y & _); apply d_let_is in Y; cbn [app head_in]; apply let_not; auto).
  apply (go_kw_stat h (lit "goto") g (w ++ g0 ++ r) r lGoTo [] (tl stat_words ++ [RRule lFuncCall]) None (w ++ g0 ++ r)); auto; [cbn; tauto|discriminate|apply space_word; split; auto|apply x_end; auto| | |].
  - eapply head_sub; [exact Nh|reflexivity].
  - intros Hq. elim (head_sub _ [x3d] _ Nh eq_refl). exact Hq.
  - eapply go_rule; [apply is_GoTo; auto|]. apply go_skip; auto; [so|]. eapply chain_cons; [auto|apply go_lit|exact G|apply Q|]. eapply chain_cons; [auto|apply go_name; auto|apply F|apply F|apply chain_nil].
Qed.
(** What comes behind a keyword: an expression *)
Lemma exp_sfx b x g r : style (Expr b) x -> sem (Expr b) x -> ends b g r -> ~ head_in [x2c] r -> exists l q, sfx l (x ++ g ++ r) q /\ ~ head_in [x2c] q /\ no_eq q.
Proof.
  intros St Se E Nr. destruct (style_heads _ _ St) as [Nx Xx]. destruct (Se g r E) as (_ & _ & A).
  assert (D : like_args x \/ ~ like_args x).
  { destruct x as [|y x]; [congruence|]. destruct (one_of [x28; x7b; x22; x27] y) eqn:O.
    - left. exists y, x. split; auto. apply one_of_in. exact O.
    - right. intros (z & u & Ez & Z). injection Ez as <- _. apply one_of_in in Z. congruence. }
  destruct D as [D|D]; [auto|]. exists None, (x ++ g ++ r). destruct (Xx (g ++ r)) as (_ & _ & Nh & _). split; [apply x_end; apply no_args_word; auto|]. split; [eapply head_sub; [exact Nh|reflexivity]|].
  intros Hq. elim (head_sub _ [x3d] _ Nh eq_refl). exact Hq.
Qed.
Lemma kw_ends b g k t : space g -> In k lua_keywords -> k <> lit "and" -> k <> lit "or" -> ends b g (k ++ t) /\ ~ head_in [x2c] (k ++ t).
Proof. intros [G N] I A O. assert (K := kw_next k t I A O). split; [apply next_ends; auto; congruence|apply next_not; auto]. Qed.
(** A block behind a keyword *)
Lemma chain_block sk k g t r rs b' : skips e sk -> blank g -> sem (Block true) t -> shut r -> solid r -> chain sk rs r b' -> chain sk (RLit k :: RRule lBlock :: rs) (k ++ g ++ t ++ r) b'.
Proof.
  intros K G Se Sh So X. destruct (Se r Sh) as (h0 & q & -> & H0 & Nq & B); [discriminate|]. rewrite (app_assoc g). eapply chain_cons; [auto|apply go_lit|apply blank_app; auto|apply next_quiet; auto|].
  eapply chain_go; [auto|apply (B []); auto|exact So|exact X].
Qed.
Lemma block_head t r : style (Block true) t -> shut r -> exists h q, t ++ r = h ++ q /\ blank h /\ next q.
Proof. intros St Sh. apply (style_heads _ _ St r); [apply shut_next; auto|discriminate]. Qed.
Lemma chain_end sk g r : skips e sk -> blank g -> solid r -> chain sk [RLit (lit "end")] (lit "end" ++ g ++ r) r.
Proof. intros K G S. eapply chain_cons; [auto|apply go_lit|exact G|exact S|apply chain_nil]. Qed.
Lemma m_do g t : space g -> style (Block true) t -> sem (Block true) t -> sem (Stat true true) (str "do" ++ g ++ t ++ str "end").
Proof.
  intros G St Se h g0 r H _ Nr K. destruct (stat_fol _ g0 r K Nr) as (F & E & O & We); [discriminate|]. rewrite <- !app_assoc. change (str "end") with (lit "end"). change (str "do") with (lit "do").
  assert (Sh := end_shut g0 r O). assert (Sr : solid r) by apply F.
  assert (X : goes (RRule lDo) (h ++ lit "do" ++ g ++ t ++ lit "end" ++ g0 ++ r) r).
  { eapply go_rule; [apply is_Do; auto|]. apply go_skip; auto; [so|]. apply chain_block; auto; [apply G|so|]. apply chain_end; auto. apply F. }
  destruct (block_head t _ St Sh) as (h0 & q & Eq & H0 & Nq). rewrite Eq in *. rewrite (app_assoc g) in *.
  apply (go_kw_stat h (lit "do") (g ++ h0) q r lDo [RRule lGoTo] (tl (tl stat_words) ++ [RRule lFuncCall]) None q); auto; [cbn; tauto|discriminate|apply blank_app; auto; apply G| |apply x_end, next_quiet; auto|apply next_not; auto| |].
  - rewrite <- app_assoc. apply space_word; auto.
  - intros Hq. elim (next_not [x3d] q Nq eq_refl). exact Hq.
  - others.
Qed.
Lemma m_while b g1 x g2 g3 t : space g1 -> style (Expr b) x -> sem (Expr b) x -> space g2 -> space g3 -> style (Block true) t -> sem (Block true) t ->
  sem (Stat true true) (str "while" ++ g1 ++ x ++ g2 ++ str "do" ++ g3 ++ t ++ str "end").
Proof.
  intros G1 Stx Sx G2 G3 Stt St h g r H _ Nr K. destruct (stat_fol _ g r K Nr) as (F & E & O & We); [discriminate|]. rewrite <- !app_assoc. change (str "end") with (lit "end"). change (str "do") with (lit "do"). change (str "while") with (lit "while").
  assert (Sh := end_shut g r O). assert (Sr : solid r) by apply F. destruct (kw_ends b g2 (lit "do") (g3 ++ t ++ lit "end" ++ g ++ r) G2) as [Ex Nx]; [cbn; tauto|discriminate|discriminate|].
  destruct (style_heads _ _ Stx) as [_ Xx]. destruct (Sx _ _ Ex) as (Lx & _). destruct (exp_sfx b x _ _ Stx Sx Ex Nx) as (l & q & Sf & Nc & Ne).
  apply (go_kw_stat h (lit "while") g1 (x ++ g2 ++ lit "do" ++ g3 ++ t ++ lit "end" ++ g ++ r) r lWhile [RRule lGoTo; RRule lDo] (tl (tl (tl stat_words)) ++ [RRule lFuncCall]) l q); auto;
    [cbn; tauto|discriminate|apply G1|apply space_word; auto|others|].
  eapply go_rule; [apply is_While; auto|]. apply go_skip; auto; [so|]. eapply chain_cons; [auto|apply go_lit|apply G1|apply Xx|]. eapply chain_loose; [auto|exact Lx|apply G2|so|].
  apply chain_block; auto; [apply G3|so|]. apply chain_end; auto. apply F.
Qed.
Lemma m_repeat b g1 t g2 x : space g1 -> style (Block true) t -> sem (Block true) t -> space g2 -> style (Expr b) x -> sem (Expr b) x -> ~ like_args x ->
  sem (Stat true true) (str "repeat" ++ g1 ++ t ++ str "until" ++ g2 ++ x).
Proof.
  intros G1 Stt St G2 Stx Sx NL h g r H _ Nr K. destruct (stat_fol _ g r K Nr) as (F & E & O & We); [discriminate|]. rewrite <- !app_assoc. change (str "repeat") with (lit "repeat"). change (str "until") with (lit "until").
  destruct (style_heads _ _ Stx) as [Nx Xx]. destruct (Xx (g ++ r)) as (Nx' & Sox & Nh & _). destruct (Sx g r (ends_any b _ _ E)) as (Lx & _).
  assert (Sh : shut (lit "until" ++ g2 ++ x ++ g ++ r)).
  { right. exists (lit "until"), g2, (x ++ g ++ r). split; [cbn; tauto|]. split; auto. split; [|eapply head_sub; [exact Nh|reflexivity] ]. split; [apply G2|]. split; [apply no_args_word; auto|]. intros Eg. destruct G2. congruence. }
  assert (X : goes (RRule lRepeat) (h ++ lit "repeat" ++ g1 ++ t ++ lit "until" ++ g2 ++ x ++ g ++ r) r).
  { eapply go_rule; [apply is_Repeat; auto|]. apply go_skip; auto; [so|]. apply chain_block; auto; [apply G1|so|]. eapply chain_cons; [auto|apply go_lit|apply G2|exact Sox|]. eapply chain_loose; [auto|exact Lx|apply F|apply F|apply chain_nil]. }
  destruct (block_head t _ Stt Sh) as (h0 & q & Eq & H0 & Nq). rewrite Eq in *. rewrite (app_assoc g1) in *.
  apply (go_kw_stat h (lit "repeat") (g1 ++ h0) q r lRepeat [RRule lGoTo; RRule lDo; RRule lWhile] (tl (tl (tl (tl stat_words))) ++ [RRule lFuncCall]) None q); auto;
    [cbn; tauto|discriminate|apply blank_app; auto; apply G1| |apply x_end, next_quiet; auto|apply next_not; auto| |].
  - rewrite <- app_assoc. apply space_word; auto.
  - intros Hq. elim (next_not [x3d] q Nq eq_refl). exact Hq.
  - others.
Qed.
Lemma shut_solid r : shut r -> solid r. Proof. intros Sh. apply next_quiet, shut_next. auto. Qed.
Lemma m_if b g1 x g2 g3 t l : space g1 -> style (Expr b) x -> sem (Expr b) x -> space g2 -> space g3 -> style (Block true) t -> sem (Block true) t -> sem Else l ->
  sem (Stat true true) (str "if" ++ g1 ++ x ++ g2 ++ str "then" ++ g3 ++ t ++ l).
Proof.
  intros G1 Stx Sx G2 G3 Stt St Sl h g r H _ Nr K. destruct (stat_fol _ g r K Nr) as (F & E & O & We); [discriminate|]. rewrite <- !app_assoc. change (str "if") with (lit "if"). change (str "then") with (lit "then").
  destruct (Sl g r O) as (Sh & m & Rm & Sm & Xe). destruct (kw_ends b g2 (lit "then") (g3 ++ t ++ l ++ g ++ r) G2) as [Ex Nx]; [cbn; tauto|discriminate|discriminate|].
  destruct (style_heads _ _ Stx) as [_ Xx]. destruct (Sx _ _ Ex) as (Lx & _). destruct (exp_sfx b x _ _ Stx Sx Ex Nx) as (l' & q & Sf & Nc & Ne).
  apply (go_kw_stat h (lit "if") g1 (x ++ g2 ++ lit "then" ++ g3 ++ t ++ l ++ g ++ r) r lIfElse [RRule lGoTo; RRule lDo; RRule lWhile; RRule lRepeat] (skipn 5 stat_words ++ [RRule lFuncCall]) l' q); auto;
    [cbn; tauto|discriminate|apply G1|apply space_word; auto|others|].
  eapply go_rule; [apply is_IfElse; auto|]. apply go_skip; auto; [so|]. eapply chain_cons; [auto|apply go_lit|apply G1|apply Xx|]. eapply chain_loose; [auto|exact Lx|apply G2|so|].
  apply chain_block; auto; [apply G3|apply shut_solid; auto|]. eapply chain_go; [auto|apply go_zom; exact Rm|exact Sm|]. eapply chain_go; [auto|exact Xe|so|]. apply chain_end; auto; apply F.
Qed.
Lemma no_elseif k g b : k = lit "end" \/ k = lit "else" -> blank g -> solid (k ++ b) -> ~ begins b (lit "if") -> balks ELSEIF (g ++ k ++ b).
Proof.
  intros Hk G S N. apply no_skip_lit; auto. intros [u E]. destruct Hk as [-> | ->]; [discriminate E|]. injection E as ->. apply N. exists u. reflexivity.
Qed.
Lemma m_endif : sem Else (str "end").
Proof.
  intros g r O. split; [apply end_shut; auto|]. exists (lit "end" ++ g ++ r). split; [|split; [so|] ].
  - apply r_stop. apply (no_skip_lit e W _ _ [] (lit "end" ++ g ++ r)); auto; [so|]. intros [u E]. discriminate.
  - apply go_opt_no. apply (no_skip_lit e W _ _ [] (lit "end" ++ g ++ r)); auto; [so|]. intros [u E]. discriminate.
Qed.
Lemma m_else g t : space g -> style (Block true) t -> sem (Block true) t -> sem Else (str "else" ++ g ++ t ++ str "end").
Proof.
  intros G St Se g0 r O. rewrite <- !app_assoc. change (str "end") with (lit "end"). change (str "else") with (lit "else"). assert (Sh := end_shut g0 r O).
  destruct (block_head t _ St Sh) as (h0 & q & Eq & H0 & Nq). split.
  - right. exists (lit "else"), (g ++ h0), q. rewrite Eq, <- app_assoc. split; [cbn; tauto|]. split; auto. split; [|apply next_not; auto]. split; [apply blank_app; auto; apply G|]. split; [apply next_quiet; auto|].
    intros Eg. apply app_eq_nil in Eg as [Eg _]. destruct G. congruence.
  - exists (lit "else" ++ g ++ t ++ lit "end" ++ g0 ++ r). split; [|split; [so|] ].
    + apply r_stop. apply (no_skip_lit e W _ _ [] (lit "else" ++ g ++ t ++ lit "end" ++ g0 ++ r)); auto; [so|]. intros [u E]. destruct G as [G Ng]. destruct G as [|y g Y G]; [congruence|]. cbn in E. injection E as E _. subst y. cbn in Y. intuition discriminate.
    + apply go_opt. apply (go_skip e W _ [] (lit "else" ++ g ++ t ++ lit "end" ++ g0 ++ r)); auto; [so|]. apply chain_block; auto; [apply G|so|apply chain_nil].
Qed.
Lemma m_elseif b g1 x g2 g3 t l : space g1 -> style (Expr b) x -> sem (Expr b) x -> ~ like_args x -> space g2 -> space g3 -> style (Block true) t -> sem (Block true) t -> sem Else l ->
  sem Else (str "elseif" ++ g1 ++ x ++ g2 ++ str "then" ++ g3 ++ t ++ l).
Proof.
  intros G1 Stx Sx NL G2 G3 Stt St Sl g r O. rewrite <- !app_assoc. change (str "elseif") with (lit "elseif"). change (str "then") with (lit "then").
  destruct (Sl g r O) as (Sh & m & Rm & Sm & Xe). destruct (kw_ends b g2 (lit "then") (g3 ++ t ++ l ++ g ++ r) G2) as [Ex Nx]; [cbn; tauto|discriminate|discriminate|].
  destruct (style_heads _ _ Stx) as [Nx' Xx]. destruct (Sx _ _ Ex) as (Lx & _). destruct (Xx (g2 ++ lit "then" ++ g3 ++ t ++ l ++ g ++ r)) as (Nx2 & Sox & Nh & Hd). split.
  - right. exists (lit "elseif"), g1, (x ++ g2 ++ lit "then" ++ g3 ++ t ++ l ++ g ++ r). split; [cbn; tauto|]. split; auto. split; [|eapply head_sub; [exact Nh|reflexivity] ]. split; [apply G1|]. split; [apply no_args_word; auto|].
    intros Eg. destruct G1. congruence.
  - exists m. split; [|auto]. eapply r_next; [|exact Rm]. apply (go_skip e W _ [] (lit "elseif" ++ g1 ++ x ++ g2 ++ lit "then" ++ g3 ++ t ++ l ++ g ++ r)); auto; [so|].
    eapply chain_cons; [auto|apply go_lit|apply G1|exact Sox|]. eapply chain_loose; [auto|exact Lx|apply G2|so|]. apply chain_block; auto; [apply G3|apply shut_solid; auto|apply chain_nil].
Qed.
(** A name behind a keyword *)
Lemma name_quiet w b : l_name w -> quiet (w ++ b) /\ ~ head_in [x2c] (w ++ b) /\ no_eq (w ++ b).
Proof.
  intros N. assert (Nh : ~ head_in [x2c; x3d] (w ++ b)) by (destruct N as (y & t & -> & Y & _); apply d_let_is in Y; cbn [app head_in]; apply let_not; auto).
  split; [apply let_quiet, name_first; auto|]. split; [eapply head_sub; [exact Nh|reflexivity]|]. intros Hq. elim (head_sub _ [x3d] _ Nh eq_refl). exact Hq.
Qed.
Lemma let_no t b : first d_let t = true -> quiet (t ++ b) /\ ~ head_in [x2c] (t ++ b) /\ no_eq (t ++ b).
Proof.
  intros F. destruct t as [|y t]; [discriminate|]. cbn in F. split; [apply let_quiet; exact F|]. split; [cbn [app head_in]; apply let_not; auto|]. intros Hq. elim (let_not y [x3d] F eq_refl). exact Hq.
Qed.
Ltac fors := change (str "for") with (lit "for"); change (str "do") with (lit "do"); change (str "end") with (lit "end"); change (str "in") with (lit "in").
Lemma m_for b g1 w g2 g3 x g4 g5 y g6 g7 t : space g1 -> ident w -> blank g2 -> blank g3 -> style (Expr true) x -> sem (Expr true) x -> blank g4 -> blank g5 -> style (Expr b) y -> sem (Expr b) y ->
  space g6 -> space g7 -> style (Block true) t -> sem (Block true) t ->
  sem (Stat true true) (str "for" ++ g1 ++ w ++ g2 ++ str "=" ++ g3 ++ x ++ g4 ++ str "," ++ g5 ++ y ++ g6 ++ str "do" ++ g7 ++ t ++ str "end").
Proof.
  intros G1 [N _] G2 G3 Stx Sx G4 G5 Sty Sy G6 G7 Stt St h g r H _ Nr K. destruct (stat_fol _ g r K Nr) as (F & E & O & We); [discriminate|]. flat. fors.
  assert (Sh := end_shut g r O). assert (Sr : solid r) by apply F.
  destruct (kw_ends b g6 (lit "do") (g7 ++ t ++ lit "end" ++ g ++ r) G6) as [Ey Ny]; [cbn; tauto|discriminate|discriminate|]. destruct (Sy _ _ Ey) as (Ly & _). destruct (style_heads _ _ Sty) as [_ Xy]. destruct (style_heads _ _ Stx) as [_ Xx].
  destruct (Sx g4 (x2c :: g5 ++ y ++ g6 ++ lit "do" ++ g7 ++ t ++ lit "end" ++ g ++ r)) as (Lx & _); [apply ends_byte; auto|].
  destruct (name_quiet w (g2 ++ x3d :: g3 ++ x ++ g4 ++ x2c :: g5 ++ y ++ g6 ++ lit "do" ++ g7 ++ t ++ lit "end" ++ g ++ r) N) as (Q & Nc & Ne).
  eapply (go_kw_stat h (lit "for") g1 (w ++ _) r lFor [RRule lGoTo; RRule lDo; RRule lWhile; RRule lRepeat; RRule lIfElse] (skipn 6 stat_words ++ [RRule lFuncCall]) None); auto;
    [cbn; tauto|discriminate|apply G1|apply space_word; auto|apply x_end; exact Q|exact Nc|exact Ne|others|].
  eapply go_rule; [apply is_For; auto|]. apply go_skip; auto; [so|]. eapply chain_cons; [auto|apply go_lit|apply G1|apply Q|]. eapply chain_cons; [auto|apply go_name; auto; apply blank_word; auto; reflexivity|exact G2|so|].
  eapply chain_cons; [auto|rune x3d|exact G3|apply Xx|]. eapply chain_loose; [auto|exact Lx|exact G4|so|]. eapply chain_cons; [auto|rune x2c|exact G5|apply Xy|]. eapply chain_loose; [auto|exact Ly|apply G6|so|].
  eapply chain_go with (b1 := lit "do" ++ g7 ++ t ++ lit "end" ++ g ++ r); [auto|apply go_opt_no|so|].
  - apply (no_skip_rune e W x2c 0x2c _ [] (lit "do" ++ g7 ++ t ++ lit "end" ++ g ++ r)); auto; [lia|so].
  - apply chain_block; auto; [apply G7|so|]. apply chain_end; auto. apply F.
Qed.
Lemma m_for_step b g1 w g2 g3 x g4 g5 y g8 g9 z g6 g7 t : space g1 -> ident w -> blank g2 -> blank g3 -> style (Expr true) x -> sem (Expr true) x -> blank g4 -> blank g5 -> style (Expr true) y -> sem (Expr true) y ->
  blank g8 -> blank g9 -> style (Expr b) z -> sem (Expr b) z -> space g6 -> space g7 -> style (Block true) t -> sem (Block true) t ->
  sem (Stat true true) (str "for" ++ g1 ++ w ++ g2 ++ str "=" ++ g3 ++ x ++ g4 ++ str "," ++ g5 ++ y ++ g8 ++ str "," ++ g9 ++ z ++ g6 ++ str "do" ++ g7 ++ t ++ str "end").
Proof.
  intros G1 [N _] G2 G3 Stx Sx G4 G5 Sty Sy G8 G9 Stz Sz G6 G7 Stt St h g r H _ Nr K. destruct (stat_fol _ g r K Nr) as (F & E & O & We); [discriminate|]. flat. fors.
  assert (Sh := end_shut g r O). assert (Sr : solid r) by apply F.
  destruct (kw_ends b g6 (lit "do") (g7 ++ t ++ lit "end" ++ g ++ r) G6) as [Ez Nz]; [cbn; tauto|discriminate|discriminate|]. destruct (Sz _ _ Ez) as (Lz & _). destruct (style_heads _ _ Stz) as [_ Xz].
  destruct (style_heads _ _ Sty) as [_ Xy]. destruct (style_heads _ _ Stx) as [_ Xx].
  destruct (Sy g8 (x2c :: g9 ++ z ++ g6 ++ lit "do" ++ g7 ++ t ++ lit "end" ++ g ++ r)) as (Ly & _); [apply ends_byte; auto|].
  destruct (Sx g4 (x2c :: g5 ++ y ++ g8 ++ x2c :: g9 ++ z ++ g6 ++ lit "do" ++ g7 ++ t ++ lit "end" ++ g ++ r)) as (Lx & _); [apply ends_byte; auto|].
  destruct (name_quiet w (g2 ++ x3d :: g3 ++ x ++ g4 ++ x2c :: g5 ++ y ++ g8 ++ x2c :: g9 ++ z ++ g6 ++ lit "do" ++ g7 ++ t ++ lit "end" ++ g ++ r) N) as (Q & Nc & Ne).
  eapply (go_kw_stat h (lit "for") g1 (w ++ _) r lFor [RRule lGoTo; RRule lDo; RRule lWhile; RRule lRepeat; RRule lIfElse] (skipn 6 stat_words ++ [RRule lFuncCall]) None); auto;
    [cbn; tauto|discriminate|apply G1|apply space_word; auto|apply x_end; exact Q|exact Nc|exact Ne|others|].
  eapply go_rule; [apply is_For; auto|]. apply go_skip; auto; [so|]. eapply chain_cons; [auto|apply go_lit|apply G1|apply Q|]. eapply chain_cons; [auto|apply go_name; auto; apply blank_word; auto; reflexivity|exact G2|so|].
  eapply chain_cons; [auto|rune x3d|exact G3|apply Xx|]. eapply chain_loose; [auto|exact Lx|exact G4|so|]. eapply chain_cons; [auto|rune x2c|exact G5|apply Xy|]. eapply chain_loose; [auto|exact Ly|apply G8|so|].
  eapply chain_go with (b1 := lit "do" ++ g7 ++ t ++ lit "end" ++ g ++ r); [auto|apply go_opt|so|].
  - apply (go_skip e W _ [] (x2c :: g9 ++ z ++ g6 ++ lit "do" ++ g7 ++ t ++ lit "end" ++ g ++ r)); auto; [so|]. eapply chain_cons; [auto|rune x2c|exact G9|apply Xz|]. eapply chain_loose; [auto|exact Lz|apply G6|so|apply chain_nil].
  - apply chain_block; auto; [apply G7|so|]. apply chain_end; auto. apply F.
Qed.
Lemma m_for_in b g1 l g2 g3 x g4 g5 t : space g1 -> style Names l -> sem Names l -> space g2 -> space g3 -> style (Exprs b) x -> sem (Exprs b) x -> space g4 -> space g5 -> style (Block true) t -> sem (Block true) t ->
  sem (Stat true true) (str "for" ++ g1 ++ l ++ g2 ++ str "in" ++ g3 ++ x ++ g4 ++ str "do" ++ g5 ++ t ++ str "end").
Proof.
  intros G1 Stl Sl G2 G3 Stx Sx G4 G5 Stt St h g r H _ Nr K. destruct (stat_fol _ g r K Nr) as (F & E & O & We); [discriminate|]. flat. fors.
  assert (Sh := end_shut g r O). assert (Sr : solid r) by apply F. assert (Fl := style_heads _ _ Stl). cbn [heads] in Fl. destruct (style_heads _ _ Stx) as [_ Xx].
  destruct (kw_ends false g4 (lit "do") (g5 ++ t ++ lit "end" ++ g ++ r) G4) as [Ex Nx]; [cbn; tauto|discriminate|discriminate|].
  set (R := x ++ g4 ++ lit "do" ++ g5 ++ t ++ lit "end" ++ g ++ r) in *. destruct (let_no l (g2 ++ lit "in" ++ g3 ++ R) Fl) as (Q & Nc & Ne).
  assert (Bn : balks COMMA_NAME (lit "in" ++ g3 ++ R)) by (apply no_seq, halts_here, (no_rune e x2c); [reflexivity|lia|noh]).
  apply (go_kw_stat h (lit "for") g1 (l ++ g2 ++ lit "in" ++ g3 ++ R) r lForEach [RRule lGoTo; RRule lDo; RRule lWhile; RRule lRepeat; RRule lIfElse; RRule lFor] (skipn 7 stat_words ++ [RRule lFuncCall]) None (l ++ g2 ++ lit "in" ++ g3 ++ R)); auto;
    [cbn; tauto|discriminate|apply G1|apply space_word; auto|apply x_end; exact Q| |].
  - do 5 (apply Forall_cons; [eapply no_word_stat; [cbn; tauto|auto|so|intros [? ?]; discriminate]|]). apply Forall_cons; [|apply Forall_nil]. eapply no_rule; [apply is_For; auto|]. apply no_skip; auto; [so|]. eapply broken_next; [auto|apply go_lit|apply G1|apply Q|].
    destruct (Sl (g2 ++ lit "in" ++ g3 ++ R) (space_word _ _ G2) (no_comma_name e g2 _ (proj1 G2) Bn)) as (m0 & X & Rn & M).
    assert (Z : exists gm m, m0 = gm ++ m /\ blank gm /\ solid m /\ ~ head_in [x3d] m).
    { destruct M as [M| ->]; [|exists g2, (lit "in" ++ g3 ++ R); split; auto; split; [apply G2|split; [so|noh] ] ].
      exists [], m0. split; auto. split; auto. split; auto. inversion Rn as [b0 B|b0 b1 b2 B _]; subst.
      - exfalso. destruct G2 as [G2 N2]. destruct G2 as [|y g2 Y G2]; [congruence|]. destruct M as [M _]. apply M. exact Y.
      - intros J. destruct (B []) as [c' D]. destruct m0 as [|y m0]; [exact J|]. destruct J as [<-|[] ].
        assert (Nb : balks COMMA_NAME (x3d :: m0)) by (apply no_seq, halts_here, (no_rune e x2c); [reflexivity|lia|noh]). destruct (Nb []) as [c2 D2]. destruct (eats_det _ _ _ _ _ _ _ D _ _ _ D2) as [X1 _]. discriminate X1. }
    destruct Z as (gm & m & -> & Gm & Sm & Nm). eapply broken_next; [auto|exact X|exact Gm|exact Sm|]. apply broken_here, (no_rune e x3d); [reflexivity|lia|exact Nm].
  - eapply go_rule; [apply is_ForEach; auto|]. apply go_skip; auto; [so|]. eapply chain_cons; [auto|apply go_lit|apply G1|apply Q|].
    eapply chain_go; [auto|apply (go_names e HE [] l g2 (lit "in" ++ g3 ++ R)); auto; [apply G2|so|apply space_word; auto]|so|]. eapply chain_cons; [auto|apply go_lit|apply G3|apply Xx|].
    eapply chain_go; [auto|apply (sem_exp_list e HE b x g4 _ []); auto; apply Xx|so|]. apply chain_block; auto; [apply G5|so|]. apply chain_end; auto. apply F.
Qed.
Lemma m_fun_stat g1 n g2 t : space g1 -> style FuncName n -> sem FuncName n -> blank g2 -> style Body t -> sem Body t -> sem (Stat true true) (str "function" ++ g1 ++ n ++ g2 ++ t).
Proof.
  intros G1 Stn Sn G2 Stt St h g r H _ Nr K. destruct (stat_fol _ g r K Nr) as (F & E & O & We); [discriminate|]. flat. change (str "function") with (lit "function"). assert (Fn := style_heads _ _ Stn). cbn [heads] in Fn.
  destruct (let_no n (g2 ++ t ++ g ++ r) Fn) as (Q & Nc & Ne). destruct (style_heads _ _ Stt) as [u Eu]. assert (Sr : solid r) by apply F.
  destruct (Sn g2 (t ++ g ++ r) G2) as (gm & m & n' & X & Gm & Sm & Rn & Sn' & Y); [subst t; cbn; auto|]. assert (Sot : solid (t ++ g ++ r)) by (subst t; so).
  apply (go_kw_stat h (lit "function") g1 (n ++ g2 ++ t ++ g ++ r) r lFunc [RRule lGoTo; RRule lDo; RRule lWhile; RRule lRepeat; RRule lIfElse; RRule lFor; RRule lForEach] (skipn 8 stat_words ++ [RRule lFuncCall]) None (n ++ g2 ++ t ++ g ++ r)); auto;
    [cbn; tauto|discriminate|apply G1|apply space_word; auto|apply x_end; exact Q|others|].
  eapply go_rule; [apply is_Func; auto|]. apply go_skip; auto; [so|]. eapply chain_cons; [auto|apply go_lit|apply G1|apply Q|]. eapply chain_go with (b1 := t ++ g ++ r); [auto| |auto|].
  - eapply go_rule; [apply is_FuncName; auto|]. apply (go_skip e W _ [] (n ++ g2 ++ t ++ g ++ r)); auto; [apply Q|]. eapply chain_cons; [auto|exact X|exact Gm|exact Sm|]. eapply chain_go; [auto|apply go_zom; exact Rn|exact Sn'|].
    eapply chain_go; [auto|exact Y|auto|apply chain_nil].
  - eapply chain_go; [auto|apply St; exact O|auto|apply chain_nil].
Qed.
Lemma m_local_fun g1 g2 w g3 t : space g1 -> space g2 -> ident w -> blank g3 -> style Body t -> sem Body t -> sem (Stat true true) (str "local" ++ g1 ++ str "function" ++ g2 ++ w ++ g3 ++ t).
Proof.
  intros G1 G2 [N _] G3 Stt St h g r H _ Nr K. destruct (stat_fol _ g r K Nr) as (F & E & O & We); [discriminate|]. flat. change (str "function") with (lit "function"). change (str "local") with (lit "local").
  destruct (style_heads _ _ Stt) as [u Eu]. assert (Sr : solid r) by apply F. assert (Sot : solid (t ++ g ++ r)) by (subst t; so).
  destruct (let_no (lit "function") (g2 ++ w ++ g3 ++ t ++ g ++ r) eq_refl) as (Q & Nc & Ne).
  apply (go_kw_stat h (lit "local") g1 (lit "function" ++ g2 ++ w ++ g3 ++ t ++ g ++ r) r lLocalFunc [RRule lGoTo; RRule lDo; RRule lWhile; RRule lRepeat; RRule lIfElse; RRule lFor; RRule lForEach; RRule lFunc] (skipn 9 stat_words ++ [RRule lFuncCall]) None (lit "function" ++ g2 ++ w ++ g3 ++ t ++ g ++ r)); auto;
    [cbn; tauto|discriminate|apply G1|apply space_word; auto|apply x_end; exact Q|others|].
  eapply go_rule; [apply is_LocalFunc; auto|]. apply go_skip; auto; [so|]. eapply chain_cons; [auto|apply go_lit|apply G1|apply Q|]. eapply chain_cons; [auto|apply go_lit|apply G2|apply let_quiet, name_first; auto|].
  eapply chain_cons; [auto|apply go_name; auto; apply blank_word; auto; subst t; reflexivity|exact G3|auto|]. eapply chain_go; [auto|apply St; exact O|auto|apply chain_nil].
Qed.
Lemma no_local_fun h g b : blank h -> space g -> solid b -> ~ begins b (lit "function") -> balks (RRule lLocalFunc) (h ++ lit "local" ++ g ++ b).
Proof. intros H G S N. eapply no_rule; [apply is_LocalFunc; auto|]. apply no_skip; auto; [so|]. eapply broken_next; [auto|apply go_lit|apply G|exact S|]. apply broken_here, no_lit. exact N. Qed.
Lemma m_local g l : space g -> style AttNames l -> sem AttNames l -> sem (Stat true true) (str "local" ++ g ++ l).
Proof.
  intros G St Se h g0 r H _ Nr K. destruct (stat_fol _ g0 r K Nr) as (F & E & O & We); [discriminate|]. flat. change (str "local") with (lit "local"). assert (Fl := style_heads _ _ St). cbn [heads] in Fl.
  destruct (let_no l (g0 ++ r) Fl) as (Q & Nc & Ne). assert (Sr : solid r) by apply F.
  apply (go_kw_stat h (lit "local") g (l ++ g0 ++ r) r lLocalAtt [RRule lGoTo; RRule lDo; RRule lWhile; RRule lRepeat; RRule lIfElse; RRule lFor; RRule lForEach; RRule lFunc; RRule lLocalFunc] [RRule lFuncCall] None (l ++ g0 ++ r)); auto;
    [cbn; tauto|discriminate|apply G|apply space_word; auto|apply x_end; exact Q| |].
  - do 8 (apply Forall_cons; [eapply no_word_stat; [cbn; tauto|auto|so|intros [? ?]; discriminate]|]). apply Forall_cons; [|apply Forall_nil]. apply no_local_fun; auto; [apply Q|]. apply Se. auto.
  - eapply go_rule; [apply is_LocalAtt; auto|]. apply go_skip; auto; [so|]. eapply chain_cons; [auto|apply go_lit|apply G|apply Q|].
    eapply chain_go; [auto|apply (go_att_names e HE [] l g0 r); auto; [apply F|apply next_not; auto]|auto|]. eapply chain_go with (b1 := r); [auto|apply go_opt_no|auto|apply chain_nil].
    apply (no_skip_rune e W x3d 0x3d _ [] r); auto; [lia|apply next_not; auto].
Qed.
Lemma m_local_is b g l g1 g2 x : space g -> style AttNames l -> sem AttNames l -> blank g1 -> blank g2 -> style (Exprs b) x -> sem (Exprs b) x -> sem (Stat true true) (str "local" ++ g ++ l ++ g1 ++ str "=" ++ g2 ++ x).
Proof.
  intros G Stl Sl G1 G2 Stx Sx h g0 r H _ Nr K. destruct (stat_fol _ g0 r K Nr) as (F & E & O & We); [discriminate|]. flat. change (str "local") with (lit "local"). assert (Fl := style_heads _ _ Stl). cbn [heads] in Fl.
  destruct (style_heads _ _ Stx) as [_ Xx]. destruct (let_no l (g1 ++ x3d :: g2 ++ x ++ g0 ++ r) Fl) as (Q & Nc & Ne). assert (Sr : solid r) by apply F.
  apply (go_kw_stat h (lit "local") g (l ++ g1 ++ x3d :: g2 ++ x ++ g0 ++ r) r lLocalAtt [RRule lGoTo; RRule lDo; RRule lWhile; RRule lRepeat; RRule lIfElse; RRule lFor; RRule lForEach; RRule lFunc; RRule lLocalFunc] [RRule lFuncCall] None (l ++ g1 ++ x3d :: g2 ++ x ++ g0 ++ r)); auto;
    [cbn; tauto|discriminate|apply G|apply space_word; auto|apply x_end; exact Q| |].
  - do 8 (apply Forall_cons; [eapply no_word_stat; [cbn; tauto|auto|so|intros [? ?]; discriminate]|]). apply Forall_cons; [|apply Forall_nil]. apply no_local_fun; auto; [apply Q|]. apply Sl. apply blank_word; auto. reflexivity.
  - eapply go_rule; [apply is_LocalAtt; auto|]. apply go_skip; auto; [so|]. eapply chain_cons; [auto|apply go_lit|apply G|apply Q|].
    eapply chain_go; [auto|apply (go_att_names e HE [] l g1 (x3d :: g2 ++ x ++ g0 ++ r)); auto; [so|apply blank_word; auto; reflexivity|noh]|so|]. eapply chain_go with (b1 := r); [auto|apply go_opt|auto|apply chain_nil].
    apply (go_skip e W _ [] (x3d :: g2 ++ x ++ g0 ++ r)); auto; [so|]. eapply chain_cons; [auto|rune x3d|exact G2|apply Xx|]. eapply chain_go; [auto|apply (sem_exp_list e HE b x g0 r []); auto; apply Xx|auto|apply chain_nil].
Qed.

(* ---------------------------------------------------------------- blocks *)

Lemma m_stop f : sem (Stats true f) [].
Proof. intros h r H _ Nr B _. exists h. split; auto. apply r_stop. apply B. auto. Qed.
Lemma m_stat l x s g l2 f t : style (Stat l x) s -> sem (Stat l x) s -> blank g -> style (Stats l2 f) t -> sem (Stats l2 f) t -> g = [] \/ x = true \/ l2 = true ->
  g <> [] \/ s = str ";" \/ (exists u, t = str ";" ++ u) \/ (t = [] /\ f = false) -> sem (Stats l f) (s ++ g ++ t).
Proof.
  intros Sts Ss G Stt St Hg Hs h r H Hl Nr B Fr. rewrite <- !app_assoc.
  assert (Nt : next (t ++ r)) by (apply (style_heads _ _ Stt); auto).
  assert (K : next_ok s g (t ++ r)).
  { split; auto. intros Eg. destruct Hs as [Hs|[Hs|[[u ->]|[-> Ef] ] ] ]; [contradiction|auto| |].
    - left. right. cbn. auto.
    - left. left. rewrite (Fr Ef). reflexivity. }
  assert (X := Ss h g (t ++ r) H Hl Nt K).
  destruct (St (if x then [] else g) r) as (gx & Gx & R); auto; [destruct x; auto| |].
  - intros ->. destruct Hg as [->|[->|D] ]; [destruct x; auto|auto|discriminate].
  - exists gx. split; auto. eapply r_next; [exact X|]. destruct x; exact R.
Qed.
Lemma no_return_closer r : shut r -> balks (RRule lRetStat) r.
Proof.
  intros Sh. eapply no_rule; [apply is_RetStat; auto|]. apply (no_skip_lit e W _ _ [] r); auto; [apply shut_solid; auto|]. destruct Sh as [->|(k & g & q & I & -> & _)]; intros [u E]; [discriminate|].
  cbn in I. repeat match type of I with _ \/ _ => destruct I as [I|I] end; try contradiction; subst k; discriminate E.
Qed.
Lemma shut_not l r : shut r -> forallb (fun y => negb (d_let y) && negb (is 0x3b y) && negb (is 0x3a y)) l = true -> ~ head_in l r.
Proof. intros Sh. apply next_not, shut_next. auto. Qed.
Lemma shut_no_semi r : shut r -> ~ head_in [x3b] r.
Proof. intros [->|(k & g & q & I & -> & _)]; [auto|]. cbn in I. repeat match type of I with _ \/ _ => destruct I as [I|I] end; try contradiction; subst k; noh. Qed.
Lemma m_return_bare g : blank g -> sem (Return false) (str "return" ++ g).
Proof.
  intros G h r H Sh Er. rewrite (Er eq_refl). rewrite <- app_assoc. split.
  - eapply go_rule; [apply is_RetStat; auto|]. apply go_skip; auto; [so|]. eapply chain_cons; [auto|apply go_lit|exact G|apply solid_nil|]. eapply chain_go with (b1 := []); [auto|apply go_opt_no|apply solid_nil|].
    + apply (no_exps_list e HE [] []); auto.
    + eapply chain_go with (b1 := []); [auto|apply go_opt_no|apply solid_nil|apply chain_nil]. apply (no_rune e x3b); [reflexivity|lia|auto].
  - apply no_stat; auto; [cbn; tauto|apply blank_word; auto; reflexivity|apply quiet_nil].
Qed.
Lemma m_return_none f g g2 : blank g -> blank g2 -> sem (Return f) (str "return" ++ g ++ str ";" ++ g2).
Proof.
  intros G G2 h r H Sh _. flat. assert (Sr := shut_solid r Sh). split.
  - eapply go_rule; [apply is_RetStat; auto|]. apply go_skip; auto; [so|]. eapply chain_cons; [auto|apply go_lit|exact G|so|]. eapply chain_go with (b1 := x3b :: g2 ++ r); [auto|apply go_opt_no|so|].
    + apply (no_exps_list e HE []); auto. right. cbn. tauto.
    + eapply chain_cons; [auto|apply go_opt; rune x3b|exact G2|exact Sr|apply chain_nil].
  - apply no_stat; auto; [cbn; tauto|apply blank_word; auto; reflexivity|apply quiet_byte; cbn; tauto|noh].
Qed.
Lemma return_no_stat b h g1 x g r : blank h -> space g1 -> style (Exprs b) x -> ~ like_args x -> balks (RRule lStat) (h ++ lit "return" ++ g1 ++ x ++ g ++ r).
Proof.
  intros H G1 St NL. destruct (style_heads _ _ St) as [Nx Xx]. destruct (Xx (g ++ r)) as (_ & _ & Nh & _). apply no_stat; auto; [cbn; tauto|apply G1|apply space_word; auto|apply no_args_word; auto|eapply head_sub; [exact Nh|reflexivity] ].
Qed.
Lemma m_return f b g1 x g2 : space g1 -> style (Exprs b) x -> sem (Exprs b) x -> ~ like_args x -> blank g2 -> (f = true -> g2 <> []) -> sem (Return f) (str "return" ++ g1 ++ x ++ g2).
Proof.
  intros G1 St Se NL G2 Hf h r H Sh Er. rewrite <- !app_assoc. change (str "return") with (lit "return"). split; [|eapply return_no_stat; eauto].
  destruct (style_heads _ _ St) as [Nx Xx]. assert (Sr := shut_solid r Sh). assert (E : ends false g2 r).
  { apply next_ends; auto; [apply shut_next; auto|]. intros Eg. left. destruct f; [elim (Hf eq_refl Eg)|auto]. }
  eapply go_rule; [apply is_RetStat; auto|]. apply go_skip; auto; [so|]. eapply chain_cons; [auto|apply go_lit|apply G1|apply Xx|].
  eapply chain_go; [auto|apply go_opt, (sem_exp_list e HE b x g2 r []); auto; apply Xx|auto|]. eapply chain_go with (b1 := r); [auto|apply go_opt_no|auto|apply chain_nil].
  apply (no_rune e x3b); [reflexivity|lia|apply shut_no_semi; auto].
Qed.
Lemma m_return_semi f b g1 x g2 g3 : space g1 -> style (Exprs b) x -> sem (Exprs b) x -> ~ like_args x -> blank g2 -> blank g3 -> sem (Return f) (str "return" ++ g1 ++ x ++ g2 ++ str ";" ++ g3).
Proof.
  intros G1 St Se NL G2 G3 h r H Sh Er. flat. change (str "return") with (lit "return"). split; [|eapply return_no_stat; eauto].
  destruct (style_heads _ _ St) as [Nx Xx]. assert (Sr := shut_solid r Sh). assert (E : ends false g2 (x3b :: g3 ++ r)) by (apply ends_byte; auto; cbn; tauto).
  eapply go_rule; [apply is_RetStat; auto|]. apply go_skip; auto; [so|]. eapply chain_cons; [auto|apply go_lit|apply G1|apply Xx|].
  eapply chain_go; [auto|apply go_opt, (sem_exp_list e HE b x g2 _ []); auto; apply Xx|so|]. eapply chain_cons; [auto|apply go_opt; rune x3b|exact G3|auto|apply chain_nil].
Qed.
Lemma m_block f g l t : blank g -> style (Stats l f) t -> sem (Stats l f) t -> sem (Block f) (g ++ t).
Proof.
  intros G St Se r Sh Er. assert (Nt : next (t ++ r)) by (apply (style_heads _ _ St); auto; apply shut_next; auto). exists g, (t ++ r). rewrite <- app_assoc. split; auto. split; auto. split; auto.
  destruct (Se [] r) as (gx & Gx & R); auto; [apply shut_next; auto|intros; apply no_stat_shut; auto|]. assert (Sr := shut_solid r Sh).
  intros h H. eapply go_rule; [apply is_Block; auto|]. apply go_skip; auto; [apply next_quiet; auto|]. eapply chain_cons; [auto|apply go_zom; exact R|exact Gx|exact Sr|].
  eapply chain_go with (b1 := r); [auto|apply go_opt_no, no_return_closer; auto|auto|apply chain_nil].
Qed.
Lemma m_block_return f g l t r : blank g -> style (Stats l true) t -> sem (Stats l true) t -> style (Return f) r -> sem (Return f) r -> sem (Block f) (g ++ t ++ r).
Proof.
  intros G St Se Str Sr r0 Sh Er. assert (Nr := style_heads _ _ Str r0). assert (Nt : next (t ++ r ++ r0)) by (apply (style_heads _ _ St); auto; discriminate).
  exists g, (t ++ r ++ r0). rewrite <- !app_assoc. split; auto. split; auto. split; auto.
  destruct (Se [] (r ++ r0)) as (gx & Gx & R); auto; [intros g0 G0; apply Sr; auto|discriminate|]. assert (Sr0 := shut_solid r0 Sh).
  intros h H. eapply go_rule; [apply is_Block; auto|]. apply go_skip; auto; [apply next_quiet; auto|]. eapply chain_cons; [auto|apply go_zom; exact R|exact Gx|apply next_quiet; auto|].
  eapply chain_go with (b1 := r0); [auto|apply go_opt|auto|apply chain_nil]. apply (Sr [] r0); auto.
Qed.

Theorem style_sem s t : style s t -> sem s t.
Proof.
  induction 1; eauto using m_const, m_number, m_string, m_table, m_name, m_paren, m_function, m_end, m_call, m_index, m_plain, m_method, m_no_args, m_args, m_table_arg, m_string_arg, m_key, m_dot,
    m_operand, m_unary, m_not, m_binary, m_one, m_more, m_empty, m_fields, m_field, m_field_sep, m_field_more, m_value, m_named, m_keyed, m_name_one, m_name_more, m_params_none, m_params, m_params_dots, m_dots,
    m_body, m_fname, m_fname_method, m_fname_dot.
  - apply m_semicolon.
  - eapply m_var; eauto.
  - apply m_var_one; auto.
  - apply m_var_more; auto.
  - eapply m_assign; eauto.
  - apply m_call_stat; auto.
  - apply m_label; auto.
  - apply m_break.
  - apply m_goto; auto.
  - apply m_do; auto.
  - eapply m_while; eauto.
  - eapply m_repeat; eauto.
  - eapply m_if; eauto.
  - apply m_endif.
  - apply m_else; auto.
  - eapply m_elseif; eauto.
  - eapply m_for; eauto.
  - eapply m_for_step; eauto.
  - eapply m_for_in; eauto.
  - apply m_fun_stat; auto.
  - apply m_local_fun; auto.
  - apply m_no_attr; auto.
  - apply m_attr; auto.
  - apply m_att_one; auto.
  - apply m_att_more; auto.
  - apply m_local; auto.
  - eapply m_local_is; eauto.
  - apply m_stop.
  - eapply m_stat; eauto.
  - apply m_return_bare; auto.
  - apply m_return_none; auto.
  - eapply m_return; eauto.
  - eapply m_return_semi; eauto.
  - eapply m_block; eauto.
  - eapply m_block_return; eauto.
Qed.
End Stat.
