(** LuaStyleSem.v - what the rules of the Lua grammar make of each sort of text of the style: expressions. *)
From Verif Require Export LuaStyleExp.
From Coq Require Import Lia ZifyBool.
From Verif Require Import ReaderSteps ReaderScan.

Ltac so := apply so_byte; cbn; intuition discriminate.
Ltac noh := cbn; intuition discriminate.

Section Sem.
Context {L : GoLib} (e : env) (HE : forall i, r_reader (get_rule e i) = nth_error lua_readers i).
Notation goes := (goes e). Notation balks := (balks e). Notation rounds := (rounds e). Notation chain := (chain e). Notation broken := (broken e). Notation loose := (loose e). Notation sfx := (sfx e).
Notation W := (RZom ws). Notation C := lua_skiper.
Let Sw : skips e W := skips_w e.
Let Sc : skips e C := skips_c e HE.
Hint Resolve Sw Sc blank_nil : core.

(** An equals sign is next only as half of a comparison. *)
Definition no_eq (q : bytes) : Prop := head_in [x3d] q -> exists u, q = x3d :: x3d :: u.
(** A text that begins with a letter begins with a word; [P] holds for what comes behind it. *)
Definition word_form (b : bytes) (P : bytes -> Prop) : Prop :=
  first d_let b = true -> exists w h q, b = w ++ h ++ q /\ l_name w /\ word_end (h ++ q) /\ blank h /\ solid q /\ P q.
(** The fields of a table from [m] on, up to [r] *)
Definition FF (m r : bytes) : Prop := exists gn n gx, blank gn /\ solid n /\ rounds SEP_FIELD m (gn ++ n) /\ goes (ROpt (RRule lFieldSep)) n (gx ++ r) /\ blank gx.

Definition sem (s : sort) (t : bytes) : Prop :=
  match s with
  | Operand b => forall g r, opf b g r -> loose (RRule lFinalExp) (t ++ g ++ r) g r /\ (like_args t -> exists l, sfx l (t ++ g ++ r) r) /\ word_form (t ++ g ++ r) (fun q => q = r \/ ~ head_in [x3d] q)
  | Expr b => forall g r, ends b g r -> loose (RRule lExp) (t ++ g ++ r) g r /\ word_form (t ++ g ++ r) no_eq /\
      (like_args t -> ~ head_in [x2c] r -> exists l q, sfx l (t ++ g ++ r) q /\ ~ head_in [x2c] q /\ no_eq q)
  | Exprs b => forall g r, ends false g r -> exists g1 m, goes (RRule lExp) (t ++ g ++ r) (g1 ++ m) /\ blank g1 /\ solid m /\ rounds COMMA_EXP m r
  | Suffixes l => forall g r, fol g r -> exists h q, t ++ g ++ r = h ++ q /\ blank h /\ sfx l q r /\ (l = None -> h = g)
  | Call => forall h g q, blank h -> blank g -> solid q -> goes NA (h ++ t ++ g ++ q) q
  | Args => forall g q, blank g -> solid q -> loose (RRule lFuncArgs) (t ++ g ++ q) g q
  | Index => forall g q, blank g -> solid q -> word_end (g ++ q) -> loose IDX (t ++ g ++ q) g q /\ no_call (t ++ g ++ q)
  | Table => forall g q, blank g -> solid q -> goes (RRule lTableConstructor) (t ++ g ++ q) q
  | Fields k => (forall b, solid (t ++ b)) /\ forall h g r, blank h -> (k = false -> h = []) -> blank g -> head_in [x7d] r ->
      exists m0 gm m, goes (RRule lField) (h ++ t ++ g ++ r) m0 /\ m0 = gm ++ m /\ blank gm /\ solid m /\ FF m0 r /\ FF m r
  | Field k b => (forall b, solid (t ++ b)) /\ forall h g r, blank h -> (k = false -> h = []) -> ends b g r -> loose (RRule lField) (h ++ t ++ g ++ r) g r
  | Names => forall b, word_end b -> balks COMMA_NAME b -> exists m0, goes (RRule lName) (t ++ b) m0 /\ rounds COMMA_NAME m0 b /\ (solid m0 \/ m0 = b)
  | Params => forall g r, blank g -> head_in [x29] r -> exists h0 q, t ++ g ++ r = h0 ++ q /\ blank h0 /\ solid q /\ loose (ROpt (RRule lFuncParams)) q g r
  | Body => forall g r, opf false g r -> goes (RRule lFuncBody) (t ++ g ++ r) r
  | FuncName => forall g r, blank g -> head_in [x28] r -> exists gm m n, goes (RRule lName) (t ++ g ++ r) (gm ++ m) /\ blank gm /\ solid m /\ rounds DOT_NAME m n /\ solid n /\ goes (ROpt COLON_NAME) n r
  | Attr => forall g r, blank g -> solid r -> word_end (g ++ r) -> ~ head_in [x3c] r -> word_end (t ++ g ++ r) /\
      exists gm m gn, t ++ g ++ r = gm ++ m /\ blank gm /\ solid m /\ goes (RRule lAttrib) m (gn ++ r) /\ blank gn
  | AttNames => (forall b, word_end b -> ~ begins (t ++ b) (lit "function")) /\
      forall g r, blank g -> solid r -> word_end (g ++ r) -> ~ head_in [x3c; x2c] r ->
      exists gm m gn n, goes (RRule lName) (t ++ g ++ r) (gm ++ m) /\ blank gm /\ solid m /\ goes (RRule lAttrib) m (gn ++ n) /\ blank gn /\ solid n /\ rounds COMMA_ATT n r
  | OneVar => forall g r, fol g r -> loose (RRule lVar) (t ++ g ++ r) g r
  | Vars => forall g r, fol g r -> ~ head_in [x2c] r -> exists g1 m, goes (RRule lVar) (t ++ g ++ r) (g1 ++ m) /\ blank g1 /\ solid m /\ rounds COMMA_VAR m r
  | Stat l x => forall h g r, blank h -> (l = false -> h = []) -> next r -> next_ok t g r -> goes (RRule lStat) (h ++ t ++ g ++ r) (if x then r else g ++ r)
  | Stats l f => forall h r, blank h -> (l = false -> h = []) -> next r -> (forall g, blank g -> balks (RRule lStat) (g ++ r)) -> (f = false -> r = []) ->
      exists gx, blank gx /\ rounds (RRule lStat) (h ++ t ++ r) (gx ++ r)
  | Return f => forall h r, blank h -> shut r -> (f = false -> r = []) -> goes (RRule lRetStat) (h ++ t ++ r) r /\ balks (RRule lStat) (h ++ t ++ r)
  | Block f => forall r, shut r -> (f = false -> r = []) -> exists h0 q, t ++ r = h0 ++ q /\ blank h0 /\ next q /\ forall h, blank h -> goes (RRule lBlock) (h ++ q) r
  | Else => forall g r, opf false g r -> shut (t ++ g ++ r) /\ exists m, rounds ELSEIF (t ++ g ++ r) m /\ solid m /\ goes (ROpt ELSE) m (lit "end" ++ g ++ r)
  end.

Lemma sem_exp_list b t g r h : sem (Exprs b) t -> blank h -> solid (t ++ g ++ r) -> ends false g r -> goes (RRule lExpList) (h ++ t ++ g ++ r) r.
Proof.
  intros S H So E. destruct (S g r E) as (g1 & m & X & G1 & Sm & R). eapply go_rule; [apply is_ExpList; auto|]. apply go_skip; auto.
  eapply chain_cons; [auto|exact X|exact G1|exact Sm|]. eapply chain_go; [auto|apply go_zom; exact R|apply E|apply chain_nil].
Qed.
Lemma quiet_byte x t : In x [x29; x5d; x7d; x2c; x3b; x3d] -> quiet (x :: t).
Proof. intros I. apply solid_quiet. cbn in *. intuition (subst; discriminate). Qed.
Lemma fol_byte g x t : blank g -> In x [x29; x5d; x7d; x2c; x3b; x3d] -> fol g (x :: t).
Proof. intros G I. split; auto. split; [apply quiet_byte; auto|]. intros _. right. exact I. Qed.
Lemma ends_byte b g x t : blank g -> In x [x29; x5d; x7d; x3b] \/ (x = x2c /\ b = true) -> ends b g (x :: t).
Proof.
  intros G I. split; [apply fol_byte; auto; cbn in *; intuition|]. split; [|split].
  - intros o O [u E]. cbn in O. repeat match type of O with _ \/ _ => destruct O as [O|O] end; try contradiction; subst o; cbn in E; injection E as -> _; cbn in I; intuition discriminate.
  - cbn in *. intuition (subst; discriminate).
  - intros ->. cbn in *. intuition (subst; discriminate).
Qed.
Lemma no_args_word t g r : xstart (t ++ g ++ r) -> ~ like_args t -> t <> [] -> quiet (t ++ g ++ r).
Proof.
  intros (_ & S & N & D) NL NE. split; auto. destruct t as [|x t]; [congruence|]. cbn [app] in *. split; [|split].
  - intros H. cbn in H, N. destruct H as [<-|[<-|[<-|[<-|[<-|[] ] ] ] ] ]; try tauto; apply NL; eexists _, _; (split; [reflexivity|]); cbn; tauto.
  - intros u E. injection E as -> _. elim N. cbn. tauto.
  - exact D.
Qed.
Lemma head_let x t : In x (whites ++ [x28; x7b; x22; x27; x2e; x23; x7e; x2d]) -> first d_let (x :: t) = false.
Proof. cbn. intuition (subst; reflexivity). Qed.
Lemma like_let t : first d_let t = true -> ~ like_args t.
Proof. intros F (x & u & -> & I). assert (first d_let (x :: u) = false) by (apply head_let; cbn in *; tauto). congruence. Qed.

(* ---------------------------------------------------------------- operands *)

Lemma m_const w : In w (map lit ["nil"; "false"; "true"; "..."]%string) -> sem (Operand true) w.
Proof.
  intros I g r [F _]. split; [apply op_const; auto|]. split.
  - intros (x & u & -> & X). cbn in I. repeat match type of I with _ \/ _ => destruct I as [I|I] end; try contradiction; injection I as <- _; cbn in X; intuition discriminate.
  - intros D. exists w, g, r. split; auto. split; [|split; [apply fol_word; auto|split; [apply F|split; [apply F|auto] ] ] ].
    cbn in I. destruct I as [<-|[<-|[<-|[<-|[] ] ] ] ]; [apply kw_name; cbn; tauto|apply kw_name; cbn; tauto|apply kw_name; cbn; tauto|discriminate D].
Qed.
Lemma m_number w : l_numeral w -> sem (Operand true) w.
Proof.
  intros N g r [F _]. split; [apply op_number; auto|]. apply num_head in N as (x & t & -> & X). split.
  - intros (y & u & E & Y). injection E as <- _. cbn in Y. intuition (subst; discriminate).
  - intros D. cbn in D. destruct x; discriminate.
Qed.
Lemma str_app (q : byte) u g r : (q :: u ++ [q]) ++ g ++ r = q :: u ++ q :: g ++ r.
Proof. cbn. rewrite <- app_assoc. reflexivity. Qed.
Lemma m_string q u : In q [x22; x27] -> l_chars q u -> sem (Operand true) (q :: u ++ [q]).
Proof.
  intros Q U g r [F _]. rewrite str_app. split; [apply op_string; auto|]. split; [|intros D; rewrite head_let in D; [discriminate|cbn in *; tauto] ].
  intros _. exists (last_is None true). apply x_call with (q := r).
  - apply so_byte. cbn in *. intuition (subst; discriminate).
  - unfold call_head. cbn in *. tauto.
  - intros h H. apply (go_na_plain e HE h _ g); auto; [apply so_byte; cbn in *; intuition (subst; discriminate)|cbn in *; tauto|right; apply go_args_string; auto|apply F|apply F].
  - cbn. rewrite !app_length. cbn. rewrite app_length. lia.
  - apply x_end. apply F.
Qed.
Lemma m_table t : style Table t -> sem Table t -> sem (Operand true) t.
Proof.
  intros St Se g r [F _]. destruct (style_heads _ _ St) as [u ->]. assert (T := Se g r (proj1 F) (proj1 (proj1 (proj2 F)))). split; [apply op_table; auto; eexists; reflexivity|]. split; [|intros D; discriminate D].
  intros _. exists (last_is None true). apply x_call with (q := r).
  - so.
  - unfold call_head. cbn. tauto.
  - intros h H. apply (go_na_plain e HE h _ g); auto; [so|cbn; tauto|left; apply go_args_table; auto; eexists; reflexivity|apply F|apply F].
  - cbn. rewrite !app_length. lia.
  - apply x_end. apply F.
Qed.
Lemma m_name w l t : tidy w -> style (Suffixes l) t -> sem (Suffixes l) t -> sem (Operand true) (w ++ t).
Proof.
  intros T St Se g r [F _]. destruct (Se g r F) as (h & q & E & H & X & El). rewrite <- app_assoc, E.
  assert (We : word_end (h ++ q)) by (rewrite <- E; eapply suffix_word; [apply (style_heads _ _ St)|apply fol_word; auto]).
  split; [eapply op_name; eauto|]. split.
  - intros LA. elim (like_let (w ++ t)); auto. apply name_first. apply T.
  - intros _. exists w, h, q. split; auto. split; [apply T|]. split; auto. split; auto. split; [apply (sfx_solid _ _ _ _ X)|].
    destruct (style_heads _ _ St) as [[-> ->]|(_ & h' & x & u & -> & H' & I)]; [left; apply (sfx_none e); auto|]. right.
    rewrite <- app_assoc in E. cbn [app] in E. assert (Nw : ~ head_in whites (x :: u ++ g ++ r)) by (cbn in I; cbn; intuition (subst; discriminate)).
    apply strip_uniq in E as [_ <-]; auto; [cbn in *; intuition (subst; discriminate)|apply (sfx_solid _ _ _ _ X)].
Qed.
Lemma go_exprs1 b g r : solid b -> blank g -> loose (RRule lExp) b g (x29 :: r) -> goes (RRule lExpList) b (x29 :: r).
Proof.
  intros S G X. eapply go_rule; [apply is_ExpList; auto|]. apply (go_skip e C _ [] b); auto. eapply chain_loose; [auto|exact X|exact G|so|].
  eapply chain_go; [auto|apply go_zom, r_stop|so|apply chain_nil]. apply (no_skip_rune e C x2c 0x2c _ [] (x29 :: r)); auto; [lia|so|noh].
Qed.
Lemma m_paren b g1 x g2 l t : blank g1 -> style (Expr b) x -> sem (Expr b) x -> blank g2 -> style (Suffixes l) t -> sem (Suffixes l) t ->
  sem (Operand true) (str "(" ++ g1 ++ x ++ g2 ++ str ")" ++ t).
Proof.
  intros G1 Stx Sx G2 Stt St g r [F _]. destruct (St g r F) as (h & q & E & H & X & El).
  assert (Eq : (str "(" ++ g1 ++ x ++ g2 ++ str ")" ++ t) ++ g ++ r = x28 :: g1 ++ x ++ g2 ++ x29 :: h ++ q) by (rewrite <- E, <- !app_assoc; reflexivity).
  rewrite Eq. destruct (style_heads _ _ Stx) as [Nx Xx]. assert (Sox : solid (x ++ g2 ++ x29 :: h ++ q)) by apply Xx.
  destruct (Sx g2 (x29 :: h ++ q)) as (Lx & _ & _); [apply ends_byte; auto; cbn; tauto|]. split; [|split].
  - apply op_paren; [auto|eexists; reflexivity|]. eapply go_prefix_paren; eauto.
  - intros _. exists (last_is l true). apply x_call with (q := q); auto.
    + so.
    + unfold call_head. cbn. tauto.
    + intros h' H'. apply (go_na_plain e HE h' _ []); auto; [so|cbn; tauto| |apply (sfx_solid _ _ _ _ X)].
      left. eapply (go_args_list e HE g1 _ h); auto; [|apply (sfx_solid _ _ _ _ X)]. apply (go_exprs1 _ g2); auto.
    + cbn. rewrite !app_length. cbn. rewrite app_length. lia.
  - intros D. discriminate D.
Qed.
Lemma m_function g t : blank g -> style Body t -> sem Body t -> sem (Operand false) (str "function" ++ g ++ t).
Proof.
  intros G St Se g0 r O. rewrite <- !app_assoc. destruct (style_heads _ _ St) as [u Eu]. split; [|split].
  - apply op_function; auto; [subst t; so|apply O].
  - intros LA. elim (like_let _ (eq_refl : first d_let (str "function" ++ g ++ t) = true)). auto.
  - intros _. exists (lit "function"), g, (t ++ g0 ++ r). split; auto. split; [apply kw_name; cbn; tauto|]. subst t. split; [apply blank_word; auto; reflexivity|]. split; auto. split; [so|]. right. noh.
Qed.

(* ---------------------------------------------------------------- suffixes *)

Lemma m_end : sem (Suffixes None) [].
Proof. intros g r F. exists g, r. split; auto. split; [apply F|]. split; auto. apply x_end. apply F. Qed.
Lemma m_call l g x t : blank g -> style Call x -> sem Call x -> style (Suffixes l) t -> sem (Suffixes l) t -> sem (Suffixes (last_is l true)) (g ++ x ++ t).
Proof.
  intros G Stx Sx Stt St g0 r F. destruct (St g0 r F) as (h & q & E & H & X & El). exists g, (x ++ h ++ q). rewrite <- !app_assoc, E. split; auto. split; auto.
  split; [|destruct l; discriminate]. destruct (style_heads _ _ Stx) as (y & u & -> & Y). apply x_call with (q := q); auto.
  - apply so_byte. cbn in *. intuition (subst; discriminate).
  - intros h' H'. apply Sx; auto. apply (sfx_solid _ _ _ _ X).
  - cbn. rewrite !app_length. lia.
Qed.
Lemma m_index l g x t : blank g -> style Index x -> sem Index x -> style (Suffixes l) t -> sem (Suffixes l) t -> sem (Suffixes (last_is l false)) (g ++ x ++ t).
Proof.
  intros G Stx Sx Stt St g0 r F. destruct (St g0 r F) as (h & q & E & H & X & El). exists g, (x ++ h ++ q). rewrite <- !app_assoc, E. split; auto. split; auto.
  split; [|destruct l; discriminate].
  assert (We : word_end (h ++ q)) by (rewrite <- E; eapply suffix_word; [apply (style_heads _ _ Stt)|apply fol_word; auto]).
  destruct (Sx h q H (sfx_solid _ _ _ _ X) We) as [Lx NC]. destruct (loose_gap e IDX _ h q H Lx) as (h' & H' & Gx). apply x_idx with (h := h') (q := q); auto. apply NC.
Qed.
Lemma args_head x : style Args x -> forall r, solid (x ++ r) /\ head_in [x28; x7b; x22; x27] (x ++ r).
Proof. intros St r. destruct (style_heads _ _ St) as (y & u & -> & Y). split; [apply so_byte; cbn in *; intuition (subst; discriminate)|exact Y]. Qed.
Lemma m_plain x : style Args x -> sem Args x -> sem Call x.
Proof. intros St Se h g q H G Q. destruct (args_head x St (g ++ q)) as [A B]. apply (go_na_plain e HE h _ g); auto. Qed.
Lemma m_method w g x : ident w -> blank g -> style Args x -> sem Args x -> sem Call (str ":" ++ w ++ g ++ x).
Proof. intros [N _] G St Se h g0 q H G0 Q. destruct (args_head x St (g0 ++ q)) as [A B]. rewrite <- !app_assoc. apply (go_na_method e HE h w g _ g0); auto. Qed.
Lemma m_no_args g : blank g -> sem Args (str "(" ++ g ++ str ")").
Proof. intros G g0 q G0 Q. left. rewrite <- !app_assoc. apply (go_args_none e HE g g0 q); auto. Qed.
Lemma m_args b g1 x g2 : blank g1 -> style (Exprs b) x -> sem (Exprs b) x -> blank g2 -> sem Args (str "(" ++ g1 ++ x ++ g2 ++ str ")").
Proof.
  intros G1 St Se G2 g q G Q. left. rewrite <- !app_assoc. destruct (style_heads _ _ St) as [Nx Xx]. assert (Sox := proj1 (proj2 (Xx (g2 ++ x29 :: g ++ q)))).
  apply (go_args_list e HE g1 (x ++ g2 ++ x29 :: g ++ q) g q); auto. apply (sem_exp_list b x g2 _ []); auto. apply ends_byte; auto. cbn. tauto.
Qed.
Lemma m_table_arg t : style Table t -> sem Table t -> sem Args t.
Proof. intros St Se g q G Q. left. destruct (style_heads _ _ St) as [u ->]. apply go_args_table; auto. eexists. reflexivity. Qed.
Lemma m_string_arg q u : In q [x22; x27] -> l_chars q u -> sem Args (q :: u ++ [q]).
Proof. intros Q U g r G R. right. rewrite str_app. apply go_args_string; auto. Qed.
Lemma m_key b g1 x g2 : blank g1 -> style (Expr b) x -> sem (Expr b) x -> blank g2 -> sem Index (str "[" ++ g1 ++ x ++ g2 ++ str "]").
Proof.
  intros G1 St Se G2 g q G Q _. rewrite <- !app_assoc. destruct (style_heads _ _ St) as [Nx Xx]. destruct (Xx (g2 ++ str "]" ++ g ++ q)) as (_ & Sox & Nh & _). split.
  - left. destruct (Se g2 (x5d :: g ++ q)) as (Lx & _); [apply ends_byte; auto; cbn; tauto|]. apply (go_idx_key e HE g1 _ g2 g q); auto.
  - apply (key_no_call g1); auto. eapply head_sub; [exact Nh|reflexivity].
Qed.
Lemma m_dot w : ident w -> sem Index (str "." ++ w).
Proof. intros [N _] g q G Q E. rewrite <- !app_assoc. split; [right; apply (go_idx_dot e HE w); auto|apply dot_no_call]. Qed.

(* ---------------------------------------------------------------- expressions *)

Lemma ends_true b g r : ends b g r -> ends true g r.
Proof. intros (F & B & E & _). split; auto. split; auto. split; auto. discriminate. Qed.
Lemma ends_any b g r : ends false g r -> ends b g r.
Proof. intros (F & B & E & Cm). split; auto. Qed.
Lemma m_operand b t : style (Operand b) t -> sem (Operand b) t -> sem (Expr b) t.
Proof.
  intros St Se g r E. destruct (style_heads _ _ St) as [Nt Xt]. destruct (Se g r (ends_opf _ _ _ E)) as (F & A & Wf). split; [|split].
  - apply exp_operand; auto; [apply Xt|eapply ends_true; eauto].
  - intros D. destruct (Wf D) as (w & h & q & Eb & N & We & H & Sq & P). exists w, h, q. repeat (split; auto). intros Hq. destruct P as [->|P]; [|contradiction]. destruct E as (_ & _ & Ne & _). contradiction.
  - intros LA NC. destruct (A LA) as [l X]. exists l, r. split; auto. split; auto. intros Hq. destruct E as (_ & _ & Ne & _). contradiction.
Qed.
Lemma m_unary b u g x : In u (map lit ["-"; "#"; "~"]%string) -> blank g -> style (Expr b) x -> sem (Expr b) x -> (u = str "-" -> g = [] -> forall t, x <> str "-" ++ t) -> sem (Expr b) (u ++ g ++ x).
Proof.
  intros U G St Se Hm g0 r E. assert (Hs := style_heads _ _ (s_unary b u g x U G St Hm)). destruct Hs as [_ Xs]. assert (Sb := proj1 (proj2 (Xs (g0 ++ r)))).
  rewrite <- !app_assoc in *. destruct (style_heads _ _ St) as [Nx Xx]. destruct (Se g0 r E) as (Lx & _ & _).
  assert (F : goes (RRule lFinalExp) (u ++ g ++ x ++ g0 ++ r) r).
  { eapply (final_unop e HE _ u g (x ++ g0 ++ r) g0); auto.
    - left. cbn in U. destruct U as [<-|[<-|[<-|[] ] ] ]; apply no_word_byte; noh.
    - cbn in U. destruct U as [<-|[<-|[<-|[] ] ] ]; reflexivity.
    - cbn in U. destruct U as [<-|[<-|[<-|[] ] ] ]; noh.
    - cbn in U. destruct U as [<-|[<-|[<-|[] ] ] ]; intros [t Et]; discriminate.
    - apply go_unop; auto.
    - apply Xx.
    - apply E.
    - apply E. }
  split; [|split].
  - apply exp_operand; auto; [eapply ends_true; eauto|left; exact F].
  - intros D. cbn in U. destruct U as [<-|[<-|[<-|[] ] ] ]; discriminate D.
  - intros (y & t & Ey & Y). cbn in U. destruct U as [<-|[<-|[<-|[] ] ] ]; injection Ey as <- _; cbn in Y; intuition discriminate.
Qed.
Lemma m_not b g x : space g -> style (Expr b) x -> sem (Expr b) x -> sem (Expr b) (str "not" ++ g ++ x).
Proof.
  intros G St Se g0 r E. rewrite <- !app_assoc. destruct (style_heads _ _ St) as [Nx Xx]. destruct (Se g0 r E) as (Lx & _ & _).
  assert (F : goes (RRule lFinalExp) (str "not" ++ g ++ x ++ g0 ++ r) r).
  { eapply (final_unop e HE _ (str "not") g (x ++ g0 ++ r) g0); auto.
    - right. eexists. reflexivity.
    - so.
    - noh.
    - intros [t Et]; discriminate.
    - apply go_not; auto.
    - apply G.
    - apply Xx.
    - apply E.
    - apply E. }
  split; [|split].
  - apply exp_operand; auto; [so|eapply ends_true; eauto|left; exact F].
  - intros _. exists (lit "not"), g, (x ++ g0 ++ r). split; auto. split; [apply kw_name; cbn; tauto|]. split; [apply space_word; auto|]. split; [apply G|]. split; [apply Xx|].
    intros Hq. destruct (Xx (g0 ++ r)) as (_ & _ & Nh & _). elim (head_sub _ [x3d] _ Nh eq_refl). auto.
  - intros (y & t & Ey & Y). injection Ey as <- _; cbn in Y; intuition discriminate.
Qed.
Lemma m_binary b t g1 o g2 x : style (Operand true) t -> sem (Operand true) t -> space g1 -> In o style_binops -> space g2 -> style (Expr b) x -> sem (Expr b) x -> sem (Expr b) (t ++ g1 ++ o ++ g2 ++ x).
Proof.
  intros Stt St G1 O G2 Stx Sx g r E. rewrite <- !app_assoc. destruct (style_heads _ _ Stx) as [Nx Xx]. destruct (style_heads _ _ Stt) as [Nt Xt]. destruct (Sx g r E) as (Lx & _ & _).
  assert (Of : opf true g1 (o ++ g2 ++ x ++ g ++ r)).
  { split; [|discriminate]. split; [apply G1|]. split; [apply binop_quiet; auto|]. intros Eg. destruct G1 as [_ Ng]. congruence. }
  destruct (St _ _ Of) as (F & A & Wf). split; [|split].
  - left. apply (exp_binary e HE _ g1 o g2 x g r); auto; [apply Xt|apply Xx|apply E|apply E].
  - intros D. destruct (Wf D) as (w & h & q & Eb & N & We & H & Sq & P). exists w, h, q. repeat (split; auto). intros Hq. destruct P as [->|P]; [|contradiction]. eapply binop_eq; eauto.
  - intros LA NC. destruct A as [l X]. { destruct LA as (y & u & Ey & Y). destruct t as [|z t]; [congruence|]. injection Ey as -> _. eexists _, _. split; [reflexivity|auto]. }
    exists l, (o ++ g2 ++ x ++ g ++ r). split; auto. split; [apply binop_no_comma; auto|]. intros Hq. eapply binop_eq; eauto.
Qed.
Lemma m_one b x : style (Expr b) x -> sem (Expr b) x -> sem (Exprs b) x.
Proof.
  intros St Se g r E. destruct (Se g r (ends_any b _ _ E)) as (Lx & _ & _). destruct (loose_gap e _ _ g r (proj1 (proj1 E)) Lx) as (h & H & Gx). exists h, r. split; auto. split; auto.
  split; [apply E|]. apply r_stop. apply (no_skip_rune e C x2c 0x2c _ [] r); auto; [lia|apply E|apply E; auto].
Qed.
Lemma m_more b x g1 g2 l : style (Expr true) x -> sem (Expr true) x -> blank g1 -> blank g2 -> style (Exprs b) l -> sem (Exprs b) l -> sem (Exprs b) (x ++ g1 ++ str "," ++ g2 ++ l).
Proof.
  intros Stx Sx G1 G2 Stl Sl g r E. rewrite <- !app_assoc. destruct (Sl g r E) as (g3 & m & X & G3 & Sm & R). destruct (style_heads _ _ Stl) as [Nl Xl].
  destruct (Sx g1 (x2c :: g2 ++ l ++ g ++ r)) as (Lx & _ & _); [apply ends_byte; auto|]. destruct (loose_gap e _ _ g1 _ G1 Lx) as (h & H & Gx). exists h, (x2c :: g2 ++ l ++ g ++ r). split; auto. split; auto.
  split; [so|]. eapply r_next; [|exact R]. apply (go_skip e C _ [] (x2c :: g2 ++ l ++ g ++ r)); auto; [so|].
  eapply chain_cons; [auto|apply (go_rune e x2c); [reflexivity|lia]|exact G2|apply Xl|]. eapply chain_cons; [auto|exact X|exact G3|exact Sm|apply chain_nil].
Qed.
End Sem.
