(** LuaStyleList.v - the same for tables, parameters, names and variables. *)
From Verif Require Export LuaStyleSem.
From Coq Require Import Lia ZifyBool.
From Verif Require Import ReaderSteps ReaderScan.

Ltac flat := rewrite <- ?app_assoc;
  change (str "=") with [x3d] in *; change (str ",") with [x2c] in *; change (str "(") with [x28] in *; change (str ")") with [x29] in *; change (str "[") with [x5b] in *;
  change (str "]") with [x5d] in *; change (str "{") with [x7b] in *; change (str "}") with [x7d] in *; change (str ";") with [x3b] in *; change (str ":") with [x3a] in *;
  change (str ".") with [x2e] in *; change (str "<") with [x3c] in *; change (str ">") with [x3e] in *; cbn [app].

Section List.
Context {L : GoLib} (e : env) (HE : forall i, r_reader (get_rule e i) = nth_error lua_readers i).
Notation goes := (goes e). Notation balks := (balks e). Notation rounds := (rounds e). Notation chain := (chain e). Notation broken := (broken e). Notation loose := (loose e). Notation sfx := (sfx e).
Notation sem := (sem e). Notation FF := (FF e).
Notation W := (RZom ws). Notation C := lua_skiper.
Let Sw : skips e W := skips_w e.
Let Sc : skips e C := skips_c e HE.
Hint Resolve Sw Sc blank_nil : core.
Ltac rune x := apply (go_rune e x); [reflexivity|lia].

(* ---------------------------------------------------------------- tables *)

Lemma begins_gap g b x k : blank g -> ~ In x whites -> ~ head_in [x] b -> ~ begins (g ++ b) (x :: k).
Proof. intros G N H. apply lit_blank; auto. intros [t ->]. apply H. cbn. auto. Qed.
Lemma first_gap (f : byte -> bool) g b : blank g -> (forall x, In x whites -> f x = false) -> first f b = false -> first f (g ++ b) = false.
Proof. intros G H F. destruct G as [|x g X G]; [exact F|]. cbn. apply H. exact X. Qed.
Lemma head_gap l g b : blank g -> (forall x, In x whites -> ~ In x l) -> ~ head_in l b -> ~ head_in l (g ++ b).
Proof. intros G H F. destruct G as [|x g X G]; [exact F|]. cbn. apply H. exact X. Qed.
Lemma closer b : head_in [x7d] b -> solid b /\ first d_let b = false /\ first d_dig b = false /\ forall x k, x <> x7d -> ~ begins b (x :: k) /\ ~ head_in [x] b.
Proof.
  intros H. destruct b as [|y b]; [contradiction|]. cbn in H. destruct H as [<-|[] ]. split; [so|]. split; [reflexivity|]. split; [reflexivity|]. intros x k N. split; [intros [t E]; injection E as E _; congruence|intros [E|[] ]; congruence].
Qed.
Lemma no_field g b : blank g -> head_in [x7d] b -> balks (RRule lField) (g ++ b).
Proof.
  intros G H. destruct (closer b H) as (S & F & D & N). assert (B : forall x k, x <> x7d -> ~ begins b (x :: k)) by (intros x k Nx; apply (N x k Nx)).
  assert (Hd : forall x, x <> x7d -> ~ head_in [x] b) by (intros x Nx; apply (N x [] Nx)).
  assert (BG : forall x k, x <> x7d -> ~ In x whites -> ~ begins (g ++ b) (x :: k)) by (intros x k Nx Nw; apply begins_gap; auto).
  assert (Fin : balks (RRule lFinalExp) (g ++ b)).
  { eapply no_rule; [apply is_FinalExp; auto|].
    apply any_no; [apply no_lit, BG; [discriminate|noh]|]. apply any_no; [apply no_lit, BG; [discriminate|noh]|]. apply any_no; [apply no_lit, BG; [discriminate|noh]|].
    apply any_no; [apply no_numeral; auto; apply first_gap; auto; intros x X; cbn in X; intuition (subst; reflexivity)|].
    apply any_no. { apply no_string; auto. apply head_gap; auto; [intros x X; cbn in X; intuition (subst; cbn in *; intuition discriminate)|]. destruct b as [|y b]; [contradiction|]. cbn in H. destruct H as [<-|[] ]. noh. }
    apply any_no; [apply no_lit, BG; [discriminate|noh]|].
    apply any_no; [eapply no_rule; [apply is_FuncDef; auto|]; apply no_skip_lit; auto; apply B; discriminate|].
    apply any_no. { apply no_skip; auto. apply broken_here. eapply no_rule; [apply is_UnOp; auto|]. cbn [map].
      apply any_no; [apply no_lit, B; discriminate|]. apply any_no; [apply no_lit, B; discriminate|]. apply any_no; [apply no_lit, B; discriminate|]. apply any_no; [apply no_lit, B; discriminate|]. apply any_nil. }
    apply any_no; [apply no_table; auto; apply Hd; discriminate|].
    apply any_no; [|apply any_nil]. eapply no_rule; [apply is_PrefixExp; auto|]. apply no_seq, halts_here. apply no_varexp; auto. apply Hd. discriminate. }
  assert (Fin0 : balks (RRule lFinalExp) b) by (apply no_final; auto; right; destruct b as [|y b]; [contradiction|]; cbn in *; tauto).
  eapply no_rule; [apply is_Field; auto|]. apply any_no; [apply (no_skip_rune e C x5b); auto; [lia|apply Hd; discriminate]|].
  apply any_no; [apply no_skip; auto; apply broken_here, no_name; auto|]. apply any_no; [|apply any_nil].
  eapply no_rule; [apply is_Exp; auto|]. apply any_no; [apply no_skip; auto; apply broken_here; exact Fin0|]. apply any_no; [exact Fin|apply any_nil].
Qed.
Lemma no_sep b : ~ head_in [x2c; x3b] b -> balks (RRule lFieldSep) b.
Proof. intros N. eapply no_rule; [apply is_FieldSep; auto|]. apply no_out. eapply o_takes_no; [apply takes_byte, rb_any; reflexivity|]. destruct b as [|x b]; [reflexivity|]. cbn in *. destruct (one_of (lit ",;") x) eqn:E; [|auto]. apply one_of_in in E. elim N. exact E. Qed.
Lemma go_sep x b : In x [x2c; x3b] -> goes (RRule lFieldSep) (x :: b) b.
Proof. intros I. eapply go_rule; [apply is_FieldSep; auto|]. apply go_out. eapply o_takes_yes; [apply takes_byte, rb_any; reflexivity|]. apply one_of_in. exact I. Qed.
Lemma ff_end g r : blank g -> head_in [x7d] r -> FF (g ++ r) r.
Proof.
  intros G H. destruct (closer r H) as (S & _). assert (N : ~ head_in [x2c; x3b] r) by (destruct r as [|y r]; [contradiction|]; cbn in H; destruct H as [<-|[] ]; noh).
  exists g, r, []. split; auto. split; auto. split; [|split; auto].
  - apply r_stop. apply no_seq, halts_here, no_sep. apply head_gap; auto. intros x X. cbn in X. intuition (subst; cbn in *; intuition discriminate).
  - apply go_opt_no, no_sep. auto.
Qed.
Lemma m_empty g : blank g -> sem Table (str "{" ++ g ++ str "}").
Proof.
  intros G g0 q G0 Q. flat. eapply go_rule; [apply is_Table; auto|]. apply (go_skip e C _ [] (x7b :: g ++ x7d :: g0 ++ q)); auto; [so|].
  eapply chain_cons; [auto|rune x7b|exact G|so|]. eapply chain_go with (b1 := x7d :: g0 ++ q); [auto| |so|].
  - apply go_opt_no. eapply no_rule; [apply is_FieldList; auto|]. apply (no_skip e C _ [] (x7d :: g0 ++ q)); auto; [so|]. apply broken_here. apply (no_field []); auto. cbn. auto.
  - eapply chain_cons; [auto|rune x7d|exact G0|exact Q|apply chain_nil].
Qed.
Lemma m_fields k g1 f g2 : blank g1 -> sem (Fields k) f -> blank g2 -> sem Table (str "{" ++ g1 ++ f ++ g2 ++ str "}").
Proof.
  intros G1 [So Se] G2 g q G Q. flat. eapply go_rule; [apply is_Table; auto|]. apply (go_skip e C _ [] (x7b :: g1 ++ f ++ g2 ++ x7d :: g ++ q)); auto; [so|].
  destruct (Se [] g2 (x7d :: g ++ q)) as (m0 & gm & m & F & -> & Gm & Sm & _ & (gn & n & gx & Gn & Sn & R & X & Gx)); auto; [cbn; auto|].
  eapply chain_cons; [auto|rune x7b|exact G1|apply So|]. eapply chain_go with (b1 := x7d :: g ++ q); [auto| |so|eapply chain_cons; [auto|rune x7d|exact G|exact Q|apply chain_nil] ].
  apply go_opt. eapply go_rule; [apply is_FieldList; auto|]. apply (go_skip e C _ [] (f ++ g2 ++ x7d :: g ++ q)); auto.
  eapply chain_cons; [auto|exact F|exact Gm|exact Sm|]. eapply chain_cons; [auto|apply go_zom; exact R|exact Gn|exact Sn|]. eapply chain_cons; [auto|exact X|exact Gx|so|apply chain_nil].
Qed.
Lemma closer_ends b g r : blank g -> head_in [x7d] r -> ends b g r.
Proof. intros G H. destruct r as [|y r]; [contradiction|]. cbn in H. destruct H as [<-|[] ]. apply ends_byte; auto. cbn. tauto. Qed.
Lemma m_field k b f : sem (Field k b) f -> sem (Fields k) f.
Proof.
  intros [So Se]. split; auto. intros h g r H K G R. destruct (closer r R) as (S & _). destruct (Se h g r H K (closer_ends _ _ _ G R)) as [X|X].
  - exists r, [], r. split; auto. split; auto. split; auto. split; auto. split; apply (ff_end []); auto.
  - exists (g ++ r), g, r. split; auto. split; auto. split; auto. split; auto. split; [apply ff_end; auto|apply (ff_end []); auto].
Qed.
Lemma sep_ends b p t : p = str ";" \/ (b = true /\ p = str ",") -> ends b [] (p ++ t) /\ exists x, p = [x] /\ In x [x2c; x3b].
Proof. intros [->|[-> ->] ]; (split; [apply ends_byte; auto; cbn; tauto|eexists; split; [reflexivity|cbn; tauto] ]). Qed.
Lemma m_field_sep k b f p : sem (Field k b) f -> p = str ";" \/ (b = true /\ p = str ",") -> sem (Fields k) (f ++ p).
Proof.
  intros [So Se] P. split; [intros b0; rewrite <- app_assoc; apply So|]. intros h g r H K G R. rewrite <- app_assoc. destruct (sep_ends b p (g ++ r) P) as (E & x & -> & I). cbn [app] in *.
  assert (Sx : solid (x :: g ++ r)) by (apply so_byte; cbn in *; intuition (subst; discriminate)).
  assert (X : goes (RRule lField) (h ++ f ++ x :: g ++ r) (x :: g ++ r)) by (destruct (Se h [] (x :: g ++ r) H K E) as [X|X]; exact X).
  assert (F : FF (x :: g ++ r) r).
  { exists [], (x :: g ++ r), g. split; auto. split; auto. split; [|split; auto].
    - apply r_stop. apply no_seq. eapply halts_next; [apply go_sep; auto|]. apply halts_here. apply no_field; auto.
    - apply go_opt. apply go_sep. auto. }
  exists (x :: g ++ r), [], (x :: g ++ r). auto 10.
Qed.
Lemma m_field_more k b f p g k2 l : sem (Field k b) f -> p = str ";" \/ (b = true /\ p = str ",") -> blank g -> g = [] \/ k2 = true -> sem (Fields k2) l -> sem (Fields k) (f ++ p ++ g ++ l).
Proof.
  intros [So Se] P G K2 [Sol Sl]. split; [intros b0; rewrite <- app_assoc; apply So|]. intros h g0 r H K G0 R. flat. destruct (sep_ends b p (g ++ l ++ g0 ++ r) P) as (E & x & -> & I). cbn [app] in *.
  assert (Sx : solid (x :: g ++ l ++ g0 ++ r)) by (apply so_byte; cbn in *; intuition (subst; discriminate)).
  assert (X : goes (RRule lField) (h ++ f ++ x :: g ++ l ++ g0 ++ r) (x :: g ++ l ++ g0 ++ r)) by (destruct (Se h [] _ H K E) as [X|X]; exact X).
  destruct (Sl g g0 r G) as (m0 & gm & m & Fl & _ & _ & _ & (gn & n & gx & Gn & Sn & Rn & Xn & Gx) & _); auto. { intros ->. destruct K2 as [->|D]; [auto|discriminate]. }
  assert (F : FF (x :: g ++ l ++ g0 ++ r) r).
  { exists gn, n, gx. split; auto. split; auto. split; [|split; auto]. eapply r_next; [|exact Rn]. apply go_seq. eapply seqs_cons; [apply go_sep; auto|]. eapply seqs_cons; [exact Fl|apply seqs_nil]. }
  exists (x :: g ++ l ++ g0 ++ r), [], (x :: g ++ l ++ g0 ++ r). auto 10.
Qed.
Lemma m_value b x : style (Expr b) x -> sem (Expr b) x -> sem (Field false b) x.
Proof.
  intros St Se. destruct (style_heads _ _ St) as [Nx Xx]. split; [intros b0; apply Xx|]. intros h g r _ K E. rewrite (K eq_refl). cbn [app]. destruct (Se g r E) as (Lx & Wf & _). destruct (Xx (g ++ r)) as (_ & So & Nh & _).
  eapply loose_rule; [apply is_Field; auto|]. apply loose_next; [|apply loose_next; [|apply loose_hit; exact Lx] ].
  - apply (no_skip_rune e C x5b 0x5b _ [] (x ++ g ++ r)); auto; [lia|]. eapply head_sub; [exact Nh|reflexivity].
  - apply (no_skip e C _ [] (x ++ g ++ r)); auto. destruct (first d_let (x ++ g ++ r)) eqn:D; [|apply broken_here, no_name; auto].
    destruct (Wf D) as (w & h' & q & -> & N & We & H' & Sq & P). eapply broken_next; [auto|apply go_name; auto|exact H'|exact Sq|].
    destruct q as [|y q]; [apply broken_here, (no_rune e x3d); [reflexivity|lia|noh]|]. destruct (Byte.eqb y x3d) eqn:Y.
    + apply Byte.byte_dec_bl in Y. subst y. destruct P as [u Eu]; [cbn; auto|]. injection Eu as ->. eapply broken_next with (g := []) (b1 := x3d :: u); [auto|rune x3d|auto|so|].
      apply broken_here. apply no_exp; auto. right. cbn. auto.
    + apply broken_here, (no_rune e x3d); [reflexivity|lia|]. intros [<-|[] ]. discriminate Y.
Qed.
Lemma m_named b w g1 g2 x : ident w -> blank g1 -> blank g2 -> style (Expr b) x -> sem (Expr b) x -> sem (Field true b) (w ++ g1 ++ str "=" ++ g2 ++ x).
Proof.
  intros [N _] G1 G2 St Se. destruct (style_heads _ _ St) as [Nx Xx]. assert (Sw' : forall b, solid (w ++ b)) by (intros b0; apply let_quiet, name_first; auto).
  split; [intros b0; rewrite <- app_assoc; auto|]. intros h g r H _ E. flat. destruct (Se g r E) as (Lx & _).
  eapply loose_rule; [apply is_Field; auto|]. apply loose_next; [|apply loose_hit; left].
  - apply (no_skip_rune e C x5b); auto; [lia|]. destruct N as (y & t & -> & Y & _). apply d_let_is in Y. cbn [app head_in]. apply let_not; auto.
  - apply go_skip; auto. eapply chain_cons; [auto|apply go_name; auto; apply blank_word; auto; reflexivity|exact G1|so|]. eapply chain_cons; [auto|rune x3d|exact G2|apply Xx|].
    eapply chain_loose; [auto|exact Lx|apply E|apply E|apply chain_nil].
Qed.
Lemma m_keyed b b2 g1 x g2 g3 g4 y : blank g1 -> style (Expr b2) x -> sem (Expr b2) x -> blank g2 -> blank g3 -> blank g4 -> style (Expr b) y -> sem (Expr b) y ->
  sem (Field true b) (str "[" ++ g1 ++ x ++ g2 ++ str "]" ++ g3 ++ str "=" ++ g4 ++ y).
Proof.
  intros G1 Stx Sx G2 G3 G4 Sty Sy. destruct (style_heads _ _ Stx) as [Nx Xx]. destruct (style_heads _ _ Sty) as [Ny Xy].
  split; [intros b0; so|]. intros h g r H _ E. flat. destruct (Sy g r E) as (Ly & _).
  destruct (Sx g2 (x5d :: g3 ++ x3d :: g4 ++ y ++ g ++ r)) as (Lx & _); [apply ends_byte; auto; cbn; tauto|].
  eapply loose_rule; [apply is_Field; auto|]. apply loose_hit. left. apply go_skip; auto; [so|].
  eapply chain_cons; [auto|rune x5b|exact G1|apply Xx|]. eapply chain_loose; [auto|exact Lx|exact G2|so|]. eapply chain_cons; [auto|rune x5d|exact G3|so|]. eapply chain_cons; [auto|rune x3d|exact G4|apply Xy|].
  eapply chain_loose; [auto|exact Ly|apply E|apply E|apply chain_nil].
Qed.

(* ---------------------------------------------------------------- names and parameters *)

Lemma m_name_one w : ident w -> sem Names w.
Proof. intros [N _] b Wb B. exists b. split; [apply go_name; auto|]. split; auto. apply r_stop. auto. Qed.
Lemma m_name_more w l : ident w -> sem Names l -> sem Names (w ++ str "," ++ l).
Proof.
  intros [N _] Se b Wb B. destruct (Se b Wb B) as (m0 & X & R & _). exists (x2c :: l ++ b). flat. split; [apply go_name; auto; reflexivity|]. split; [|left; so].
  eapply r_next; [|exact R]. apply go_seq. eapply seqs_cons; [rune x2c|]. eapply seqs_cons; [exact X|apply seqs_nil].
Qed.
Lemma no_comma_name g r : blank g -> balks COMMA_NAME r -> balks COMMA_NAME (g ++ r).
Proof.
  intros G B. destruct G as [|x g X G]; [exact B|]. apply no_seq, halts_here. apply (no_rune e x2c); [reflexivity|lia|]. cbn in *. intuition (subst; discriminate).
Qed.
Lemma go_names h l g r : sem Names l -> first d_let l = true -> blank h -> blank g -> solid r -> word_end (g ++ r) -> balks COMMA_NAME r -> goes (RRule lNameList) (h ++ l ++ g ++ r) r.
Proof.
  intros Se F H G S Wr B. destruct (Se (g ++ r) Wr (no_comma_name g r G B)) as (m0 & X & R & M). eapply go_rule; [apply is_NameList; auto|]. apply go_skip; auto; [apply let_quiet; destruct l; [discriminate|exact F]|].
  destruct M as [M| ->].
  - eapply chain_go; [auto|exact X|exact M|]. eapply chain_cons; [auto|apply go_zom; exact R|exact G|exact S|apply chain_nil].
  - eapply chain_cons; [auto|exact X|exact G|exact S|]. eapply chain_go; [auto|apply go_zom, r_stop; exact B|exact S|apply chain_nil].
Qed.
Lemma no_names g b : blank g -> solid b -> first d_let b = false -> balks (RRule lNameList) (g ++ b).
Proof. intros G S F. eapply no_rule; [apply is_NameList; auto|]. apply no_skip; auto. apply broken_here, no_name; auto. Qed.
Lemma paren_solid r : head_in [x29] r -> exists u, r = x29 :: u /\ solid r.
Proof. intros H. destruct r as [|y r]; [contradiction|]. cbn in H. destruct H as [<-|[] ]. eexists. split; [reflexivity|so]. Qed.
Lemma no_params b : solid b -> first d_let b = false -> ~ begins b (lit "...") -> balks (RRule lFuncParams) b.
Proof.
  intros S F N. eapply no_rule; [apply is_Params; auto|]. apply any_no; [apply (no_skip e C _ [] b); auto; apply broken_here; apply (no_names []); auto|]. apply any_no; [apply no_lit; auto|apply any_nil].
Qed.
Lemma m_params_none : sem Params [].
Proof.
  intros g r G R. destruct (paren_solid r R) as (u & -> & S). exists g, (x29 :: u). split; auto. split; auto. split; auto. left. apply go_opt_no, no_params; auto. intros [t E]. discriminate.
Qed.
Lemma names_solid l b : first d_let l = true -> solid (l ++ b).
Proof. intros F. apply let_quiet. destruct l; [discriminate|exact F]. Qed.
Lemma m_params l : style Names l -> sem Names l -> sem Params l.
Proof.
  intros St Se g r G R. destruct (paren_solid r R) as (u & -> & S). assert (F := style_heads _ _ St). cbn [heads] in F. exists [], (l ++ g ++ x29 :: u). split; auto. split; auto. split; [apply names_solid; auto|].
  left. apply go_opt. eapply go_rule; [apply is_Params; auto|]. apply any_hit. apply (go_skip e C _ [] (l ++ g ++ x29 :: u)); auto; [apply names_solid; auto|].
  eapply chain_go; [auto|apply (go_names [] l g (x29 :: u)); auto; [apply blank_word; auto; reflexivity|apply no_seq, halts_here, (no_rune e x2c); [reflexivity|lia|noh] ]|auto|].
  eapply chain_go with (b1 := x29 :: u); [auto|apply go_opt_no|auto|apply chain_nil]. apply (no_skip_rune e C x2c 0x2c _ [] (x29 :: u)); auto; [lia|noh].
Qed.
Lemma m_params_dots l g1 g2 : style Names l -> sem Names l -> blank g1 -> blank g2 -> sem Params (l ++ g1 ++ str "," ++ g2 ++ str "...").
Proof.
  intros St Se G1 G2 g r G R. destruct (paren_solid r R) as (u & -> & S). assert (F := style_heads _ _ St). cbn [heads] in F. flat.
  exists [], (l ++ g1 ++ x2c :: g2 ++ str "..." ++ g ++ x29 :: u). split; auto. split; auto. split; [apply names_solid; auto|].
  left. apply go_opt. eapply go_rule; [apply is_Params; auto|]. apply any_hit. apply (go_skip e C _ [] (l ++ g1 ++ x2c :: g2 ++ str "..." ++ g ++ x29 :: u)); auto; [apply names_solid; auto|].
  eapply chain_go with (b1 := x2c :: g2 ++ str "..." ++ g ++ x29 :: u); [auto| |so|].
  - apply (go_names [] l g1); auto; [so|apply blank_word; auto; reflexivity|]. apply no_seq. eapply halts_next; [rune x2c|]. apply halts_here, no_name; auto. apply first_gap; auto. intros x X. cbn in X. intuition (subst; reflexivity).
  - eapply chain_go with (b1 := x29 :: u); [auto|apply go_opt|auto|apply chain_nil]. apply (go_skip e C _ [] (x2c :: g2 ++ str "..." ++ g ++ x29 :: u)); auto; [so|].
    eapply chain_cons; [auto|rune x2c|exact G2|so|]. eapply chain_cons; [auto|apply go_lit|exact G|exact S|apply chain_nil].
Qed.
Lemma m_dots : sem Params (str "...").
Proof.
  intros g r G R. destruct (paren_solid r R) as (u & -> & S). exists [], (lit "..." ++ g ++ x29 :: u). split; auto. split; auto. split; [so|]. right. apply go_opt. eapply go_rule; [apply is_Params; auto|].
  apply any_next; [|apply any_hit, go_lit]. apply (no_skip e C _ [] (lit "..." ++ g ++ x29 :: u)); auto; [so|]. apply broken_here. apply (no_names [] (lit "..." ++ g ++ x29 :: u)); auto. so.
Qed.
Lemma end_shut g r : opf false g r -> shut (lit "end" ++ g ++ r).
Proof. intros [F N]. right. exists (lit "end"), g, r. split; [cbn; tauto|]. auto. Qed.
Lemma m_body g1 p g2 t : blank g1 -> sem Params p -> blank g2 -> sem (Block true) t -> sem Body (str "(" ++ g1 ++ p ++ g2 ++ str ")" ++ t ++ str "end").
Proof.
  intros G1 Sp G2 St g r O. flat. destruct (St (lit "end" ++ g ++ r) (end_shut g r O)) as (h0 & q & Eq & H0 & Nq & B); [discriminate|].
  destruct (Sp g2 (x29 :: t ++ lit "end" ++ g ++ r) G2) as (h1 & q1 & Eq1 & H1 & S1 & P); [cbn; auto|]. change (str "end") with (lit "end"). rewrite Eq1.
  eapply go_rule; [apply is_Body; auto|]. apply (go_skip e C _ [] (x28 :: g1 ++ h1 ++ q1)); auto; [so|]. rewrite app_assoc.
  eapply chain_cons; [auto|rune x28|apply blank_app; [exact G1|exact H1]|exact S1|]. eapply chain_loose; [auto|exact P|exact G2|so|].
  rewrite Eq. eapply chain_cons; [auto|rune x29|exact H0|apply next_quiet; auto|]. eapply chain_go; [auto|apply (B []); auto|so|].
  eapply chain_cons; [auto|apply go_lit|apply O|apply O|apply chain_nil].
Qed.
Lemma paren_open r : head_in [x28] r -> exists u, r = x28 :: u /\ solid r.
Proof. intros H. destruct r as [|y r]; [contradiction|]. cbn in H. destruct H as [<-|[] ]. eexists. split; [reflexivity|so]. Qed.
Lemma no_dot b : solid b -> ~ head_in [x2e] b -> balks DOT_NAME b.
Proof. intros S N. apply (no_skip_rune e W x2e 0x2e _ [] b); auto. lia. Qed.
Lemma no_colon b : solid b -> ~ head_in [x3a] b -> balks COLON_NAME b.
Proof. intros S N. apply (no_skip_rune e W x3a 0x3a _ [] b); auto. lia. Qed.
Lemma m_fname w : ident w -> sem FuncName w.
Proof.
  intros [N _] g r G R. destruct (paren_open r R) as (u & -> & S). exists g, (x28 :: u), (x28 :: u). split; [apply go_name; auto; apply blank_word; auto; reflexivity|]. split; auto. split; auto.
  split; [apply r_stop, no_dot; auto; noh|]. split; auto. apply go_opt_no, no_colon; auto. noh.
Qed.
Lemma m_fname_method w v : ident w -> ident v -> sem FuncName (w ++ str ":" ++ v).
Proof.
  intros [N _] [V _] g r G R. destruct (paren_open r R) as (u & -> & S). flat. exists [], (x3a :: v ++ g ++ x28 :: u), (x3a :: v ++ g ++ x28 :: u). split; [apply go_name; auto; reflexivity|]. split; auto. split; [so|].
  split; [apply r_stop, no_dot; [so|noh]|]. split; [so|]. apply go_opt. apply (go_skip e W _ [] (x3a :: v ++ g ++ x28 :: u)); auto; [so|].
  eapply chain_go with (b1 := v ++ g ++ x28 :: u); [auto|rune x3a|apply let_quiet, name_first; auto|]. eapply chain_cons; [auto|apply go_name; auto; apply blank_word; auto; reflexivity|exact G|exact S|apply chain_nil].
Qed.
Lemma m_fname_dot w l : ident w -> style FuncName l -> sem FuncName l -> sem FuncName (w ++ str "." ++ l).
Proof.
  intros [N _] St Se g r G R. assert (F := style_heads _ _ St). cbn [heads] in F. destruct (Se g r G R) as (gm & m & n & X & Gm & Sm & Rn & Sn & Y). flat. exists [], (x2e :: l ++ g ++ r), n.
  split; [apply go_name; auto; reflexivity|]. split; auto. split; [so|]. split; [|auto]. eapply r_next; [|exact Rn]. apply (go_skip e W _ [] (x2e :: l ++ g ++ r)); auto; [so|].
  eapply chain_go with (b1 := l ++ g ++ r); [auto|rune x2e|apply names_solid; auto|]. eapply chain_cons; [auto|exact X|exact Gm|exact Sm|apply chain_nil].
Qed.

(* ---------------------------------------------------------------- attributes *)

Lemma m_no_attr : sem Attr [].
Proof.
  intros g r G S Wr N. split; [exact Wr|]. exists g, r, []. split; auto. split; auto. split; auto. split; auto. eapply go_rule; [apply is_Attrib; auto|]. apply go_opt_no. apply no_seq, halts_here, (no_rune e x3c); [reflexivity|lia|auto].
Qed.
Lemma m_attr g w : blank g -> ident w -> sem Attr (g ++ str "<" ++ w ++ str ">").
Proof.
  intros G [N _] g0 r G0 S Wr Nr. flat. split; [apply blank_word; auto; reflexivity|]. exists g, (x3c :: w ++ x3e :: g0 ++ r), g0. split; auto. split; auto. split; [so|]. split; auto.
  eapply go_rule; [apply is_Attrib; auto|]. apply go_opt, go_seq. eapply seqs_cons; [rune x3c|]. eapply seqs_cons; [apply go_name; auto; reflexivity|]. eapply seqs_cons; [rune x3e|apply seqs_nil].
Qed.
Lemma tidy_no_function w a g r : tidy w -> word_end (a ++ g ++ r) -> ~ begins ((w ++ a) ++ g ++ r) (lit "function").
Proof. intros T Wr. rewrite <- app_assoc. apply tidy_no_kw; auto. cbn. tauto. Qed.
Lemma attr_word a b : style Attr a -> word_end b -> word_end (a ++ b).
Proof. intros St Wb. remember Attr as s eqn:Es. destruct St; try discriminate Es; [exact Wb|]. flat. apply blank_word; auto. reflexivity. Qed.
Lemma m_att_one w a : tidy w -> style Attr a -> sem Attr a -> sem AttNames (w ++ a).
Proof.
  intros T St Se. split.
  - intros b Wb. rewrite <- app_assoc. apply tidy_no_kw; auto; [cbn; tauto|]. apply attr_word; auto.
  - intros g r G S Wr N. destruct (Se g r G S Wr) as (Wa & gm & m & gn & E & Gm & Sm & X & Gn); [eapply head_sub; [exact N|reflexivity]|]. flat. exists gm, m, gn, r.
    split; [rewrite <- E; apply go_name; auto; apply T|]. split; auto. split; auto. split; auto. split; auto. split; auto. apply r_stop. apply (no_skip_rune e W x2c 0x2c _ [] r); auto; [lia|eapply head_sub; [exact N|reflexivity] ].
Qed.
Lemma m_att_more w a g1 g2 l : tidy w -> style Attr a -> sem Attr a -> blank g1 -> blank g2 -> style AttNames l -> sem AttNames l -> sem AttNames (w ++ a ++ g1 ++ str "," ++ g2 ++ l).
Proof.
  intros T Sta Sa G1 G2 Stl [_ Sl]. assert (F := style_heads _ _ Stl). cbn [heads] in F. split.
  - intros b Wb. rewrite <- !app_assoc. apply tidy_no_kw; auto; [cbn; tauto|]. apply attr_word; auto. apply blank_word; auto. reflexivity.
  - intros g r G S Wr N. destruct (Sl g r G S Wr N) as (gm & m & gn & n & X & Gm & Sm & Y & Gn & Sn & R). flat.
    destruct (Sa g1 (x2c :: g2 ++ l ++ g ++ r) G1) as (Wa & ga & ma & gb & E & Ga & Sma & Xa & Gb); [so|apply blank_word; auto; reflexivity|noh|].
    exists ga, ma, gb, (x2c :: g2 ++ l ++ g ++ r). split; [rewrite <- E; apply go_name; auto; apply T|]. split; auto. split; auto. split; auto. split; auto. split; [so|].
    eapply r_next; [|exact R]. apply (go_skip e W _ [] (x2c :: g2 ++ l ++ g ++ r)); auto; [so|]. eapply chain_cons; [auto|rune x2c|exact G2|apply names_solid; auto|].
    eapply chain_cons; [auto|exact X|exact Gm|exact Sm|]. eapply chain_cons; [auto|exact Y|exact Gn|exact Sn|apply chain_nil].
Qed.
Lemma go_att_names h l g r : style AttNames l -> sem AttNames l -> blank h -> blank g -> solid r -> word_end (g ++ r) -> ~ head_in [x3c; x2c] r -> goes (RRule lAttNameList) (h ++ l ++ g ++ r) r.
Proof.
  intros St [_ Se] H G S Wr N. assert (F := style_heads _ _ St). cbn [heads] in F. destruct (Se g r G S Wr N) as (gm & m & gn & n & X & Gm & Sm & Y & Gn & Sn & R).
  eapply go_rule; [apply is_AttNameList; auto|]. apply go_skip; auto; [apply names_solid; auto|]. eapply chain_cons; [auto|exact X|exact Gm|exact Sm|]. eapply chain_cons; [auto|exact Y|exact Gn|exact Sn|].
  eapply chain_go; [auto|apply go_zom; exact R|exact S|apply chain_nil].
Qed.

(* ---------------------------------------------------------------- variables *)

Lemma m_var w l t : tidy w -> style (Suffixes l) t -> sem (Suffixes l) t -> l <> Some true -> sem OneVar (w ++ t).
Proof.
  intros T St Se Nl g r F. destruct (Se g r F) as (h & q & E & H & X & El). rewrite <- app_assoc, E.
  assert (We : word_end (h ++ q)) by (rewrite <- E; eapply suffix_word; [apply (style_heads _ _ St)|apply fol_word; auto]).
  destruct (go_var e HE w h q l r (proj1 T) H We X) as (m & V & Tl). destruct l as [[]|]; [congruence|left; change (m = r) in Tl; subst m; exact V|]. right. change (m = h ++ r) in Tl. subst m. rewrite <- (El eq_refl). exact V.
Qed.
Lemma no_comma_var b : solid b -> ~ head_in [x2c] b -> balks COMMA_VAR b.
Proof. intros S N. apply (no_skip_rune e W x2c 0x2c _ [] b); auto. lia. Qed.
Lemma m_var_one v : sem OneVar v -> sem Vars v.
Proof.
  intros Se g r F N. destruct (loose_gap e _ _ g r (proj1 F) (Se g r F)) as (h & H & X). exists h, r. split; auto. split; auto. assert (S : solid r) by apply F. split; auto. apply r_stop, no_comma_var; auto.
Qed.
Lemma vars_solid v b : style Vars v -> solid (v ++ b).
Proof. intros St. destruct (style_heads _ _ St) as (w & u & -> & T & _). rewrite <- app_assoc. apply let_quiet, name_first. apply T. Qed.
Lemma m_var_more v g1 g2 l : sem OneVar v -> blank g1 -> blank g2 -> style Vars l -> sem Vars l -> sem Vars (v ++ g1 ++ str "," ++ g2 ++ l).
Proof.
  intros Sv G1 G2 St Sl g r F N. destruct (Sl g r F N) as (g3 & m & X & G3 & Sm & R). flat.
  destruct (loose_gap e (RRule lVar) (v ++ g1 ++ x2c :: g2 ++ l ++ g ++ r) g1 (x2c :: g2 ++ l ++ g ++ r) G1) as (h & H & Y); [apply Sv, fol_byte; auto; cbn; tauto|]. exists h, (x2c :: g2 ++ l ++ g ++ r). split; auto. split; auto. split; [so|].
  eapply r_next; [|exact R]. apply (go_skip e W _ [] (x2c :: g2 ++ l ++ g ++ r)); auto; [so|]. eapply chain_cons; [auto|rune x2c|exact G2|apply vars_solid; auto|].
  eapply chain_cons; [auto|exact X|exact G3|exact Sm|apply chain_nil].
Qed.
Lemma go_vars h v g r : style Vars v -> sem Vars v -> blank h -> fol g r -> ~ head_in [x2c] r -> goes (RRule lVarList) (h ++ v ++ g ++ r) r.
Proof.
  intros St Se H F N. destruct (Se g r F N) as (g3 & m & X & G3 & Sm & R). eapply go_rule; [apply is_VarList; auto|]. apply go_skip; auto; [apply vars_solid; auto|].
  eapply chain_cons; [auto|exact X|exact G3|exact Sm|]. eapply chain_go; [auto|apply go_zom; exact R|apply F|apply chain_nil].
Qed.
End List.
