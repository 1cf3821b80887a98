(** LuaStyleExp.v - suffixes, variables, operands and expressions of the style are read. *)
From Verif Require Export LuaStyleHead.
From Coq Require Import Lia ZifyBool.
From Verif Require Import ReaderSteps ReaderScan.

Section Exp.
Context {L : GoLib} (e : env) (HE : forall i, r_reader (get_rule e i) = nth_error lua_readers i).
Notation goes := (goes e). Notation balks := (balks e). Notation rounds := (rounds e). Notation chain := (chain e). Notation broken := (broken e).
Notation W := (RZom ws). Notation C := lua_skiper.
Let Sw : skips e W := skips_w e.
Let Sc : skips e C := skips_c e HE.
Hint Resolve Sw Sc blank_nil : core.

(** [r] is reached, or the white space before it. *)
Definition loose (R : reader) (b g r : bytes) : Prop := goes R b r \/ goes R b (g ++ r).
Lemma loose_gap R b g r : blank g -> loose R b g r -> exists h, blank h /\ goes R b (h ++ r).
Proof. intros G [H|H]; [exists []; auto|exists g; auto]. Qed.
Lemma chain_loose sk r rs b g b1 b' : skips e sk -> loose r b g b1 -> blank g -> solid b1 -> chain sk rs b1 b' -> chain sk (r :: rs) b b'.
Proof. intros K [H|H] G S X; [eapply chain_cons with (g := []); eauto|eapply chain_cons; eauto]. Qed.
Lemma broken_loose sk r rs b g b1 : skips e sk -> loose r b g b1 -> blank g -> solid b1 -> broken sk rs b1 -> broken sk (r :: rs) b.
Proof. intros K [H|H] G S X; [eapply broken_next with (g := []); eauto|eapply broken_next; eauto]. Qed.
Lemma chain_go sk r rs b b1 b' : skips e sk -> goes r b b1 -> solid b1 -> chain sk rs b1 b' -> chain sk (r :: rs) b b'.
Proof. intros K H S X. eapply chain_cons with (g := []); eauto. Qed.
Lemma loose_rule i r b g q : r_reader (get_rule e i) = Some r -> loose r b g q -> loose (RRule i) b g q.
Proof. intros E [H|H]; [left|right]; eapply go_rule; eauto. Qed.
Lemma loose_next r rs b g q : balks r b -> loose (RAny rs) b g q -> loose (RAny (r :: rs)) b g q.
Proof. intros N [H|H]; [left|right]; apply any_next; auto. Qed.
Lemma loose_hit r rs b g q : loose r b g q -> loose (RAny (r :: rs)) b g q.
Proof. intros [H|H]; [left|right]; apply any_hit; auto. Qed.

(* ---------------------------------------------------------------- suffixes *)

(** [sfx l q r]: suffixes from [q] to [r], the last of them is [l]. *)
Inductive sfx : option bool -> bytes -> bytes -> Prop :=
| x_end r : quiet r -> sfx None r r
| x_call l x q r : solid x -> call_head x -> (forall h, blank h -> goes NA (h ++ x) q) -> (length q < length x)%nat -> sfx l q r -> sfx (last_is l true) x r
| x_idx l x h q r : solid x -> no_call x -> goes IDX x (h ++ q) -> blank h -> sfx l q r -> sfx (last_is l false) x r.
Lemma sfx_solid l q r : sfx l q r -> solid q.
Proof. intros H. destruct H; auto. apply H. Qed.
Lemma sfx_quiet l q r : sfx l q r -> quiet r.
Proof. induction 1; auto. Qed.
Lemma sfx_none q r : sfx None q r -> q = r.
Proof. intros H. inversion H as [| l ? ? ? ? ? ? ? ? E|l ? ? ? ? ? ? ? ? ? E]; auto; destruct l; discriminate E. Qed.
(** Where Var stops; [h] is the white space before the first suffix. *)
Definition tail (l : option bool) (h m r : bytes) : Prop :=
  match l with
  | None => m = h ++ r
  | Some false => m = r
  | Some true => exists g q q1, blank g /\ m = g ++ q /\ call_head q /\ solid q /\ (forall h, blank h -> goes NA (h ++ q) q1) /\ (length q1 < length q)%nat /\ rounds NA q1 r
  end.
Lemma last_is_some l b : last_is (Some l) b = Some l. Proof. reflexivity. Qed.
Lemma suffix_goes h q gn n hy y : blank h -> solid q -> blank gn -> no_call n -> rounds NA q (gn ++ n) -> goes IDX n (hy ++ y) -> blank hy -> solid y -> goes (RRule lVarSuffix) (h ++ q) y.
Proof.
  intros H S Gn NC R I Hy Sy. eapply go_rule; [apply is_VarSuffix; auto|]. apply go_skip; auto.
  eapply chain_cons; auto; [apply go_zom; exact R|exact Gn|apply NC|]. eapply chain_cons; [auto|exact I|auto|auto|apply chain_nil].
Qed.
(** Without an index Var does not go on, with one it does. *)
Lemma sfx_cases l q r : sfx l q r ->
  (l <> Some false /\ rounds NA q r /\ forall h, blank h -> balks (RRule lVarSuffix) (h ++ q) /\ tail l h (h ++ q) r) \/
  (exists gn n hy y m, l <> None /\ blank gn /\ no_call n /\ rounds NA q (gn ++ n) /\ goes IDX n (hy ++ y) /\ blank hy /\ solid y /\ rounds (RRule lVarSuffix) y m /\ tail l [] m r).
Proof.
  induction 1 as [r Q|l x q r S CH G Lt X IH|l x hy q r S NC G Hy X IH].
  - left. split; [discriminate|]. split; [apply r_stop; apply (no_na e HE []); auto; apply quiet_no_call; auto|]. intros h H. split; [apply no_suffix; auto|reflexivity].
  - destruct IH as [(Nl & R & T)|(gn & n & hy & y & m & Nl & Gn & NC & R & I & Hy & Sy & Rm & T)].
    + left. assert (last_is l true = Some true) as -> by (destruct l as [[]|]; [reflexivity|congruence|reflexivity]). split; [discriminate|].
      assert (R' : rounds NA x r) by (eapply r_next; [apply (G []); auto|exact R]). split; [exact R'|]. intros h H. split; [|exists h, x, q; repeat (split; auto)].
      eapply no_rule; [apply is_VarSuffix; auto|]. apply no_skip; auto. eapply broken_next with (g := []) (b1 := r); auto; [apply go_zom; exact R'|apply (sfx_quiet _ _ _ X)|].
      apply broken_here, no_idx; auto. apply (sfx_quiet _ _ _ X).
    + right. assert (last_is l true = l) as -> by (destruct l; [reflexivity|congruence]). exists gn, n, hy, y, m. repeat (split; auto). eapply r_next; [apply (G []); auto|exact R].
  - right. exists [], x, hy, q.
    assert (S0 : rounds NA x ([] ++ x)) by (apply r_stop; apply (no_na e HE []); auto).
    destruct IH as [(Nl & R & T)|(gn & n & hy' & y & m & Nl & Gn & NC' & R & I & Hy' & Sy & Rm & T)].
    + exists q. destruct (T [] blank_nil) as [B T']. cbn [app] in B, T'. split; [destruct l; discriminate|]. repeat (split; auto); try apply (sfx_solid _ _ _ X). { apply r_stop. auto. }
      destruct l as [[]|]; [exact T'|congruence|exact T'].
    + exists m. split; [destruct l; discriminate|]. repeat (split; auto); try apply (sfx_solid _ _ _ X); [|destruct l; [exact T|congruence]].
      eapply r_next; [|exact Rm]. apply (suffix_goes [] q gn n hy' y); auto. apply (sfx_solid _ _ _ X).
Qed.
Lemma sfx_suffixes l q r : sfx l q r -> forall h, blank h -> exists m, rounds (RRule lVarSuffix) (h ++ q) m /\ tail l h m r.
Proof.
  intros X h H. destruct (sfx_cases l q r X) as [(_ & _ & T)|(gn & n & hy & y & m & Nl & Gn & NC & R & I & Hy & Sy & Rm & T)].
  - destruct (T h H) as [B T']. exists (h ++ q). split; auto. apply r_stop. auto.
  - exists m. split; [|destruct l; [exact T|congruence]]. eapply r_next; [|exact Rm]. apply (suffix_goes h q gn n hy y); auto. apply (sfx_solid _ _ _ X).
Qed.
Lemma go_var w h q l r : l_name w -> blank h -> word_end (h ++ q) -> sfx l q r -> exists m, goes (RRule lVar) (w ++ h ++ q) m /\ tail l h m r.
Proof.
  intros N H E X. destruct (sfx_suffixes l q r X h H) as (m & R & T). exists m. split; auto. eapply go_rule; [apply is_Var; auto|]. apply go_seq.
  eapply seqs_cons; [apply any_hit, go_name; auto|]. eapply seqs_cons; [apply go_zom; exact R|apply seqs_nil].
Qed.
(** The end of a chain: what NA reads from where Var stopped *)
Lemma tail_calls l h m r : blank h -> quiet r -> tail l h m r -> exists g, rounds NA m (g ++ r) /\ (match l with None => g = h | _ => g = [] end).
Proof.
  intros H Q T. destruct l as [[]|]; cbn [tail] in T.
  - destruct T as (g & q & q1 & G & -> & _ & _ & N & _ & R). exists []. split; auto. eapply r_next; [apply N; auto|exact R].
  - subst m. exists []. split; auto. apply r_stop. apply (no_na e HE []); auto. apply quiet_no_call. auto.
  - subst m. exists h. split; auto. apply r_stop. apply no_na; auto. apply quiet_no_call. auto.
Qed.
Lemma go_prefix_name w h q l r : l_name w -> blank h -> word_end (h ++ q) -> sfx l q r ->
  exists g, goes (RRule lPrefixExp) (w ++ h ++ q) (g ++ r) /\ (match l with None => g = h | _ => g = [] end).
Proof.
  intros N H E X. destruct (go_var w h q l r N H E X) as (m & V & T). destruct (tail_calls l h m r H (sfx_quiet _ _ _ X) T) as (g & R & G). exists g. split; auto.
  eapply go_rule; [apply is_PrefixExp; auto|]. apply go_seq. eapply seqs_cons; [apply any_hit; exact V|]. eapply seqs_cons; [apply go_zom; exact R|apply seqs_nil].
Qed.
(** An expression in parentheses, from behind the parenthesis *)
Lemma go_prefix_paren g1 x g2 h q l r : blank g1 -> solid (x ++ g2 ++ x29 :: h ++ q) -> blank g2 -> loose (RRule lExp) (x ++ g2 ++ x29 :: h ++ q) g2 (x29 :: h ++ q) -> blank h -> sfx l q r ->
  goes (RRule lPrefixExp) (x28 :: g1 ++ x ++ g2 ++ x29 :: h ++ q) r.
Proof.
  intros G1 Sx G2 E H X. pose proof (sfx_solid _ _ _ X) as Sq.
  assert (Sp : forall t, solid (x29 :: t)) by (intros t; apply solid_cons; [cbn; intuition discriminate|discriminate]).
  assert (So : forall t, solid (x28 :: t)) by (intros t; apply solid_cons; [cbn; intuition discriminate|discriminate]).
  assert (CH : forall rs b', chain C rs q b' -> chain C (RRune 0x28 :: RRule lExp :: RRune 0x29 :: rs) (x28 :: g1 ++ x ++ g2 ++ x29 :: h ++ q) b').
  { intros rs b' K. eapply chain_cons; [auto|apply (go_rune e x28); [reflexivity|lia]|exact G1|exact Sx|]. eapply chain_loose; [auto|exact E|exact G2|apply Sp|].
    eapply chain_cons; [auto|apply (go_rune e x29); [reflexivity|lia]|exact H|exact Sq|exact K]. }
  eapply go_rule; [apply is_PrefixExp; auto|]. apply go_seq. destruct (sfx_cases l q r X) as [(_ & R & T)|(gn & n & hy & y & m & Nl & Gn & NC & R & I & Hy & Sy & Rm & T)].
  - eapply seqs_cons with (b1 := q); [|eapply seqs_cons; [apply go_zom; exact R|apply seqs_nil]]. apply any_next.
    + eapply no_rule; [apply is_Var; auto|]. apply no_seq, halts_here. apply any_no; [apply no_name; auto; reflexivity|]. apply any_no; [|apply any_nil].
      apply (no_skip e C _ [] (x28 :: g1 ++ x ++ g2 ++ x29 :: h ++ q)); auto.
      eapply broken_next; [auto|apply (go_rune e x28); [reflexivity|lia]|exact G1|exact Sx|]. eapply broken_loose; [auto|exact E|exact G2|apply Sp|].
      eapply broken_next; [auto|apply (go_rune e x29); [reflexivity|lia]|exact H|exact Sq|]. apply broken_here. apply (T []). auto.
    + apply any_hit. apply (go_skip e C _ [] (x28 :: g1 ++ x ++ g2 ++ x29 :: h ++ q)); auto. apply CH. apply chain_nil.
  - destruct (tail_calls l [] m r blank_nil (sfx_quiet _ _ _ X) T) as (g & Rc & G). assert (g = []) as -> by (destruct l; [exact G|congruence]).
    eapply seqs_cons with (b1 := m); [|eapply seqs_cons; [apply go_zom; exact Rc|apply seqs_nil]]. apply any_hit.
    eapply go_rule; [apply is_Var; auto|]. apply go_seq. eapply seqs_cons with (b1 := y); [|eapply seqs_cons; [apply go_zom; exact Rm|apply seqs_nil]].
    apply any_next; [apply no_name; auto; reflexivity|]. apply any_hit. apply (go_skip e C _ [] (x28 :: g1 ++ x ++ g2 ++ x29 :: h ++ q)); auto. apply CH.
    eapply chain_go; [auto| |exact Sy|apply chain_nil]. apply (suffix_goes [] q gn n hy y); auto.
Qed.

(* ---------------------------------------------------------------- arguments and indices *)

Lemma so_byte x t : ~ In x (x2d :: whites) -> solid (x :: t).
Proof. intros N. apply solid_cons; [intros I; apply N; right; auto|intros ->; apply N; left; auto]. Qed.
Ltac so := apply so_byte; cbn; intuition discriminate.

Lemma go_args_none g g2 q : blank g -> blank g2 -> solid q -> goes (RRule lFuncArgs) (x28 :: g ++ x29 :: g2 ++ q) q.
Proof.
  intros G G2 S. eapply go_rule; [apply is_Args; auto|]. apply any_hit. apply (go_skip e C _ [] (x28 :: g ++ x29 :: g2 ++ q)); auto; [so|].
  eapply chain_cons; [auto|apply (go_rune e x28); [reflexivity|lia]|exact G|so|]. eapply chain_go with (b1 := x29 :: g2 ++ q); [auto| |so|].
  - apply go_opt_no. apply (no_exps_list e HE []); auto. right. cbn. tauto.
  - eapply chain_cons; [auto|apply (go_rune e x29); [reflexivity|lia]|exact G2|exact S|apply chain_nil].
Qed.
Lemma go_args_list g1 b g2 q : blank g1 -> solid b -> goes (RRule lExpList) b (x29 :: g2 ++ q) -> blank g2 -> solid q -> goes (RRule lFuncArgs) (x28 :: g1 ++ b) q.
Proof.
  intros G1 Sb E G2 S. eapply go_rule; [apply is_Args; auto|]. apply any_hit. apply (go_skip e C _ [] (x28 :: g1 ++ b)); auto; [so|].
  eapply chain_cons; [auto|apply (go_rune e x28); [reflexivity|lia]|exact G1|exact Sb|]. eapply chain_go; [auto|apply go_opt; exact E|so|].
  eapply chain_cons; [auto|apply (go_rune e x29); [reflexivity|lia]|exact G2|exact S|apply chain_nil].
Qed.
Lemma go_args_table b q : (exists u, b = x7b :: u) -> goes (RRule lTableConstructor) b q -> goes (RRule lFuncArgs) b q.
Proof.
  intros [u ->] T. eapply go_rule; [apply is_Args; auto|]. apply any_next; [|apply any_hit; exact T]. apply (no_skip_rune e C x28 0x28 _ [] (x7b :: u)); auto; [lia|so|cbn; intuition discriminate].
Qed.
Lemma go_args_string q u r : quote_ q -> l_chars q u -> goes (RRule lFuncArgs) (q :: u ++ q :: r) r.
Proof.
  intros Q U. assert (S : solid (q :: u ++ q :: r)) by (apply so_byte; cbn in Q; cbn; intuition (subst; discriminate)).
  eapply go_rule; [apply is_Args; auto|]. apply any_next; [|apply any_next; [|apply any_hit, go_string; auto]].
  - apply (no_skip_rune e C x28 0x28 _ [] (q :: u ++ q :: r)); auto; [lia|cbn in Q; cbn; intuition (subst; discriminate)].
  - apply (no_table e HE [] (q :: u ++ q :: r)); auto. cbn in Q; cbn; intuition (subst; discriminate).
Qed.
Lemma go_na_plain h x g q : blank h -> solid x -> head_in [x28; x7b; x22; x27] x -> loose (RRule lFuncArgs) x g q -> blank g -> solid q -> goes NA (h ++ x) q.
Proof.
  intros H S I A G Sq. apply go_skip; auto. eapply chain_go with (b1 := x); [auto| |auto|].
  - apply go_opt_no. apply no_seq, halts_here. eapply (no_rune e x3a); [reflexivity|lia|]. destruct x; cbn in *; intuition (subst; discriminate).
  - eapply chain_loose; [auto|exact A|exact G|exact Sq|apply chain_nil].
Qed.
Lemma go_na_method h w g1 x g q : blank h -> l_name w -> blank g1 -> solid x -> head_in [x28; x7b; x22; x27] x -> loose (RRule lFuncArgs) x g q -> blank g -> solid q -> goes NA (h ++ x3a :: w ++ g1 ++ x) q.
Proof.
  intros H N G1 S I A G Sq. apply go_skip; auto; [so|]. eapply chain_cons with (g := g1) (b1 := x); [auto| |auto|auto|].
  - apply go_opt. apply go_seq. eapply seqs_cons; [apply (go_rune e x3a); [reflexivity|lia]|]. eapply seqs_cons; [apply go_name; auto|apply seqs_nil].
    apply blank_word; auto. intros _. unfold word_end. destruct x; [reflexivity|]. cbn in *. intuition (subst; reflexivity).
  - eapply chain_loose; [auto|exact A|exact G|exact Sq|apply chain_nil].
Qed.
Lemma go_idx_key g1 b g2 g3 q : blank g1 -> solid b -> loose (RRule lExp) b g2 (x5d :: g3 ++ q) -> blank g2 -> blank g3 -> solid q -> goes IDX (x5b :: g1 ++ b) q.
Proof.
  intros G1 Sb E G2 G3 S. apply any_hit. apply (go_skip e C _ [] (x5b :: g1 ++ b)); auto; [so|].
  eapply chain_cons; [auto|apply (go_rune e x5b); [reflexivity|lia]|exact G1|exact Sb|]. eapply chain_loose; [auto|exact E|exact G2|so|].
  eapply chain_cons; [auto|apply (go_rune e x5d); [reflexivity|lia]|exact G3|exact S|apply chain_nil].
Qed.
Lemma go_idx_dot w r : l_name w -> word_end r -> goes IDX (x2e :: w ++ r) r.
Proof.
  intros N E. apply any_next; [|apply any_hit, go_seq].
  - apply (no_skip_rune e C x5b 0x5b _ [] (x2e :: w ++ r)); auto; [lia|so|cbn; intuition discriminate].
  - eapply seqs_cons; [apply (go_rune e x2e); [reflexivity|lia]|]. eapply seqs_cons; [apply go_name; auto|apply seqs_nil].
Qed.
Lemma key_no_call g1 b : blank g1 -> ~ head_in [x3d; x5b] b -> no_call (x5b :: g1 ++ b).
Proof.
  intros G N. split; [so|]. split; [cbn; intuition discriminate|]. split; [|intros t E; discriminate]. intros t E. injection E as <-. destruct G as [|y g Y G]; [exact N|]. cbn in *. intuition (subst; discriminate).
Qed.
Lemma dot_no_call t : no_call (x2e :: t).
Proof. split; [so|]. split; [cbn; intuition discriminate|]. split; intros u E; discriminate. Qed.

(* ---------------------------------------------------------------- operands *)

(** FinalExp: the alternatives before strings, and before tables *)
Definition final_from (n : nat) : reader := RAny (skipn n [RLit (lit "nil"); RLit (lit "false"); RLit (lit "true"); lua_numeral; RRule lLiteralString; RLit (lit "...");
  RRule lFuncDef; RSkipSeq C [RRule lUnOp; RRule lExp]; RRule lTableConstructor; RRule lPrefixExp]).
Definition no_word (b : bytes) : Prop := forall k, In k (map lit ["nil"; "false"; "true"; "function"; "not"]%string) -> ~ begins b k.
Lemma final_3 b g r : no_word b -> loose (final_from 3) b g r -> loose (RRule lFinalExp) b g r.
Proof.
  intros N H. eapply loose_rule; [apply is_FinalExp; auto|]. apply loose_next; [apply no_lit, N; cbn; tauto|]. apply loose_next; [apply no_lit, N; cbn; tauto|].
  apply loose_next; [apply no_lit, N; cbn; tauto|]. exact H.
Qed.
Lemma final_6 b g r : no_word b -> first d_dig b = false -> ~ head_in [x22; x27; x5b] b -> ~ begins b (lit "...") -> loose (final_from 6) b g r -> loose (RRule lFinalExp) b g r.
Proof.
  intros N D S V H. apply final_3; auto. apply loose_next; [apply no_numeral; auto|]. apply loose_next; [apply no_string; auto|]. apply loose_next; [apply no_lit; auto|]. exact H.
Qed.
Lemma final_8 b g r : solid b -> no_word b -> first d_dig b = false -> ~ head_in [x22; x27; x5b; x2d; x23; x7e] b -> ~ begins b (lit "...") -> loose (final_from 8) b g r -> loose (RRule lFinalExp) b g r.
Proof.
  intros Sb N D S V H. apply final_6; auto; [eapply head_sub; [exact S|reflexivity]|]. apply loose_next; [|apply loose_next; [|exact H]].
  - eapply no_rule; [apply is_FuncDef; auto|]. apply (no_skip_lit e W _ _ [] b); auto. apply N. cbn. tauto.
  - apply (no_skip e C _ [] b); auto. apply broken_here. eapply no_rule; [apply is_UnOp; auto|]. cbn [map].
    assert (X : forall x k, In x [x2d; x23; x7e] -> ~ begins b (x :: k)) by (intros x k I [t ->]; apply S; cbn in *; tauto).
    apply any_no; [apply no_lit, X; cbn; tauto|]. apply any_no; [apply no_lit, N; cbn; tauto|]. apply any_no; [apply no_lit, X; cbn; tauto|]. apply any_no; [apply no_lit, X; cbn; tauto|]. apply any_nil.
Qed.
Lemma no_word_byte x t : ~ In x [x6e; x66; x74] -> no_word (x :: t).
Proof. intros N k I [u E]. cbn in I. repeat match type of I with _ \/ _ => destruct I as [I|I] end; try contradiction; subst k; injection E as -> _; apply N; cbn; tauto. Qed.
Lemma no_word_tidy w r : tidy w -> word_end r -> no_word (w ++ r).
Proof. intros T W k I. apply tidy_no_kw; auto. cbn in *. tauto. Qed.

Lemma op_const w g r : In w (map lit ["nil"; "false"; "true"; "..."]%string) -> loose (RRule lFinalExp) (w ++ g ++ r) g r.
Proof.
  intros I. right. cbn in I. destruct I as [<-|[<-|[<-|[<-|[]]]]].
  - eapply go_rule; [apply is_FinalExp; auto|]. apply any_hit, go_lit.
  - eapply go_rule; [apply is_FinalExp; auto|]. apply any_next; [apply no_lit; intros [t E]; discriminate|]. apply any_hit, go_lit.
  - eapply go_rule; [apply is_FinalExp; auto|]. do 2 (apply any_next; [apply no_lit; intros [t E]; discriminate|]). apply any_hit, go_lit.
  - eapply go_rule; [apply is_FinalExp; auto|]. do 3 (apply any_next; [apply no_lit; intros [t E]; discriminate|]). apply any_next; [apply no_numeral; reflexivity|].
    apply any_next; [apply no_string; auto; cbn; intuition discriminate|]. apply any_hit, go_lit.
Qed.
Lemma op_number w g r : l_numeral w -> fol g r -> loose (RRule lFinalExp) (w ++ g ++ r) g r.
Proof.
  intros N F. apply final_3; [|right; apply any_hit, go_numeral; auto]. apply num_head in N as (x & t & -> & X). apply no_word_byte. cbn. intuition (subst; discriminate).
Qed.
Lemma op_string q u g r : quote_ q -> l_chars q u -> loose (RRule lFinalExp) (q :: u ++ q :: g ++ r) g r.
Proof.
  intros Q U. apply final_3; [apply no_word_byte; cbn in Q; cbn; intuition (subst; discriminate)|]. apply loose_next; [|right; apply any_hit, go_string; auto].
  apply no_numeral. cbn in *. intuition (subst; reflexivity).
Qed.
Lemma op_table b g r : (exists u, b = x7b :: u) -> goes (RRule lTableConstructor) b r -> loose (RRule lFinalExp) b g r.
Proof.
  intros [u ->] T. apply final_8; [so|apply no_word_byte; cbn; intuition discriminate|reflexivity|cbn; intuition discriminate|intros [t E]; discriminate|].
  left. apply any_hit. exact T.
Qed.
Lemma op_name w h q l g r : tidy w -> blank h -> word_end (h ++ q) -> sfx l q r -> (l = None -> h = g) -> loose (RRule lFinalExp) (w ++ h ++ q) g r.
Proof.
  intros T H E X G. assert (F := name_first w (h ++ q) (proj1 T)). apply final_8.
  - apply let_quiet. auto.
  - apply no_word_tidy; auto.
  - destruct (w ++ h ++ q) as [|x t]; [discriminate|]. cbn in *. destruct x; try discriminate F; reflexivity.
  - apply let_first in F as (x & t & -> & Fx). cbn [head_in]. apply let_not; [apply d_let_is; auto|reflexivity].
  - intros [t Et]. rewrite Et in F. discriminate.
  - apply loose_next.
    + apply (no_table e HE [] (w ++ h ++ q)); auto; [apply let_quiet; auto|]. apply let_first in F as (x & t & -> & Fx). cbn [head_in]. apply let_not; [apply d_let_is; auto|reflexivity].
    + apply loose_hit. destruct (go_prefix_name w h q l r (proj1 T) H E X) as (g' & Gp & Eg). destruct l; [subst g'; left; exact Gp|]. subst g'. rewrite <- (G eq_refl). right. exact Gp.
Qed.
Lemma op_paren b g r : (exists u, b = x28 :: u) -> goes (RRule lPrefixExp) b r -> loose (RRule lFinalExp) b g r.
Proof.
  intros [u ->] T. apply final_8; [so|apply no_word_byte; cbn; intuition discriminate|reflexivity|cbn; intuition discriminate|intros [t E]; discriminate|].
  apply loose_next; [apply (no_table e HE [] (x28 :: u)); auto; [so|cbn; intuition discriminate]|]. left. apply any_hit. exact T.
Qed.
Lemma op_function g0 b g r : blank g0 -> solid b -> goes (RRule lFuncBody) b r -> solid r -> loose (RRule lFinalExp) (lit "function" ++ g0 ++ b) g r.
Proof.
  intros G0 Sb B Sr. left. eapply go_rule; [apply is_FinalExp; auto|]. do 3 (apply any_next; [apply no_lit; intros [t E]; discriminate|]). apply any_next; [apply no_numeral; reflexivity|].
  apply any_next; [apply no_string; auto; cbn; intuition discriminate|]. apply any_next; [apply no_lit; intros [t E]; discriminate|]. apply any_hit.
  eapply go_rule; [apply is_FuncDef; auto|]. apply (go_skip e W _ [] (lit "function" ++ g0 ++ b)); auto; [so|].
  eapply chain_cons; [auto|apply go_lit|exact G0|exact Sb|]. eapply chain_go; [auto|exact B|exact Sr|apply chain_nil].
Qed.

(* ---------------------------------------------------------------- expressions *)

Lemma exp_operand b g r : solid b -> ends true g r -> loose (RRule lFinalExp) b g r -> loose (RRule lExp) b g r.
Proof.
  intros Sb ((G & Q & _) & NB & _) F. eapply loose_rule; [apply is_Exp; auto|]. apply loose_next; [|apply loose_hit; exact F].
  apply (no_skip e W _ [] b); auto. eapply broken_loose; [auto|exact F|exact G|apply Q|]. apply broken_here, no_binop; auto.
Qed.
Lemma exp_binary b g1 o g2 x g r : solid b -> space g1 -> In o style_binops -> space g2 -> solid (x ++ g ++ r) -> loose (RRule lFinalExp) b g1 (o ++ g2 ++ x ++ g ++ r) ->
  loose (RRule lExp) (x ++ g ++ r) g r -> blank g -> solid r -> goes (RRule lExp) b r.
Proof.
  intros Sb [G1 _] O G2 Sx F X G Sr. eapply go_rule; [apply is_Exp; auto|]. apply any_hit. apply (go_skip e W _ [] b); auto.
  eapply chain_loose; [auto|exact F|exact G1|apply (binop_quiet o g2); auto|]. eapply chain_cons; [auto|apply go_binop; auto|apply G2|exact Sx|].
  eapply chain_loose; [auto|exact X|exact G|exact Sr|apply chain_nil].
Qed.
Lemma final_unop b u g0 x g r : b = u ++ g0 ++ x -> no_word b \/ (exists t, b = lit "not" ++ t) -> solid b -> first d_dig b = false -> ~ head_in [x22; x27; x5b] b -> ~ begins b (lit "...") ->
  goes (RRule lUnOp) b (g0 ++ x) -> blank g0 -> solid x -> loose (RRule lExp) x g r -> blank g -> solid r -> goes (RRule lFinalExp) b r.
Proof.
  intros Eb NW Sb D S V U G0 Sx X G Sr. eapply go_rule; [apply is_FinalExp; auto|].
  assert (NW' : forall k, In k (map lit ["nil"; "false"; "true"; "function"]%string) -> ~ begins b k).
  { intros k I. destruct NW as [NW|[t ->]]; [apply NW; cbn in *; tauto|]. intros [t' E]. cbn in I. repeat match type of I with _ \/ _ => destruct I as [I|I] end; try contradiction; subst k; discriminate E. }
  do 3 (apply any_next; [apply no_lit, NW'; cbn; tauto|]). apply any_next; [apply no_numeral; auto|]. apply any_next; [apply no_string; auto|]. apply any_next; [apply no_lit; auto|].
  apply any_next. { eapply no_rule; [apply is_FuncDef; auto|]. apply (no_skip_lit e W _ _ [] b); auto. apply NW'. cbn. tauto. }
  apply any_hit. apply (go_skip e C _ [] b); auto. eapply chain_cons; [auto|exact U|exact G0|exact Sx|]. eapply chain_loose; [auto|exact X|exact G|exact Sr|apply chain_nil].
Qed.
End Exp.
