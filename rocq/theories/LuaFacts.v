(** LuaFacts.v - readers of grammar/lua.go: alternatives of literals, long brackets. *)
From Verif Require Export PegTotal PegBytes SpecLua Lua.
From Coq Require Import Lia ZifyBool.
From Verif Require Import ReaderSteps Peg.

(* ------------------------------------------------ alternatives of literals *)

Fixpoint first_lit (ls : list bytes) (b : bytes) : option bytes :=
  match ls with [] => None | x :: t => if has_prefix b x then Some x else first_lit t b end.
Lemma first_lit_some ls b x : first_lit ls b = Some x -> In x ls /\ begins b x.
Proof.
  induction ls as [|y ls IH]; [discriminate|]. cbn [first_lit]. destruct (has_prefix b y) eqn:Q.
  - intros H. injection H as <-. split; [left; auto|]. apply has_prefix_iff. auto.
  - intros H. destruct (IH H). split; [right; auto|auto].
Qed.
Lemma first_lit_none ls b : first_lit ls b = None <-> forall x, In x ls -> ~ begins b x.
Proof.
  induction ls as [|y ls IH]; cbn [first_lit]; [split; [intros _ x []|auto]|]. destruct (has_prefix b y) eqn:Q.
  - split; [discriminate|]. intros H. elim (H y (or_introl eq_refl)). apply has_prefix_iff. auto.
  - rewrite IH. split; intros H x I; [|apply H; right; auto]. destruct I as [<-|I]; [|apply H; auto]. intros B. apply has_prefix_iff in B. congruence.
Qed.
Section Peg.
Context {L : GoLib} (e : env).
Lemma any_lits ls b : match first_lit ls b with Some x => exists t, b = x ++ t /\ out e (IR (RAny (map RLit ls))) b true t | None => out e (IR (RAny (map RLit ls))) b false b end.
Proof.
  assert (H : match first_lit ls b with Some x => exists t, b = x ++ t /\ out e (IAny (map RLit ls)) b true t | None => out e (IAny (map RLit ls)) b false b end).
  { induction ls as [|y ls IH]; cbn [first_lit map]; [apply oa_nil|]. destruct (has_prefix b y) eqn:Q.
    - apply has_prefix_iff in Q as [t ->]. exists t. split; auto. apply oa_hit, o_lit.
    - rewrite has_prefix_false in Q. pose proof (o_lit_no e _ _ Q) as O. destruct (first_lit ls b) as [x|]; [destruct IH as (t & -> & X); exists t; split; auto|]; eapply oa_next; eauto. }
  destruct (first_lit ls b) as [x|]; [destruct H as (t & E & X); exists t; split; auto; apply o_any; auto|eapply o_any_no; eauto].
Qed.

(* ------------------------------------------------------------ long brackets *)

Lemma wf_cut v x t : wf_text (v ++ x :: t) -> bz x < 128 -> wf_text v.
Proof.
  intros W X. assert (Rx : rune_start x = true) by (clear -X; destruct x; first [reflexivity|exfalso; vm_compute in X; discriminate]).
  remember (length v) as n eqn:En. assert (Ln : (length v <= n)%nat) by lia. clear En. revert v Ln W. induction n as [|n IH]; intros v Ln W.
  { destruct v; [apply wf_nil|cbn in Ln; lia]. }
  destruct v as [|a v]; [apply wf_nil|]. destruct (wf_first _ W) as (r & q & Hr & E & Wt); [discriminate|].
  destruct (Nat.le_gt_cases (length (utf8 r)) (length (a :: v))) as [G|G].
  - symmetry in E. destruct (app_split_le _ _ _ _ E G) as (m & Em & Em'). rewrite Em. apply wf_app; [apply wf_rune; auto|]. apply IH; [|congruence].
    apply (f_equal (@length _)) in Em. rewrite app_length in Em. pose proof (utf8_length_pos r). cbn [length] in *. lia.
  - exfalso. destruct (app_split_le _ _ _ _ E (Nat.lt_le_incl _ _ G)) as (m & Em & Em'). destruct m as [|z m]; [rewrite app_nil_r in Em; rewrite Em in G; lia|].
    injection Em' as -> _. destruct (utf8_shape r Hr) as (b & c & S & _ & F & _). rewrite S in Em. injection Em as -> ->. apply Forall_app in F as [_ F]. inversion F; subst. congruence.
Qed.
Lemma past_skip r (P Q : cells -> Prop) v t ok b' : wf_text v ->
  (forall c v1 v2, P c -> v = v1 ++ v2 -> v2 <> [] -> exists c1, P c1 /\ eats e (IR r) c (v2 ++ t) false c1 (v2 ++ t)) ->
  (forall c, P c -> exists c', Q c' /\ eats e (IPast r) c t ok c' b') -> forall c, P c -> exists c', Q c' /\ eats e (IPast r) c (v ++ t) ok c' b'.
Proof.
  intros (rs & F & ->) H D. induction F as [|q rs Hq F IH]; auto. cbn [utf8s flat_map] in *. change (flat_map utf8 rs) with (utf8s rs) in *.
  assert (Nn : utf8 q ++ utf8s rs <> []) by (pose proof (utf8_nonnil q); destruct (utf8 q); [congruence|discriminate]).
  intros c Pc. destruct (H c [] _ Pc eq_refl Nn) as (c1 & P1 & D1). destruct (IH) with (c := c1) as (c' & Qc & D2); auto.
  { intros c2 v1 v2 P2 E2 N2. apply (H c2 (utf8 q ++ v1) v2); auto. rewrite E2, app_assoc. auto. }
  exists c'. split; auto. eapply i_past_next; [|exact D1|].
  - destruct (utf8 q ++ utf8s rs); [congruence|discriminate].
  - rewrite <- app_assoc, step_utf8 by auto. exact D2.
Qed.
Definition long_end (i : nat) : reader := RSeq [RRune 0x5d; RJanusEnd i []; RRune 0x5d].
Lemma rune_yes x b : bz x < 128 -> out e (IR (RRune (bz x))) (x :: b) true b.
Proof. intros X. eapply o_takes_yes; [apply takes_byte, rb_rune; split; [apply bz_range|auto]|]. unfold is. lia. Qed.
Lemma rune_no x b : bz x < 128 -> ~ begins b [x] -> out e (IR (RRune (bz x))) b false b.
Proof.
  intros X H. eapply o_takes_no; [apply takes_byte, rb_rune; split; [apply bz_range|auto]|]. destruct b as [|y b]; auto. cbn [first]. unfold is.
  destruct (bz y =? bz x) eqn:Q; auto. apply Z.eqb_eq, bz_inj in Q. subst. elim H. exists b. auto.
Qed.
(** The three outcomes of a closing bracket. *)
Lemma end_far i c b : ~ begins b (x5d :: get [] c i) -> eats e (IR (long_end i)) c b false c b.
Proof.
  intros N. destruct (lit_cases [x5d] b) as [[t ->]|H].
  - apply (e_seq e _ c _ false c t). eapply i_seq_next; [apply (rune_yes x5d t); reflexivity|]. apply i_seq_stop, e_end_no. intros q ->. apply N. exists q. auto.
  - apply (e_seq e _ c b false c b). apply i_seq_stop. apply (rune_no x5d b); [reflexivity|]. intros [q E]. apply (H q E).
Qed.
Lemma end_near i c w : ~ begins w [x5d] -> eats e (IR (long_end i)) c ((x5d :: get [] c i) ++ w) false (put [] c i []) ((x5d :: get [] c i) ++ w).
Proof.
  intros N. apply (e_seq e _ c _ false (put [] c i []) w). eapply i_seq_next; [apply (rune_yes x5d); reflexivity|]. eapply i_seq_next; [apply e_end_yes|].
  apply i_seq_stop. apply (rune_no x5d w); [reflexivity|auto].
Qed.
Lemma end_here i c t : eats e (IR (long_end i)) c ((x5d :: get [] c i ++ [x5d]) ++ t) true (put [] c i []) t.
Proof.
  replace ((x5d :: get [] c i ++ [x5d]) ++ t) with (x5d :: get [] c i ++ x5d :: t) by (cbn [app]; rewrite <- app_assoc; reflexivity).
  apply (e_seq e _ c _ true (put [] c i []) t). eapply i_seq_next; [apply (rune_yes x5d); reflexivity|]. eapply i_seq_next; [apply e_end_yes|].
  eapply i_seq_next; [apply (rune_yes x5d); reflexivity|]. apply i_seq_nil.
Qed.

Definition at_level (i k : nat) (c : cells) : Prop := get [] c i = eqs k.
Lemma level_put i k c : at_level i k (put [] c i (eqs k)).
Proof. apply get_put_same. Qed.
Lemma before_first b v x v1 v2 : first_at b v x -> v = v1 ++ v2 -> v2 <> [] -> forall r q, b = v ++ r -> v2 ++ r = x ++ q -> False.
Proof.
  intros [_ H] -> N r q E1 E2. rewrite <- app_assoc, E2 in E1. specialize (H _ _ E1). rewrite app_length in H. destruct v2; [congruence|cbn in H; lia].
Qed.
Lemma past_close i k v t : wf_text v -> (k = 0%nat \/ first_at (v ++ closing k ++ t) v (near k)) -> first_at (v ++ closing k ++ t) v (closing k) ->
  forall c, at_level i k c -> exists c', at_level i 0 c' /\ eats e (IPast (long_end i)) c (v ++ closing k ++ t) true c' t.
Proof.
  intros W N F. apply past_skip with (P := at_level i k); auto.
  - intros c v1 v2 Lc Ev Nv. destruct N as [->|N].
    + destruct (lit_cases [x5d] (v2 ++ closing 0 ++ t)) as [[q E]|H].
      * exists (put [] c i []). split; [apply (level_put i 0)|]. rewrite E. pose proof (end_near i c q) as X. rewrite Lc in X. apply X. intros [q' ->].
        eapply (before_first _ _ _ _ _ F Ev Nv); [reflexivity|]. rewrite E. cbn. reflexivity.
      * exists c. split; auto. apply end_far. rewrite Lc. intros [q E]. apply (H q E).
    + exists c. split; auto. apply end_far. rewrite Lc. intros [q E]. eapply (before_first _ _ _ _ _ N Ev Nv); [reflexivity|]. exact E.
  - intros c Lc. exists (put [] c i []). split; [apply (level_put i 0)|]. apply i_past_hit; [discriminate|]. pose proof (end_here i c t) as X. rewrite Lc in X. exact X.
Qed.
Lemma past_none i k b : wf_text b -> ~ occurs b (if Nat.eqb k 0 then closing 0 else near k) ->
  forall c, at_level i k c -> exists c', True /\ eats e (IPast (long_end i)) c b false c' [].
Proof.
  intros W N. rewrite <- (app_nil_r b). apply past_skip with (P := at_level i k); auto; [|intros c Lc; exists c; split; auto; apply i_past_end].
  intros c v1 v2 Lc Ev Nv. rewrite app_nil_r. destruct (Nat.eqb_spec k 0) as [->|K].
  - destruct (lit_cases [x5d] v2) as [[q ->]|H].
    + exists (put [] c i []). split; [apply (level_put i 0)|]. pose proof (end_near i c q) as X. rewrite Lc in X. apply X. intros [q' ->]. apply N. exists v1, q'. auto.
    + exists c. split; auto. apply end_far. rewrite Lc. intros [q E]. apply (H q E).
  - exists c. split; auto. apply end_far. rewrite Lc. intros [q E]. apply N. exists v1, q. rewrite Ev, E. auto.
Qed.
(** A near miss: the level is forgotten. *)
Lemma past_near i k v w ok b' (Q : cells -> Prop) : wf_text v -> first_at (v ++ near k ++ w) v (near k) -> ~ begins w [x5d] ->
  (forall c, at_level i 0 c -> exists c', Q c' /\ eats e (IPast (long_end i)) c (eqs k ++ w) ok c' b') ->
  forall c, at_level i k c -> exists c', Q c' /\ eats e (IPast (long_end i)) c (v ++ near k ++ w) ok c' b'.
Proof.
  intros W F N D. apply past_skip with (P := at_level i k); auto.
  - intros c v1 v2 Lc Ev Nv. exists c. split; auto. apply end_far. rewrite Lc. intros [q E]. eapply (before_first _ _ _ _ _ F Ev Nv); [reflexivity|]. exact E.
  - intros c Lc. destruct (D (put [] c i []) (level_put i 0 c)) as (c' & Qc & D'). exists c'. split; auto. eapply i_past_next; [discriminate| |].
    + pose proof (end_near i c w N) as X. rewrite Lc in X. exact X.
    + assert (S : step ((x5d :: eqs k) ++ w) = (true, eqs k ++ w)) by (apply (step_utf8 0x5d); left; lia). rewrite S. exact D'.
Qed.

(** The beginning of a long bracket. *)
Definition long_head (i : nat) (o : reader) : reader := RSeq [o; RJanusBeg i [] (RZom (RLit (lit "="))); RRune 0x5b].
Lemma zom_eqs k b : ~ begins b [x3d] -> out e (IRep (RLit (lit "="))) (eqs k ++ b) true b.
Proof.
  intros N. induction k as [|k IH]; cbn [eqs repeat app].
  - apply or_stop, o_lit_no. intros t E. apply N. exists t. auto.
  - eapply or_next; [apply (o_lit e (lit "="))|exact IH].
Qed.
Lemma head_janus i k c b : ~ begins b [x3d] -> eats e (IR (RJanusBeg i [] (RZom (RLit (lit "="))))) c (eqs k ++ b) true (put [] c i (eqs k)) b.
Proof. intros N. apply e_janus_yes. apply e_zom. apply zom_eqs. auto. Qed.
Lemma head_yes i o x k b c : out e (IR o) (x ++ eqs k ++ x5b :: b) true (eqs k ++ x5b :: b) ->
  eats e (IR (long_head i o)) c (x ++ eqs k ++ x5b :: b) true (put [] c i (eqs k)) b.
Proof.
  intros O. apply (e_seq e _ c _ true (put [] c i (eqs k)) b). eapply i_seq_next; [apply O|]. eapply i_seq_next; [apply head_janus; intros [q E]; discriminate|].
  eapply i_seq_next; [apply (rune_yes x5b); reflexivity|apply i_seq_nil].
Qed.
Lemma head_no i o x k b c : out e (IR o) (x ++ eqs k ++ b) true (eqs k ++ b) -> ~ begins b [x3d] -> ~ begins b [x5b] ->
  eats e (IR (long_head i o)) c (x ++ eqs k ++ b) false (put [] c i (eqs k)) (x ++ eqs k ++ b).
Proof.
  intros O N1 N2. apply (e_seq e _ c _ false (put [] c i (eqs k)) b). eapply i_seq_next; [apply O|]. eapply i_seq_next; [apply head_janus; auto|].
  apply i_seq_stop. apply (rune_no x5b); [reflexivity|auto].
Qed.
End Peg.

Lemma first_cases x b : x <> [] -> (exists v t, b = v ++ x ++ t /\ first_at b v x) \/ ~ occurs b x.
Proof.
  intros N. induction b as [|a b IH].
  - right. intros (v & t & E). destruct v; [destruct x; [congruence|discriminate]|discriminate].
  - destruct (lit_cases x (a :: b)) as [[t E]|H].
    + left. exists [], t. split; auto. split; [exists t; exact E|]. intros v' t' _. apply Nat.le_0_l.
    + destruct IH as [(v & t & E & [B F])|M].
      * left. exists (a :: v), t. split; [cbn; congruence|]. split; [destruct B as [q B]; exists q; cbn; congruence|].
        intros v' t' E'. destruct v' as [|a' v']; [elim (H t' E')|]. injection E' as _ E'. specialize (F _ _ E'). cbn. lia.
      * right. intros (v & t & E). destruct v as [|a' v]; [elim (H t E)|]. injection E as _ E. apply M. exists v, t. auto.
Qed.
Lemma eqs_snoc k q : near k ++ x5d :: q = closing k ++ q.
Proof. unfold near, closing. cbn [app]. rewrite <- app_assoc. reflexivity. Qed.
Lemma wf_behind v x t : wf_text (v ++ x :: t) -> bz x < 128 -> wf_text t.
Proof.
  intros W X. assert (Wv : wf_text v) by (eapply wf_cut; eauto). apply (wf_rest (v ++ [x])); [|rewrite <- app_assoc; exact W]. apply wf_app; auto.
  replace [x] with (utf8 (bz x)); [apply wf_rune; left; pose proof (bz_range x); lia|]. clear -X. destruct x; first [reflexivity|exfalso; vm_compute in X; discriminate].
Qed.
Section Long.
Context {L : GoLib} (e : env) (i : nat).
Lemma past_true k b rest : wf_text b -> long_ends k b rest -> forall c, at_level i k c -> exists c', at_level i 0 c' /\ eats e (IPast (long_end i)) c b true c' rest.
Proof.
  intros W H. destruct H as [v rest Eb F N|v w v2 rest K Eb F N E2 F2]; rewrite Eb in *.
  - apply past_close; auto. eapply wf_cut; [exact W|reflexivity].
  - assert (Ww : wf_text (eqs k ++ w)) by (eapply wf_behind; [exact W|reflexivity]).
    apply past_near; auto; [eapply wf_cut; [exact W|reflexivity]|]. rewrite E2 in *. apply (past_close e i 0); auto. eapply wf_cut; [exact Ww|reflexivity].
Qed.
Lemma past_run k b : wf_text b -> (exists rest, long_ends k b rest) \/ (forall c, at_level i k c -> exists c', True /\ eats e (IPast (long_end i)) c b false c' []).
Proof.
  intros W. destruct (Nat.eq_dec k 0) as [->|K].
  - destruct (first_cases (closing 0) b) as [(v & t & E & F)|N]; [discriminate| |].
    + left. exists t. eapply le_close; eauto.
    + right. apply past_none; auto.
  - destruct (first_cases (near k) b) as [(v & t & E & F)|N]; [discriminate| |].
    + destruct (lit_cases [x5d] t) as [[q Et]|M].
      * left. exists q. subst t. cbn [app] in E. rewrite eqs_snoc in E. eapply le_close; eauto. split; [exists q; rewrite <- app_assoc; exact E|].
        intros v' t' E'. apply (proj2 F v' (x5d :: t')). rewrite E', <- eqs_snoc. reflexivity.
      * assert (Mb : ~ begins t [x5d]) by (intros [q Q]; apply (M q Q)).
        destruct (first_cases (closing 0) (eqs k ++ t)) as [(v2 & t2 & E2 & F2)|N2]; [discriminate| |].
        -- left. exists t2. eapply le_lost; eauto. lia.
        -- right. rewrite E in *. assert (Ww : wf_text (eqs k ++ t)) by (eapply wf_behind; [exact W|reflexivity]).
           apply past_near; auto; [eapply wf_cut; [exact W|reflexivity]|]. apply (past_none e i 0); auto.
    + right. apply past_none; auto. destruct (Nat.eqb_spec k 0); [lia|auto].
Qed.
Definition long (o : reader) : reader := RSeq [long_head i o; RPast (long_end i)].
Lemma long_yes o x k b rest : out e (IR o) (x ++ eqs k ++ x5b :: b) true (eqs k ++ x5b :: b) -> wf_text b -> long_ends k b rest ->
  forall c, exists c', eats e (IR (long o)) c (x ++ eqs k ++ x5b :: b) true c' rest.
Proof.
  intros O W H c. destruct (past_true k b rest W H (put [] c i (eqs k)) (level_put i k c)) as (c' & _ & D). exists c'.
  apply (e_seq e _ c _ true c' rest). eapply i_seq_next; [apply head_yes; auto|]. eapply i_seq_next; [apply (e_past e _ _ _ true c' rest D)|apply i_seq_nil].
Qed.
Lemma long_no o x k b : out e (IR o) (x ++ eqs k ++ x5b :: b) true (eqs k ++ x5b :: b) -> wf_text b -> (forall rest, ~ long_ends k b rest) ->
  forall c, exists c', eats e (IR (long o)) c (x ++ eqs k ++ x5b :: b) false c' (x ++ eqs k ++ x5b :: b).
Proof.
  intros O W H c. destruct (past_run k b W) as [[rest N]|N]; [elim (H rest N)|]. destruct (N (put [] c i (eqs k)) (level_put i k c)) as (c' & _ & D). exists c'.
  apply (e_seq e _ c _ false c' b). eapply i_seq_next; [apply head_yes; auto|]. apply i_seq_stop. apply (e_past e _ _ _ false c' [] D).
Qed.
Lemma long_open o x k b : out e (IR o) (x ++ eqs k ++ b) true (eqs k ++ b) -> ~ begins b [x3d] -> ~ begins b [x5b] ->
  forall c, exists c', eats e (IR (long o)) c (x ++ eqs k ++ b) false c' (x ++ eqs k ++ b).
Proof.
  intros O N1 N2 c. exists (put [] c i (eqs k)). apply (e_seq e _ c _ false _ (x ++ eqs k ++ b)). apply i_seq_stop. apply head_no; auto.
Qed.
End Long.
Lemma eqs_span b : exists k t, b = eqs k ++ t /\ ~ begins t [x3d].
Proof.
  induction b as [|a b (k & t & E & N)]; [exists 0%nat, []; split; auto; intros [q Q]; discriminate|]. destruct (lit_cases [x3d] (a :: b)) as [[q Q]|M].
  - injection Q as -> _. exists (S k), t. split; [rewrite E; reflexivity|auto].
  - exists 0%nat, (a :: b). split; auto. intros [q Q]. apply (M q Q).
Qed.
