(** LuaStyleKit.v - how readers go on or balk, whatever the Janus cells hold, and texts behind white space. *)
From Verif Require Export LuaComment SpecLuaStyle.
From Coq Require Import Lia ZifyBool.
From Verif Require Import ReaderSteps ReaderScan.

(* ---------------------------------------------------------------- texts *)

Definition head_in (l : list byte) (b : bytes) : Prop := match b with [] => False | x :: _ => In x l end.
Definition whites : list byte := [x20; x0d; x0a; x09].
(** No white space and no comment is next. *)
Definition solid (r : bytes) : Prop := ~ head_in whites r /\ ~ begins r (lit "--").
(** What is next is neither arguments nor an index. *)
Definition quiet (r : bytes) : Prop := solid r /\ ~ head_in [x28; x7b; x22; x27; x5b] r /\
  (forall t, r = x3a :: t -> exists u, t = x3a :: u) /\ (forall t, r = x2e :: t -> exists u, t = x2e :: u).
Definition stop (r : bytes) : Prop := r = [] \/ head_in [x29; x5d; x7d; x2c; x3b; x3d] r.
Definition fol (g r : bytes) : Prop := blank g /\ quiet r /\ (g = [] -> stop r).
Definition word_end (r : bytes) : Prop := first d_word r = false.
(** What may follow a statement *)
Definition next (r : bytes) : Prop := r = [] \/ head_in [x3b] r \/ begins r (lit "::") \/
  (first d_let r = true /\ ~ begins r (lit "and") /\ ~ begins r (lit "or")).

Lemma blank_app g h : blank g -> blank h -> blank (g ++ h).
Proof. intros. apply Forall_app. auto. Qed.
Lemma blank_nil : blank []. Proof. constructor. Qed.
Lemma blank_head g r x t : blank g -> g <> [] -> g ++ r = x :: t -> In x whites.
Proof. intros G N E. destruct G as [|y g Y G]; [congruence|]. injection E as -> _. exact Y. Qed.
Lemma white_no_word x : In x whites -> d_word x = false.
Proof. cbn. intuition (subst; reflexivity). Qed.
Lemma strip b : exists g q, b = g ++ q /\ blank g /\ ~ head_in whites q.
Proof.
  induction b as [|x b (g & q & -> & G & N)]; [exists [], []; split; [auto|split; [apply blank_nil|auto]]|].
  destruct (in_dec Byte.byte_eq_dec x whites) as [I|I].
  - exists (x :: g), q. split; auto. split; [constructor; auto|auto].
  - exists [], (x :: g ++ q). split; auto. split; [apply blank_nil|auto].
Qed.
Lemma strip_uniq g1 q1 g2 q2 : g1 ++ q1 = g2 ++ q2 -> blank g1 -> blank g2 -> ~ head_in whites q1 -> ~ head_in whites q2 -> g1 = g2 /\ q1 = q2.
Proof.
  revert g2. induction g1 as [|x g1 IH]; intros [|y g2] E B1 B2 N1 N2; cbn [app] in E; auto.
  - subst q1. elim N1. inversion B2; auto.
  - subst q2. elim N2. inversion B1; auto.
  - injection E as -> E. inversion B1; inversion B2; subst. destruct (IH g2) as [-> ->]; auto.
Qed.
Lemma first_head l b : forallb (fun x => bz x <? 256) l = true -> first (one_of l) b = true <-> head_in l b.
Proof. intros _. destruct b; cbn; [split; [discriminate|tauto]|apply one_of_in]. Qed.
Lemma lit_blank x k g b : blank g -> ~ In x whites -> ~ begins b (x :: k) -> ~ begins (g ++ b) (x :: k).
Proof. intros G N H [t E]. destruct G as [|y g Y G]; [apply H; exists t; auto|]. injection E as -> _. auto. Qed.

Lemma solid_nil : solid []. Proof. split; [cbn; auto|intros [t E]; discriminate]. Qed.
Lemma solid_cons x t : ~ In x whites -> x <> x2d -> solid (x :: t).
Proof. intros N D. split; [auto|]. intros [u E]. injection E as -> _. congruence. Qed.
Lemma letter_cases x : l_letter x -> ~ In x whites /\ x <> x2d.
Proof. intros H. split; [|intros ->; unfold l_letter in H; cbn in H; intuition (discriminate || lia)]. intros I. apply d_let_is in H. cbn in I. intuition (subst; discriminate). Qed.
Lemma let_first r : first d_let r = true -> exists x t, r = x :: t /\ l_letter x.
Proof. destruct r as [|x t]; [discriminate|]. cbn. intros H. exists x, t. split; auto. apply d_let_is; auto. Qed.
Lemma let_word x : d_let x = true -> d_word x = true. Proof. unfold d_word. intros ->. reflexivity. Qed.
Lemma first_let_solid r : first d_let r = true -> solid r.
Proof. intros H. apply let_first in H as (x & t & -> & X). apply letter_cases in X as [A B]. apply solid_cons; auto. Qed.
Lemma solid_quiet x t : ~ In x (whites ++ [x2d; x28; x7b; x22; x27; x5b; x3a; x2e]) -> quiet (x :: t).
Proof.
  rewrite in_app_iff. intros N. split; [apply solid_cons; [tauto|intros ->; apply N; cbn; tauto]|]. split; [cbn in *; tauto|].
  split; intros u E; injection E as -> _; elim N; cbn; tauto.
Qed.
Lemma quiet_nil : quiet [].
Proof. split; [apply solid_nil|]. split; [cbn; auto|]. split; intros t E; discriminate. Qed.
Lemma let_not x l : d_let x = true -> forallb (fun y => negb (d_let y)) l = true -> ~ In x l.
Proof. intros H F I. rewrite forallb_forall in F. specialize (F x I). rewrite H in F. discriminate. Qed.
Lemma let_quiet r : first d_let r = true -> quiet r.
Proof. intros H. apply let_first in H as (x & t & -> & X). apply solid_quiet. apply let_not; [apply d_let_is; auto|reflexivity]. Qed.
Lemma next_quiet r : next r -> quiet r.
Proof.
  intros [->|[H|[[t ->]|[H _]]]]; [apply quiet_nil| | |apply let_quiet; auto].
  - destruct r as [|x t]; [elim H|]. destruct H as [<-|[]]. apply solid_quiet. cbn. intuition discriminate.
  - split; [apply solid_cons; [cbn; intuition discriminate|discriminate]|]. split; [cbn; intuition discriminate|].
    split; intros u E; [injection E as <-; eexists; reflexivity|discriminate].
Qed.
Lemma next_not l r : next r -> forallb (fun y => negb (d_let y) && negb (is 0x3b y) && negb (is 0x3a y)) l = true -> ~ head_in l r.
Proof.
  intros N F H. rewrite forallb_forall in F. destruct r as [|x t]; [elim H|]. cbn in H. specialize (F x H).
  destruct N as [N|[N|[[u N]|[N _]]]]; [discriminate| | |].
  - destruct N as [<-|[]]. discriminate.
  - injection N as -> _. discriminate.
  - cbn in N. rewrite N in F. discriminate.
Qed.
Lemma next_no_binop r : next r -> forall o, In o lua_binops -> ~ begins r o.
Proof.
  intros N o I [t E]. destruct N as [->|[N|[[u N]|(N & A & O)]]].
  - cbn in I. repeat match type of I with _ \/ _ => destruct I as [I|I] end; subst; try discriminate; contradiction.
  - destruct r as [|x r]; [elim N|]. destruct N as [<-|[]]. cbn in I. repeat match type of I with _ \/ _ => destruct I as [I|I] end; subst; try discriminate; contradiction.
  - subst r. cbn in I. repeat match type of I with _ \/ _ => destruct I as [I|I] end; subst; try discriminate; contradiction.
  - cbn in I. repeat match type of I with _ \/ _ => destruct I as [I|I] end; subst; try discriminate N; try contradiction; [apply A|apply O]; eexists; reflexivity.
Qed.

Lemma name_first w r : l_name w -> first d_let (w ++ r) = true.
Proof. intros (x & t & -> & X & _). cbn. apply d_let_is. auto. Qed.
Lemma name_word w : l_name w -> forallb d_word w = true.
Proof. intros (x & t & -> & X & F). cbn. apply andb_true_intro. split; [apply d_word_is; auto|]. apply (all_bytes d_word_is). auto. Qed.
(** A name behind which a word ends begins with no keyword but itself. *)
Lemma word_no_kw w r k : forallb d_word k = true -> (forall t, w <> k ++ t) -> word_end r -> ~ begins (w ++ r) k.
Proof.
  intros K N W [t E]. revert k K N t E. induction w as [|x w IH]; intros k K N t E.
  - destruct k as [|y k]; [apply (N []); auto|]. cbn [app] in E. subst r. cbn in K, W. apply andb_prop in K as [K _]. unfold word_end in W. cbn in W. congruence.
  - destruct k as [|y k]; [apply (N (x :: w)); auto|]. injection E as -> E. cbn in K. apply andb_prop in K as [_ K]. apply (IH k K) with (t := t); auto.
    intros u ->. apply (N u). reflexivity.
Qed.
Lemma tidy_no_kw w r k : tidy w -> In k lua_keywords -> word_end r -> ~ begins (w ++ r) k.
Proof.
  intros [_ T] I W. apply word_no_kw; auto. clear T W. cbn in I. repeat match type of I with _ \/ _ => destruct I as [I|I] end; try contradiction; subst; reflexivity.
Qed.
Lemma tidy_ident w : tidy w -> ident w.
Proof. intros [A B]. split; auto. intros I. apply (B w []); auto. rewrite app_nil_r. auto. Qed.
Lemma kw_name k : In k lua_keywords -> l_name k.
Proof.
  intros I. assert (X : forallb (fun k => first d_let k && forallb d_word k) lua_keywords = true) by reflexivity. rewrite forallb_forall in X. apply X in I. apply andb_prop in I as [F W].
  apply let_first in F as (x & t & -> & Y). exists x, t. split; auto. split; auto. cbn in W. apply andb_prop in W as [_ W]. apply (all_bytes d_word_is). auto.
Qed.
Lemma tidy_next w r : tidy w -> word_end r -> next (w ++ r).
Proof. intros T W. right; right; right. split; [apply name_first; apply T|]. split; apply tidy_no_kw; auto; cbn; tauto. Qed.
Lemma stop_word r : stop r -> word_end r.
Proof. unfold word_end. intros [->|H]; [reflexivity|]. destruct r as [|x t]; [reflexivity|]. cbn in *. intuition (subst; reflexivity). Qed.
Lemma blank_word g r : blank g -> (g = [] -> word_end r) -> word_end (g ++ r).
Proof. intros G H. destruct G as [|x g X G]; [auto|]. unfold word_end. cbn. apply white_no_word. auto. Qed.
Lemma fol_word g r : fol g r -> word_end (g ++ r).
Proof. intros (G & _ & S). apply blank_word; auto. intros E. apply stop_word. auto. Qed.
Lemma space_word g r : space g -> word_end (g ++ r).
Proof. intros [G N]. apply blank_word; auto. congruence. Qed.

Section Kit.
Context {L : GoLib} (e : env).

(* ---------------------------------------------------------------- readers *)

(** [r] reads [b] up to [b'], or fails and goes back; the cells do not matter. *)
Definition goes (r : reader) (b b' : bytes) : Prop := forall c, exists c', eats e (IR r) c b true c' b'.
Definition balks (r : reader) (b : bytes) : Prop := forall c, exists c', eats e (IR r) c b false c' b.
Definition seqs (rs : list reader) (b b' : bytes) : Prop := forall c, exists c', eats e (ISeq rs) c b true c' b'.
Definition halts (rs : list reader) (b : bytes) : Prop := forall c, exists c' b', eats e (ISeq rs) c b false c' b'.
Inductive rounds (r : reader) : bytes -> bytes -> Prop :=
| r_stop b : balks r b -> rounds r b b
| r_next b b1 b' : goes r b b1 -> rounds r b1 b' -> rounds r b b'.

Lemma go_out r b b' : out e (IR r) b true b' -> goes r b b'.
Proof. intros H c. exists c. apply H. Qed.
Lemma no_out r b : out e (IR r) b false b -> balks r b.
Proof. intros H c. exists c. apply H. Qed.
Lemma go_rule i r b b' : r_reader (get_rule e i) = Some r -> goes r b b' -> goes (RRule i) b b'.
Proof. intros E H c. destruct (H c) as [c' D]. exists c'. eapply e_rule; eauto. Qed.
Lemma no_rule i r b : r_reader (get_rule e i) = Some r -> balks r b -> balks (RRule i) b.
Proof. intros E H c. destruct (H c) as [c' D]. exists c'. eapply e_rule; eauto. Qed.
Lemma go_opt r b b' : goes r b b' -> goes (ROpt r) b b'.
Proof. intros H c. destruct (H c) as [c' D]. exists c'. eapply e_opt; eauto. Qed.
Lemma go_opt_no r b : balks r b -> goes (ROpt r) b b.
Proof. intros H c. destruct (H c) as [c' D]. exists c'. eapply e_opt; eauto. Qed.
Lemma any_hit r rs b b' : goes r b b' -> goes (RAny (r :: rs)) b b'.
Proof. intros H c. destruct (H c) as [c' D]. exists c'. exact (e_any e _ _ _ true _ _ (i_any_hit _ _ _ _ _ _ _ D)). Qed.
Lemma any_next r rs b b' : balks r b -> goes (RAny rs) b b' -> goes (RAny (r :: rs)) b b'.
Proof.
  intros H1 H2 c. destruct (H1 c) as [c1 D1]. destruct (H2 c1) as [c' D2]. exists c'. apply (e_any e _ _ _ true _ _). eapply i_any_next; [exact D1|].
  inversion D2; subst; try discriminate. match goal with H : eats e (IAny rs) _ _ _ _ _ |- _ => exact H end.
Qed.
Lemma any_nil b : balks (RAny []) b.
Proof. intros c. exists c. exact (e_any e _ _ _ false _ _ (i_any_nil _ _ _)). Qed.
Lemma any_no r rs b : balks r b -> balks (RAny rs) b -> balks (RAny (r :: rs)) b.
Proof.
  intros H1 H2 c. destruct (H1 c) as [c1 D1]. destruct (H2 c1) as [c' D2]. inversion D2; subst; try discriminate.
  exists c'. eapply (e_any e (r :: rs) c b false c' _). eapply i_any_next; [exact D1|]. match goal with H : eats e (IAny rs) _ _ _ _ _ |- _ => exact H end.
Qed.
Lemma seqs_nil b : seqs [] b b.
Proof. intros c. exists c. apply i_seq_nil. Qed.
Lemma seqs_cons r rs b b1 b' : goes r b b1 -> seqs rs b1 b' -> seqs (r :: rs) b b'.
Proof. intros H1 H2 c. destruct (H1 c) as [c1 D1]. destruct (H2 c1) as [c' D2]. exists c'. eapply i_seq_next; eauto. Qed.
Lemma halts_here r rs b : balks r b -> halts (r :: rs) b.
Proof. intros H c. destruct (H c) as [c' D]. exists c', b. apply i_seq_stop. auto. Qed.
Lemma halts_next r rs b b1 : goes r b b1 -> halts rs b1 -> halts (r :: rs) b.
Proof. intros H1 H2 c. destruct (H1 c) as [c1 D1]. destruct (H2 c1) as (c' & b' & D2). exists c', b'. eapply i_seq_next; eauto. Qed.
Lemma go_seq rs b b' : seqs rs b b' -> goes (RSeq rs) b b'.
Proof. intros H c. destruct (H c) as [c' D]. exists c'. exact (e_seq e _ _ _ true _ _ D). Qed.
Lemma no_seq rs b : halts rs b -> balks (RSeq rs) b.
Proof. intros H c. destruct (H c) as (c' & b' & D). exists c'. exact (e_seq e _ _ _ false _ _ D). Qed.
Lemma go_rounds r b b' : rounds r b b' -> forall c, exists c', eats e (IRep r) c b true c' b'.
Proof.
  induction 1 as [b H|b b1 b' H _ IH]; intros c.
  - destruct (H c) as [c' D]. exists c'. eapply i_rep_stop; eauto.
  - destruct (H c) as [c1 D]. destruct (IH c1) as [c' D']. exists c'. eapply i_rep_next; eauto.
Qed.
Lemma go_zom r b b' : rounds r b b' -> goes (RZom r) b b'.
Proof. intros H c. destruct (go_rounds _ _ _ H c) as [c' D]. exists c'. apply e_zom. auto. Qed.
Lemma goes_short r b b' : goes r b b' -> (length b' <= length b)%nat.
Proof. intros H. destruct (H []) as [c' D]. apply eats_suffix in D as [w ->]. rewrite app_length. lia. Qed.
Lemma rounds_short r b b' : rounds r b b' -> (length b' <= length b)%nat.
Proof. induction 1; auto. apply goes_short in H. lia. Qed.
Lemma go_many r b b1 b' : goes r b b1 -> rounds r b1 b' -> (length b1 < length b)%nat -> goes (RMany r) b b'.
Proof.
  intros H R S c. destruct (go_rounds _ _ _ (r_next _ _ _ _ H R) c) as [c' D]. exists c'. apply rounds_short in R.
  replace true with (Nat.ltb (length b') (length b)) by (apply Nat.ltb_lt; lia). apply e_many. auto.
Qed.
Lemma no_many r b : balks r b -> balks (RMany r) b.
Proof.
  intros H c. destruct (go_rounds _ _ _ (r_stop _ _ H) c) as [c' D]. exists c'.
  replace false with (Nat.ltb (length b) (length b)) by apply Nat.ltb_irrefl. apply e_many. auto.
Qed.
Lemma go_lit x b : goes (RLit x) (x ++ b) b.
Proof. apply go_out, o_lit. Qed.
Lemma no_lit x b : ~ begins b x -> balks (RLit x) b.
Proof. intros H. apply no_out, o_lit_no. intros t E. apply H. exists t. auto. Qed.
Lemma go_rune x n b : bz x = n -> n < 128 -> goes (RRune n) (x :: b) b.
Proof. intros <- H. apply go_out, rune_yes. auto. Qed.
Lemma no_rune x n b : bz x = n -> n < 128 -> ~ head_in [x] b -> balks (RRune n) b.
Proof. intros <- H N. apply no_out, rune_no; auto. intros [t ->]. apply N. cbn. auto. Qed.

(** Skipping white space *)
Definition skips (sk : reader) : Prop := forall g r, blank g -> solid r -> goes sk (g ++ r) r.
(** The readers of a SkipSeq from one on, each with what is skipped behind it *)
Fixpoint behind (sk : reader) (rs : list reader) : list reader := match rs with [] => [] | r :: t => r :: sk :: behind sk t end.
Lemma interleave_behind sk rs : interleave sk rs = sk :: behind sk rs.
Proof. induction rs as [|r rs IH]; [reflexivity|]. cbn. rewrite IH. reflexivity. Qed.
Definition chain sk rs b b' := seqs (behind sk rs) b b'.
Definition broken sk rs b := halts (behind sk rs) b.
Lemma chain_nil sk b : chain sk [] b b. Proof. apply seqs_nil. Qed.
Lemma chain_cons sk r rs b g b1 b' : skips sk -> goes r b (g ++ b1) -> blank g -> solid b1 -> chain sk rs b1 b' -> chain sk (r :: rs) b b'.
Proof. intros K H G S C. eapply seqs_cons; [exact H|]. eapply seqs_cons; [apply K; auto|exact C]. Qed.
Lemma broken_here sk r rs b : balks r b -> broken sk (r :: rs) b.
Proof. apply halts_here. Qed.
Lemma broken_next sk r rs b g b1 : skips sk -> goes r b (g ++ b1) -> blank g -> solid b1 -> broken sk rs b1 -> broken sk (r :: rs) b.
Proof. intros K H G S C. eapply halts_next; [exact H|]. eapply halts_next; [apply K; auto|exact C]. Qed.
Lemma go_skip sk rs g b b' : skips sk -> blank g -> solid b -> chain sk rs b b' -> goes (RSkipSeq sk rs) (g ++ b) b'.
Proof.
  intros K G S C c. assert (X : seqs (interleave sk rs) (g ++ b) b') by (rewrite interleave_behind; eapply seqs_cons; [apply K; auto|exact C]).
  destruct (X c) as [c' D]. exists c'. exact (e_skip e _ _ _ _ true _ _ D).
Qed.
Lemma no_skip sk rs g b : skips sk -> blank g -> solid b -> broken sk rs b -> balks (RSkipSeq sk rs) (g ++ b).
Proof.
  intros K G S C c. assert (X : halts (interleave sk rs) (g ++ b)) by (rewrite interleave_behind; eapply halts_next; [apply K; auto|exact C]).
  destruct (X c) as (c' & b' & D). exists c'. exact (e_skip e _ _ _ _ false _ _ D).
Qed.
Lemma tk_white : takes e ws (one_of whites). Proof. apply takes_byte, rb_any. reflexivity. Qed.
Lemma skips_ws : skips (RZom ws).
Proof.
  intros g r G [S _]. apply go_out, o_zom. eapply o_rep_takes; [apply tk_white| |].
  - apply forallb_forall. intros x I. apply one_of_in. unfold blank in G. rewrite Forall_forall in G. exact (G x I).
  - destruct (first (one_of whites) r) eqn:F; auto. apply first_head in F; [|reflexivity]. contradiction.
Qed.
End Kit.
