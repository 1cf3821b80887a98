(** BasketFacts.v - what is picked into a Basket (C51 to C55). *)
From Verif Require Export ReaderScan GraphFacts.
From Coq Require Import Lia ZifyBool Sorted.

(* ------------------------------------------------------- Basket.Update *)

Lemma ss_snoc {A} (R : A -> A -> Prop) l x : StronglySorted R (l ++ [x]) <-> StronglySorted R l /\ Forall (fun y => R y x) l.
Proof.
  induction l as [|y l IH]; cbn; [split; [split; constructor|intros _; repeat constructor]|]. split.
  - inversion 1; subst. apply IH in H2 as [A1 A2]. apply Forall_app in H3 as [B1 B2]. inversion B2; subst. split; constructor; auto.
  - intros [H F]. inversion H; subst. inversion F; subst. constructor; [apply IH; auto|]. apply Forall_app. auto.
Qed.
Lemma ss_filter {A} (R : A -> A -> Prop) p l : StronglySorted R l -> StronglySorted R (filter p l).
Proof.
  induction 1 as [|x l H IH F]; cbn; [constructor|]. destruct (p x); auto. constructor; auto.
  apply Forall_forall. intros y Y. apply filter_In in Y as [Y _]. rewrite Forall_forall in F. auto.
Qed.
Lemma ss_impl {A} (R R' : A -> A -> Prop) l : (forall x y, In x l -> In y l -> R x y -> R' x y) -> StronglySorted R l -> StronglySorted R' l.
Proof.
  intros H S. induction S as [|x l S IH F]; constructor.
  - apply IH. intros; apply H; auto; right; auto.
  - apply Forall_forall. intros y Y. rewrite Forall_forall in F. apply H; auto; [left|right]; auto.
Qed.

(** Ordered by the ends of the segments. *)
Definition by_end (l : list segment) : Prop := StronglySorted (fun x y => t_to (s_tok x) <= t_to (s_tok y)) l.
Definition ends_by (m : Z) (x : segment) : bool := t_to (s_tok x) <=? m.

Lemma filter_all {A} (p : A -> bool) l : (forall x, In x l -> p x = true) -> filter p l = l.
Proof. induction l as [|x l IH]; intros H; cbn; auto. rewrite (H x) by (left; auto). f_equal. apply IH. intros; apply H; right; auto. Qed.
Lemma filter_none {A} (p : A -> bool) l : (forall x, In x l -> p x = false) -> filter p l = [].
Proof. induction l as [|x l IH]; intros H; cbn; auto. rewrite (H x) by (left; auto). apply IH. intros; apply H; right; auto. Qed.

Lemma update_snoc m l x : basket_update m (l ++ [x]) = if ends_by m x then l ++ [x] else basket_update m l.
Proof.
  unfold basket_update, ends_by. rewrite rev_app_distr. cbn [rev app drop_behind].
  destruct (_ <=? _); auto. cbn [rev]. rewrite rev_involutive. auto.
Qed.
Lemma update_filter m l : by_end l -> basket_update m l = filter (ends_by m) l.
Proof.
  induction l as [|x l IH] using rev_ind; intros H; [reflexivity|]. rewrite update_snoc.
  apply ss_snoc in H as [H F]. rewrite filter_app. cbn [filter]. destruct (ends_by m x) eqn:E.
  - rewrite filter_all; auto. intros y Y. rewrite Forall_forall in F. specialize (F y Y). unfold ends_by in *. cbn in F. lia.
  - rewrite app_nil_r. auto.
Qed.
(** Old segments [l0] that end before [m] stay. *)
Lemma update_app m l0 l : by_end l -> (forall x, In x l0 -> t_to (s_tok x) <= m) -> basket_update m (l0 ++ l) = l0 ++ filter (ends_by m) l.
Proof.
  intros H O. induction l as [|x l IH] using rev_ind.
  - cbn. rewrite app_nil_r. destruct l0 as [|y l0] using rev_ind; [reflexivity|]. rewrite update_snoc.
    unfold ends_by. replace (t_to (s_tok y) <=? m) with true; auto. specialize (O y ltac:(apply in_or_app; right; left; auto)). lia.
  - rewrite app_assoc, update_snoc. apply ss_snoc in H as [H F]. rewrite filter_app. cbn [filter]. destruct (ends_by m x) eqn:E.
    + rewrite (filter_all _ l), app_assoc; auto. intros y Y. rewrite Forall_forall in F. specialize (F y Y). unfold ends_by in *. cbn in F. lia.
    + rewrite app_nil_r. auto.
Qed.

(* --------------------------------------- readers that do not pick into b *)

(** No Pick into basket [b]; rules only from [R]. *)
Definition unpicked1 (b : nat) (R : nat -> bool) (r : reader) : bool :=
  match r with
  | RPick _ b' _ => negb (Nat.eqb b' b)
  | RRule i | RGrammar _ _ i => R i
  | _ => true
  end.
Definition unpicked b R := rall (unpicked1 b R).
Definition unpicked_rules b R (e : env) : Prop := forall i r, R i = true -> r_reader (get_rule e i) = Some r -> unpicked b R r = true.

Section Unpicked.
Context (b0 : nat).
(** On a scanner that is not coupled with [b0], [m] leaves it alone. *)
Definition kb {A} (m : M A) : Prop := forall s x s', trk (sc s) <> Some b0 -> m s = Ok (x, s') ->
  trk (sc s') = trk (sc s) /\ get_basket b0 (hp s') = get_basket b0 (hp s).

Lemma kb_move_state p s : trk (sc s) <> Some b0 -> get_basket b0 (hp (moveto p s)) = get_basket b0 (hp s).
Proof.
  intros H. unfold moveto, track. cbn. destruct (trk (sc s)) as [b|]; auto. unfold put_basket, get_basket. cbn. apply get_put_other. congruence.
Qed.
Ltac kb_if H := match type of H with (if ?b then _ else _) = _ => destruct b end; try discriminate; injection H as _ <-; auto using kb_move_state.
Lemma kb_ret {A} (a : A) : kb (ret a).
Proof. intros s x s' _ H. injection H as _ <-. auto. Qed.
Lemma kb_panic {A} : kb (@panic A).
Proof. intros s x s' _ H. discriminate. Qed.
Lemma kb_fuel {A} : kb (@out_of_fuel A).
Proof. intros s x s' _ H. discriminate. Qed.
Lemma kb_bind {A B} (m : M A) (k : A -> M B) : kb m -> (forall a, kb (k a)) -> kb (bind m k).
Proof.
  intros Hm Hk s x s' Ht H. apply bind_inv in H as (a & s1 & H1 & H2).
  destruct (Hm _ _ _ Ht H1) as [E1 E2]. rewrite <- E1 in Ht. destruct (Hk _ _ _ _ Ht H2). split; congruence.
Qed.
Lemma kb_gets {A} (f : st -> A) : kb (gets f).
Proof. intros s x s' _ H. injection H as _ <-. auto. Qed.
Lemma kb_modh f : (forall h, get_basket b0 (f h) = get_basket b0 h) -> kb (modh f).
Proof. intros F s x s' _ H. injection H as _ <-. cbn. auto. Qed.
Lemma kb_move n : kb (move n).
Proof. intros s x s' Ht H. unfold move in H. kb_if H. Qed.
Lemma kb_to_marker n : kb (to_marker n).
Proof. intros s x s' Ht H. unfold to_marker in H. kb_if H. Qed.
Lemma kb_s_tail : kb s_tail.
Proof. intros s x s' Ht H. unfold s_tail in H. kb_if H. Qed.
Lemma kb_get_tok t : kb (get_tok t).
Proof. intros s x s' Ht H. unfold get_tok in H. kb_if H. Qed.

Ltac kb_step :=
  match goal with
  | |- kb (bind _ _) => apply kb_bind; [|intros ?]
  | |- kb (ret _) => apply kb_ret
  | |- kb panic => apply kb_panic
  | |- kb out_of_fuel => apply kb_fuel
  | |- kb (gets _) => apply kb_gets
  | |- kb mark => apply kb_gets
  | |- kb at_end => apply kb_gets
  | |- kb (modh _) => apply kb_modh; try (intros; reflexivity)
  | |- kb (move _) => apply kb_move
  | |- kb (to_marker _) => apply kb_to_marker
  | |- kb s_tail => apply kb_s_tail
  | |- kb (get_tok _) => apply kb_get_tok
  | |- kb (error_for _) => unfold error_for
  | |- kb (error_if_false _ _) => unfold error_if_false
  | |- kb (if ?b then _ else _) => destruct b
  | |- kb (match ?b with _ => _ end) => destruct b eqn:?
  end.
Ltac kbs := repeat kb_step; auto.

Lemma kb_if_str x : kb (if_str x).
Proof. unfold if_str. kbs. Qed.
Lemma kb_if_any l : kb (if_any l).
Proof. induction l; cbn [if_any]; kbs. apply kb_if_str. Qed.
Lemma kb_if_rune r : kb (if_rune r).
Proof. unfold if_rune. kbs. Qed.
Lemma kb_if_any_rune x : kb (if_any_rune x).
Proof. unfold if_any_rune. induction (runes x); cbn [if_any_rune_loop]; kbs. apply kb_if_rune. Qed.
Lemma kb_if_between a b : kb (if_between a b).
Proof. unfold if_between. kbs. Qed.
Lemma kb_if_match f : kb (if_match f).
Proof. unfold if_match. kbs. Qed.
Lemma kb_if_fold {L : GoLib} f : kb (if_fold f).
Proof. unfold if_fold. kbs. Qed.
Lemma kb_move_runes k : kb (move_runes k).
Proof. unfold move_runes. kbs. unfold s_head. intros s x s' Ht H. kb_if H. Qed.
Lemma kb_read_bool f : kb (read_bool f).
Proof. unfold read_bool, read_bool_strs. kbs; auto using kb_if_any, kb_if_str. Qed.
Lemma kb_read_int a b : kb (read_int a b).
Proof. unfold read_int. kbs; auto using kb_if_rune. Qed.
Lemma kb_read_uint a b : kb (read_uint a b).
Proof. unfold read_uint. kbs. Qed.
Lemma kb_tokenize_use m : kb m -> kb (tokenize_use m).
Proof. intros H. unfold tokenize_use. kbs. Qed.
Lemma kb_use m : kb m -> kb (use m).
Proof. intros H. unfold use. kbs. Qed.
Lemma kb_between_any l : kb (between_any_loop l).
Proof. induction l as [|[a b] l IH]; cbn [between_any_loop]; kbs. apply kb_if_between. Qed.
Lemma kb_moves l : kb (do_moves l).
Proof. induction l; cbn [do_moves]; kbs. Qed.
Lemma kb_any l : Forall kb l -> forall m errs, kb (any_loop l m errs).
Proof. induction 1; intros; cbn [any_loop]; kbs. Qed.
Lemma kb_seq l : Forall kb l -> forall m, kb (seq_loop l m).
Proof. induction 1; intros; cbn [seq_loop]; kbs. Qed.
Lemma kb_skip sk l : kb sk -> Forall kb l -> forall x, kb (skip_loop sk l x).
Proof. intros Hs. induction 1; intros; cbn [skip_loop]; kbs. Qed.
Lemma kb_rep n m : kb m -> kb (rep_loop n m).
Proof. intros H. induction n; cbn [rep_loop]; kbs. Qed.
Lemma kb_times n m : kb m -> kb (times_loop n m).
Proof. intros H. induction n; cbn [times_loop]; kbs. Qed.
Lemma kb_past n m : kb m -> kb (past_loop n m).
Proof. intros H. induction n; cbn [past_loop]; kbs. apply kb_move_runes. Qed.
Lemma kb_to n m : kb m -> kb (to_loop n m).
Proof. intros H. induction n; cbn [to_loop]; kbs. apply kb_move_runes. Qed.
Lemma kb_on_sub str m : kb m -> kb (on_sub str m).
Proof.
  intros Hm s x s' Ht H. unfold on_sub in H. destruct (bind _ _ _) as [[y s1]| |] eqn:E; try discriminate. injection H as _ <-.
  split; auto. cbn. refine (proj2 ((_ : kb _) _ _ _ _ E)); [|discriminate]. apply kb_bind; [apply kb_use; auto|intros]. kbs.
Qed.
Lemma kb_body n m b t back : kb b -> kb t -> kb (body_loop n m b t back).
Proof. intros Hb Ht. induction n; cbn [body_loop]; kbs; auto using kb_on_sub, kb_move_runes. Qed.

Lemma read_unpicked {L : GoLib} e R : unpicked_rules b0 R e -> forall n r, unpicked b0 R r = true -> kb (read n e r).
Proof.
  intros HR. induction n as [|n IH]; intros r Hr; [apply kb_fuel|].
  assert (Fl : forall rs, forallb (rall (unpicked1 b0 R)) rs = true -> Forall kb (map (read n e) rs)).
  { intros rs H. rewrite forallb_forall in H. apply Forall_forall. intros m Hm. apply in_map_iff in Hm as (x & <- & X). apply IH. apply H; auto. }
  pose proof (rall_here _ _ Hr) as Ph.
  destruct r; cbn [read]; unfold unpicked in Hr; cbn [rall] in Hr; apply andb_true_iff in Hr as [_ Hr];
    try (apply andb_true_iff in Hr as [Hr Hr2]); try unfold skip_seq; kbs;
    auto using kb_any, kb_seq, kb_skip, kb_rep, kb_times, kb_past, kb_to, kb_body, kb_moves, kb_between_any, kb_tokenize_use,
      kb_if_str, kb_if_rune, kb_if_any_rune, kb_if_between, kb_if_match, kb_if_fold, kb_move_runes, kb_read_bool, kb_read_int, kb_read_uint.
  - intros h. unfold basket_add, put_basket, get_basket. cbn. apply get_put_other. unfold unpicked1 in Ph. apply negb_true_iff, Nat.eqb_neq in Ph. auto.
  - apply IH. eapply HR; eauto.
  - apply IH. eapply HR; eauto.
Qed.
End Unpicked.

(* --------------------------------------------------- the coupled basket *)

(** [x] was picked before [y]: it lies before [y] or inside [y]. *)
Definition older (x y : segment) : Prop :=
  t_to (s_tok x) <= t_from (s_tok y) \/ (t_from (s_tok y) <= t_from (s_tok x) /\ t_to (s_tok x) <= t_to (s_tok y)).

Lemma get_put_basket b l h : get_basket b (put_basket b l h) = l.
Proof. unfold get_basket, put_basket. apply get_put_same. Qed.

Section Picked.
Context {L : GoLib} (e : env) (b0 : nat) (R : nat -> bool) (q : reader -> Prop).

(** No Wrap, nothing picked below Body and BodyTail, and [q], a property the caller
    wants to know of the Picks. *)
Definition pickableP (r : reader) : Prop :=
  no_wrap r = true /\ q r /\ match r with RBody b _ | RBodyTail b _ => unpicked b0 R b = true | _ => True end.

(** [g] is what a Pick with property [q] read in text [t]. *)
Definition came (t : bytes) (g : segment) : Prop :=
  exists info sub s1 s2, q (RPick info b0 sub) /\ reads e sub s1 None s2 /\ in_text s1 /\
    full (sc s1) = t /\ full (sc s2) = t /\ g = mkSeg info (mkTok (pos (sc s1)) (pos (sc s2))).
Definition fits (lo a p : Z) (g : segment) : Prop :=
  lo <= t_from (s_tok g) /\ t_from (s_tok g) <= t_to (s_tok g) /\ t_to (s_tok g) <= p /\ (t_to (s_tok g) <= a \/ a <= t_from (s_tok g)).
Lemma fits_end lo' a p l : Forall (fits lo' a p) l -> StronglySorted older l -> by_end l.
Proof.
  intros F. apply ss_impl. intros x y X Y [H|[_ H]]; auto. rewrite Forall_forall in F. destruct (F y Y) as (_ & A & _). lia.
Qed.

Context (HR : unpicked_rules b0 R e) (He : eallP pickableP e).

Lemma pickableP_wrap r : rallP pickableP r -> rall no_wrap r = true.
Proof. intros H. apply rallP_rall. revert H. apply rallP_impl. intros x [H _]. exact H. Qed.
Lemma envP_wrap : eall no_wrap e.
Proof. intros i r E. apply pickableP_wrap. eapply He; eauto. Qed.

Section Run.
Context (t : bytes) (lo : Z) (B0 : list segment) (HB : forall x, In x B0 -> t_to (s_tok x) <= lo).

Definition Jb (a : Z) (s : st) : Prop := full (sc s) = t /\ trk (sc s) = Some b0 /\ lo <= a /\
  exists new, get_basket b0 (hp s) = B0 ++ new /\ StronglySorted older new /\ Forall (fits lo a (pos (sc s))) new /\ Forall (came t) new.


Lemma Jb_move a s p : in_text s -> a <= pos (sc s) -> Jb a s -> a <= p <= slen (full (sc s)) -> Jb a (moveto p s).
Proof.
  intros I A (F & T & Lo & new & Eb & So & Fi & Ca) P. split; auto. split; auto. split; auto.
  exists (filter (ends_by p) new). split.
  - unfold moveto, track. cbn [hp]. rewrite T, get_put_basket, Eb.
    apply update_app; [eapply fits_end; eauto|]. intros x X. specialize (HB x X). lia.
  - split; [apply ss_filter; auto|]. split.
    + apply Forall_forall. intros x X. apply filter_In in X as [X E]. rewrite Forall_forall in Fi. destruct (Fi x X) as (F1 & F2 & F3 & F4).
      unfold ends_by in E. split; auto. split; auto. split; auto. cbn. lia.
    + apply Forall_forall. intros x X. apply filter_In in X as [X E]. rewrite Forall_forall in Ca. auto.
Qed.
Lemma Jb_enter a s : in_text s -> a <= pos (sc s) -> Jb a s -> Jb (pos (sc s)) s.
Proof.
  intros I A (F & T & Lo & new & Eb & So & Fi & Ca). split; auto. split; auto. split; [lia|]. exists new. split; auto. split; auto. split; auto.
  eapply Forall_impl; [|exact Fi]. intros x (F1 & F2 & F3 & F4). split; auto.
Qed.
Lemma Jb_baskets a s h : get_basket b0 h = get_basket b0 (hp s) -> Jb a s -> Jb a (with_heap h s).
Proof. intros E (F & T & Lo & new & Eb & X). split; auto. split; auto. split; auto. exists new. split; [cbn; congruence|auto]. Qed.
Lemma Jb_pick info b sub a m s : pickableP (RPick info b sub) -> in_text s -> a <= m <= pos (sc s) -> 0 <= m -> Jb a s -> Jb m s ->
  (exists n s0, read n e sub s0 = Ok (None, s) /\ in_text s0 /\ full (sc s0) = full (sc s) /\ pos (sc s0) = m) ->
  Jb a (with_heap (basket_add b (mkSeg info (mkTok m (pos (sc s)))) (hp s)) s).
Proof.
  intros Pk I M M0 JA (F & T & Lo & new & Eb & So & Fi & Ca) (n & s0 & Rd & I0 & F0 & P0). destruct (Nat.eq_dec b b0) as [->|N].
  - destruct JA as (_ & _ & La & new' & Eb' & _ & Fi' & _). rewrite Eb in Eb'. apply app_inv_head in Eb'. subst new'.
    split; auto. split; auto. split; auto. exists (new ++ [mkSeg info (mkTok m (pos (sc s)))]).
    split; [|split; [|split]].
    + cbn [with_heap hp]. unfold basket_add. rewrite get_put_basket, Eb, app_assoc. reflexivity.
    + apply ss_snoc. split; auto. eapply Forall_impl; [|exact Fi]. intros x (F1 & F2 & F3 & F4). unfold older. cbn. lia.
    + apply Forall_app. split; [exact Fi'|]. repeat constructor; cbn; lia.
    + apply Forall_app. split; auto. repeat constructor. exists info, sub, s0, s.
      split; [apply Pk|]. split; [exists n; auto|]. split; auto. split; [congruence|]. split; auto. congruence.
  - apply Jb_baskets; auto. unfold basket_add, put_basket, get_basket. cbn. apply get_put_other. auto.
Qed.

Lemma fw_picked n : forall k a0 a r, rallP pickableP r -> fw true Jb t k a0 a (read n e r).
Proof.
  intros k a0 a r Hr. apply (fw_readP e pickableP true Jb); auto; [..|intros w f [X _]; discriminate|].
  - apply Jb_move.
  - intros a1 s h E _. apply Jb_baskets. unfold get_basket. congruence.
  - apply Jb_enter.
  - intros info b sub Pm a1 m s I M M0 J1 J2 Ex. eapply Jb_pick; eauto.
  - intros m b tl P Hb IH a1 str s Hs J1.
    assert (U : unpicked b0 R b = true) by (destruct P as [P|P]; apply P).
    destruct (read m e b (mkSt (new_scanner str) (hp s))) as [[x s']| |] eqn:E; auto.
    destruct (read_okfw e envP_wrap m b (pickableP_wrap b Hb) (mkSt (new_scanner str) (hp s)) x s') as (A1 & A2 & A3 & A4); auto.
    { split; [cbn; pose proof (slen_nonneg str); lia|exact Hs]. }
    split; [exact A1|]. split; [exact A3|].
    destruct (read_unpicked b0 e R HR m b U (mkSt (new_scanner str) (hp s)) x s' ltac:(discriminate) E) as [_ K]. apply (Jb_baskets a1 s (hp s')); auto.
Qed.
End Run.

(** After any Read: the old segments, then what was picked and still stands. *)
Theorem pickedP r s x s' : rallP pickableP r -> in_text s -> trk (sc s) = Some b0 ->
  (forall g, In g (get_basket b0 (hp s)) -> t_to (s_tok g) <= pos (sc s)) -> reads e r s x s' ->
  exists new, get_basket b0 (hp s') = get_basket b0 (hp s) ++ new /\ StronglySorted older new /\
    Forall (fits (pos (sc s)) (pos (sc s)) (pos (sc s'))) new /\ Forall (came (full (sc s))) new.
Proof.
  intros Hr I T O [n Rd].
  assert (I0 : inv (Jb (full (sc s)) (pos (sc s)) (get_basket b0 (hp s))) (full (sc s)) (trk (sc s)) (pos (sc s)) (pos (sc s)) s).
  { split; auto. split; auto. split; auto. split; [lia|]. split; auto. split; auto. split; [lia|]. exists []. rewrite app_nil_r. repeat split; auto; constructor. }
  pose proof (fw_picked (full (sc s)) (pos (sc s)) (get_basket b0 (hp s)) O n _ _ _ r Hr s I0) as X. rewrite Rd in X.
  destruct X as (_ & _ & _ & _ & _ & _ & _ & new & X). eauto.
Qed.
End Picked.

(** The same with a test [q]. *)
Definition pickable b0 R (q : reader -> bool) (r : reader) : bool :=
  no_wrap r && q r && match r with RBody b _ | RBodyTail b _ => unpicked b0 R b | _ => true end.
Lemma pickable_P b0 R q r : pickable b0 R q r = true <-> pickableP b0 R (fun x => q x = true) r.
Proof. unfold pickable, pickableP. rewrite !andb_true_iff. destruct r; tauto. Qed.
Lemma pickable_all b0 R q r : rall (pickable b0 R q) r = true -> rallP (pickableP b0 R (fun x => q x = true)) r.
Proof. intros H. apply rallP_rall in H. revert H. apply rallP_impl. intros x. apply pickable_P. Qed.
Lemma pickable_wrap b0 R q r : rall (pickable b0 R q) r = true -> rall no_wrap r = true.
Proof. apply rall_impl. intros x. unfold pickable. rewrite !andb_true_iff. tauto. Qed.
Lemma env_wrap e b0 R q : eall (pickable b0 R q) e -> eall no_wrap e.
Proof. intros He i r E. eapply pickable_wrap. eapply He; eauto. Qed.
Lemma picked {L : GoLib} e b0 R q : unpicked_rules b0 R e -> eall (pickable b0 R q) e ->
  forall r s x s', rall (pickable b0 R q) r = true -> in_text s -> trk (sc s) = Some b0 ->
  (forall g, In g (get_basket b0 (hp s)) -> t_to (s_tok g) <= pos (sc s)) -> reads e r s x s' ->
  exists new, get_basket b0 (hp s') = get_basket b0 (hp s) ++ new /\ StronglySorted older new /\
    Forall (fits (pos (sc s)) (pos (sc s)) (pos (sc s'))) new /\ Forall (came e b0 (fun x => q x = true) (full (sc s))) new.
Proof.
  intros HR He r s x s' Hr. apply (pickedP e b0 R _ HR); [|apply pickable_all; auto].
  intros i r' E. apply pickable_all. eapply He; eauto.
Qed.

(* ------------------------------------------------------------------ Map *)

Section Mapped.
Context {L : GoLib} (e : env) (q : reader -> Prop).
Definition mappableP (r : reader) : Prop := no_wrap r = true /\ q r.
(** A call of a Map function: [sub] read that token, in the text or in a body. *)
Definition called (ev : nat * token) : Prop :=
  exists sub s1 s2, q (RMap (fst ev) sub) /\ reads e sub s1 None s2 /\ in_text s1 /\
    full (sc s1) = full (sc s2) /\ snd ev = mkTok (pos (sc s1)) (pos (sc s2)).
Context (He : eallP mappableP e).
Section Run.
Context (E0 : list (nat * token)).
Definition Jm (_ : Z) (s : st) : Prop := exists new, h_events (hp s) = E0 ++ new /\ Forall called new.
Lemma fw_mapped n : forall t k a0 a r, rallP mappableP r -> fw true Jm t k a0 a (read n e r).
Proof.
  intros t k a0 a r Hr. apply (fw_readP e mappableP true Jm); auto; [..|intros w f [X _]; discriminate|].
  - intros a1 s p _ _ (new & E & F) _. exists new. split; auto. cbn. unfold track. destruct (trk (sc s)); auto.
  - intros a1 s h _ Ee (new & E & F). exists new. split; auto. cbn. congruence.
  - intros id sub Pm a1 m s I M M0 (new & E & F) _ (n0 & s0 & Rd & I0 & F0 & P0).
    exists (new ++ [(id, mkTok m (pos (sc s)))]). split.
    + cbn. rewrite E, app_assoc. reflexivity.
    + apply Forall_app. split; auto. repeat constructor. exists sub, s0, s. cbn.
      split; [apply Pm|]. split; [exists n0; auto|]. split; auto. split; auto. congruence.
  - intros m b tl _ Hb IH a1 str s Hs (new & E & F).
    assert (I0 : inv Jm str None 0 0 (mkSt (new_scanner str) (hp s))).
    { split; [split; [cbn; pose proof (slen_nonneg str); lia|exact Hs]|]. split; [reflexivity|]. split; [reflexivity|]. split; [cbn; lia|]. exists new. auto. }
    specialize (IH str None 0 0 b Hb _ I0). destruct (read m e b _) as [[x s']| |]; auto.
    destruct IH as (I1 & I2 & I3 & _ & J1). split; [exact I1|]. split; [exact I3|exact J1].
Qed.
End Run.
Theorem mappedP r s x s' : rallP mappableP r -> in_text s -> reads e r s x s' ->
  exists new, h_events (hp s') = h_events (hp s) ++ new /\ Forall called new.
Proof.
  intros Hr I [n Rd].
  assert (I0 : inv (Jm (h_events (hp s))) (full (sc s)) (trk (sc s)) (pos (sc s)) (pos (sc s)) s).
  { split; auto. split; auto. split; auto. split; [lia|]. exists []. rewrite app_nil_r. auto. }
  pose proof (fw_mapped (h_events (hp s)) n _ _ _ _ r Hr s I0) as X. rewrite Rd in X.
  destruct X as (_ & _ & _ & _ & X). exact X.
Qed.
End Mapped.
Definition mappable (q : reader -> bool) (r : reader) : bool := no_wrap r && q r.
Lemma mappable_all q r : rall (mappable q) r = true -> rallP (mappableP (fun x => q x = true)) r.
Proof. intros H. apply rallP_rall in H. revert H. apply rallP_impl. intros x. unfold mappable, mappableP. rewrite andb_true_iff. auto. Qed.
Lemma mapped {L : GoLib} e q : eall (mappable q) e -> forall r s x s', rall (mappable q) r = true -> in_text s -> reads e r s x s' ->
  exists new, h_events (hp s') = h_events (hp s) ++ new /\ Forall (called e (fun x => q x = true)) new.
Proof.
  intros He r s x s' Hr. apply mappedP; [|apply mappable_all; auto]. intros i r' E. apply mappable_all. eapply He; eauto.
Qed.

(* ------------------------------------------------ Pick and Map, one step *)

Lemma tokenize_reads {L : GoLib} e r n s tk x s' : tokenize_use (read n e r) s = Ok ((tk, x), s') ->
  exists s1, read n e r s = Ok (x, s1) /\ (x = None -> s1 = s' /\ tk = make_token (pos (sc s)) (pos (sc s'))).
Proof.
  unfold tokenize_use, bind, mark, gets. destruct (read n e r s) as [[[y|] s1]| |]; try discriminate.
  - destruct (to_marker _ s1) as [[u s2]| |]; try discriminate. intros H. injection H as <- <- <-. exists s1. split; auto. discriminate.
  - intros H. injection H as <- <- <-. exists s1. auto.
Qed.
Lemma pick_adds {L : GoLib} e info b r s s' : reads e (RPick info b r) s None s' <->
  exists s1, reads e r s None s1 /\ s' = with_heap (basket_add b (mkSeg info (make_token (pos (sc s)) (pos (sc s1)))) (hp s1)) s1.
Proof.
  split.
  - intros [[|n] H]; [discriminate|]. cbn [read] in H. apply bind_inv in H as ([tk x] & s1 & H1 & H2).
    apply tokenize_reads in H1 as (s2 & H1 & H3). cbn [snd fst] in H2. destruct x; [discriminate|]. destruct (H3 eq_refl) as [-> ->].
    exists s1. split; [exists n; auto|]. injection H2 as <-. reflexivity.
  - intros (s1 & [n H] & ->). exists (S n). cbn [read]. unfold tokenize_use, bind, mark, gets. rewrite H. reflexivity.
Qed.
Lemma map_calls {L : GoLib} e id r s s' : reads e (RMap id r) s None s' <->
  exists s1, reads e r s None s1 /\ s' = with_heap (add_event id (make_token (pos (sc s)) (pos (sc s1))) (hp s1)) s1.
Proof.
  split.
  - intros [[|n] H]; [discriminate|]. cbn [read] in H. apply bind_inv in H as ([tk x] & s1 & H1 & H2).
    apply tokenize_reads in H1 as (s2 & H1 & H3). cbn [snd fst] in H2. destruct x; [discriminate|]. destruct (H3 eq_refl) as [-> ->].
    exists s1. split; [exists n; auto|]. injection H2 as <-. reflexivity.
  - intros (s1 & [n H] & ->). exists (S n). cbn [read]. unfold tokenize_use, bind, mark, gets. rewrite H. reflexivity.
Qed.
