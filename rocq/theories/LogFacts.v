(** LogFacts.v - what monitored readers leave in a Log (C56). *)
From Verif Require Export ReaderScan.
From Coq Require Import Lia ZifyBool.
From Verif Require Import ReaderSteps.

(* ------------------------------------------------------------- one Log *)

(** The slice l.Entries is a proper slice. *)
Definition log_ok (l : log) : Prop := length (log_entries l) = l_len l /\ (l_len l <= l_cap l)%nat /\ (l_cap l = 0%nat \/ (l_cur l < length (l_arrs l))%nat).
(** [l'] is [l] with more entries: if they did not fit, the entries have moved. *)
Definition grown (l l' : log) : Prop := log_ok l' /\ l_level l' = l_level l /\ (length (l_arrs l) <= length (l_arrs l'))%nat /\
  (exists new, log_entries l' = log_entries l ++ new) /\
  (((l_len l' <= l_cap l)%nat /\ l_cap l' = l_cap l /\ l_cur l' = l_cur l) \/ ((l_cap l < l_len l')%nat /\ (length (l_arrs l) <= l_cur l')%nat)).

Lemma log0_ok : log_ok log0.
Proof. repeat split; cbn; lia. Qed.
Lemma grown_refl l : log_ok l -> grown l l.
Proof. intros H. pose proof H as (_ & A & _). split; [auto|]. split; [auto|]. split; [auto|]. split; [exists []; rewrite app_nil_r; auto|]. left. auto. Qed.
Lemma grown_trans l m n : grown l m -> grown m n -> grown l n.
Proof.
  intros (A1 & A2 & A3 & [u Au] & A5) (B1 & B2 & B3 & [v Bv] & B5). split; [auto|]. split; [congruence|]. split; [lia|].
  split; [exists (u ++ v); rewrite Bv, Au, app_assoc; auto|].
  assert (Ln : (l_len m <= l_len n)%nat) by (destruct A1 as (A1 & _), B1 as (B1 & _); rewrite <- A1, <- B1, Bv, app_length; lia).
  destruct A5 as [(A6 & A7 & A8)|[A6 A7]], B5 as [(B6 & B7 & B8)|[B6 B7]]; [left|right|right|right]; try (repeat split; lia).
Qed.

Section Enter.
Context {L : GoLib}.
Lemma nth_put {A} (l : list (list A)) i x : nth i (put [] l i x) [] = x.
Proof. exact (get_put_same [] l i x). Qed.
Lemma put_length {A} (d : A) : forall i l x, (i < length l)%nat -> length (put d l i x) = length l.
Proof. induction i as [|i IH]; intros [|y l] x H; cbn in *; try lia. rewrite IH; lia. Qed.

Definition fresh_entry (info : bytes) (p : Z) (l : log) : entry := mkEntry p info (l_level l + 1) 0 None.
Lemma enter_spec info p l : log_ok l -> let l1 := snd (log_enter info p l) in
  log_ok l1 /\ log_entries l1 = log_entries l ++ [fresh_entry info p l] /\ l_level l1 = l_level l + 1 /\
  fst (log_enter info p l) = (l_cur l1, l_len l) /\ (l_cur l1 < length (l_arrs l1))%nat /\ (length (l_arrs l) <= length (l_arrs l1))%nat /\
  (((l_len l1 <= l_cap l)%nat /\ l_cap l1 = l_cap l /\ l_cur l1 = l_cur l) \/ ((l_cap l < l_len l1)%nat /\ (length (l_arrs l) <= l_cur l1)%nat)).
Proof.
  intros (A & B & C). unfold log_enter. destruct (Nat.ltb (l_len l) (l_cap l)) eqn:E; cbv zeta; cbn [snd fst].
  - apply Nat.ltb_lt in E. assert (Cu : (l_cur l < length (l_arrs l))%nat) by lia.
    assert (En : log_entries (mkLog (put [] (l_arrs l) (l_cur l) (log_entries l ++ [mkEntry p info (l_level l + 1) 0 None])) (l_cur l) (S (l_len l)) (l_cap l) (l_level l + 1))
      = log_entries l ++ [fresh_entry info p l]).
    { unfold log_entries at 1. cbn [l_len l_cur l_arrs]. rewrite nth_put. apply firstn_all2. rewrite app_length, A. cbn. lia. }
    split; [split; [rewrite En, app_length, A; cbn; lia|split; cbn; [lia|right; rewrite put_length; lia]]|].
    split; [exact En|]. split; [reflexivity|]. split; [reflexivity|]. cbn. rewrite put_length by auto. split; [auto|]. split; [auto|]. left. lia.
  - apply Nat.ltb_ge in E.
    assert (En : log_entries (mkLog (l_arrs l ++ [log_entries l ++ [mkEntry p info (l_level l + 1) 0 None]]) (length (l_arrs l)) (S (l_len l))
        (Nat.max (S (l_len l)) (lib_grow (l_cap l))) (l_level l + 1)) = log_entries l ++ [fresh_entry info p l]).
    { unfold log_entries at 1. cbn [l_len l_cur l_arrs]. rewrite nth_middle. apply firstn_all2. rewrite app_length, A. cbn. lia. }
    split; [split; [rewrite En, app_length, A; cbn; lia|split; cbn [l_len l_cap l_cur l_arrs]; [lia|right; rewrite app_length; cbn; lia]]|].
    split; [exact En|]. split; [reflexivity|]. split; [reflexivity|]. cbn [l_len l_cap l_cur l_arrs]. rewrite app_length. cbn. split; [lia|]. split; [lia|]. right. lia.
Qed.

Lemma upd_length {A} (f : A -> A) : forall l i, length (upd l i f) = length l.
Proof. induction l as [|x l IH]; intros [|i]; cbn; auto. Qed.
Lemma nth_upd {A} (f : A -> A) d : forall l i j, nth j (upd l i f) d = if Nat.eqb i j && Nat.ltb i (length l) then f (nth j l d) else nth j l d.
Proof.
  induction l as [|x l IH]; intros [|i] [|j]; cbn; auto.
  - rewrite andb_false_r. auto.
  - rewrite IH. reflexivity.
Qed.
Lemma firstn_upd {A} (f : A -> A) : forall l i n, firstn n (upd l i f) = upd (firstn n l) i f.
Proof.
  induction l as [|x l IH]; intros [|i] [|n]; cbn; auto.
  - rewrite IH. auto.
Qed.
Lemma upd_app {A} (f : A -> A) a x b : upd (a ++ x :: b) (length a) f = a ++ f x :: b.
Proof. induction a; cbn; congruence. Qed.
Definition left_at (p : Z) (x : option err) (n : entry) : entry := mkEntry (e_enter n) (e_info n) (e_level n) p x.
(** Exit changes the entry only if the pointer still points into the current array. *)
Lemma exit_entries c i p x l : (c < length (l_arrs l))%nat ->
  log_entries (log_exit (c, i) p x l) = if Nat.eqb c (l_cur l) then upd (log_entries l) i (left_at p x) else log_entries l.
Proof.
  intros H. unfold log_entries, log_exit. cbn. rewrite nth_upd. replace (Nat.ltb c (length (l_arrs l))) with true by (symmetry; apply Nat.ltb_lt; auto).
  rewrite andb_true_r. destruct (Nat.eqb c (l_cur l)); auto. apply firstn_upd.
Qed.

(** The Log after Enter, something that only adds entries, and Exit. *)
Lemma monitored_log info p l l2 q x : log_ok l -> grown (snd (log_enter info p l)) l2 ->
  let l3 := log_exit (fst (log_enter info p l)) q x l2 in
  grown l l3 /\ exists new, log_entries l2 = (log_entries l ++ [fresh_entry info p l]) ++ new /\
    log_entries l3 = log_entries l ++ (if Nat.leb (l_len l2) (l_cap (snd (log_enter info p l))) then left_at q x (fresh_entry info p l) else fresh_entry info p l) :: new.
Proof.
  intros Ok (G1 & G2 & G3 & [new Gn] & G5). destruct (enter_spec info p l Ok) as (E1 & E2 & E3 & E4 & E5 & E6 & E7). cbv zeta.
  set (l1 := snd (log_enter info p l)) in *. rewrite E4. rewrite E2 in Gn.
  assert (En : log_entries (log_exit (l_cur l1, l_len l) q x l2) =
    log_entries l ++ (if Nat.leb (l_len l2) (l_cap l1) then left_at q x (fresh_entry info p l) else fresh_entry info p l) :: new).
  { rewrite exit_entries by lia. destruct G5 as [(H1 & H2 & H3)|[H1 H2]].
    - rewrite H3, Nat.eqb_refl. replace (Nat.leb (l_len l2) (l_cap l1)) with true by (symmetry; apply Nat.leb_le; auto).
      rewrite Gn, <- app_assoc. destruct Ok as [Ol _]. rewrite <- Ol. apply upd_app.
    - replace (Nat.eqb (l_cur l1) (l_cur l2)) with false by (symmetry; apply Nat.eqb_neq; lia).
      replace (Nat.leb (l_len l2) (l_cap l1)) with false by (symmetry; apply Nat.leb_gt; lia). rewrite Gn, <- app_assoc. reflexivity. }
  split; [|exists new; auto]. destruct G1 as (G6 & G7 & G8). split; [|split; [|split; [|split]]].
  - split; [|split; cbn; rewrite ?upd_length; auto]. rewrite En. cbn [l_len log_exit]. rewrite <- G6, Gn, !app_length. cbn. lia.
  - cbn [log_exit l_level]. rewrite G2, E3. lia.
  - cbn. rewrite upd_length. lia.
  - rewrite En. eauto.
  - cbn. assert (Ln : (l_len l1 <= l_len l2)%nat). { destruct E1 as (E1 & _). rewrite <- E1, <- G6, Gn, E2, !app_length. lia. }
    destruct E7 as [(H1 & H2 & H3)|[H1 H2]], G5 as [(K1 & K2 & K3)|[K1 K2]].
    + left. rewrite K3. repeat split; lia.
    + right. split; lia.
    + right. rewrite K3. split; lia.
    + right. split; lia.
Qed.
End Enter.

(* --------------------------------------------------------- all readers *)

Section Reads.
Context {L : GoLib} (lg : nat).
Definition lgs (s : st) : log := get_log lg (hp s).
(** [m] only adds entries to log [lg]. *)
Definition gr {A} (m : M A) : Prop := forall s x s', log_ok (lgs s) -> m s = Ok (x, s') -> grown (lgs s) (lgs s').

Lemma log_moveto p s : lgs (moveto p s) = lgs s.
Proof. unfold lgs, moveto, track. cbn. destruct (trk (sc s)); auto. Qed.
Ltac gr_if H := match type of H with (if ?b then _ else _) = _ => destruct b end; try discriminate; injection H as _ <-; rewrite ?log_moveto; auto using grown_refl.
Lemma gr_ret {A} (a : A) : gr (ret a).
Proof. intros s x s' Ok H. injection H as _ <-. auto using grown_refl. Qed.
Lemma gr_panic {A} : gr (@panic A).
Proof. intros s x s' _ H. discriminate. Qed.
Lemma gr_fuel {A} : gr (@out_of_fuel A).
Proof. intros s x s' _ H. discriminate. Qed.
Lemma gr_bind {A B} (m : M A) (k : A -> M B) : gr m -> (forall a, gr (k a)) -> gr (bind m k).
Proof.
  intros Hm Hk s x s' Ht H. apply bind_inv in H as (a & s1 & H1 & H2). pose proof (Hm _ _ _ Ht H1) as G. pose proof G as (Ok & _).
  eapply grown_trans; eauto. eapply Hk; eauto.
Qed.
Lemma gr_gets {A} (f : st -> A) : gr (gets f).
Proof. intros s x s' Ok H. injection H as _ <-. auto using grown_refl. Qed.
Lemma gr_modh f : (forall h, get_log lg (f h) = get_log lg h) -> gr (modh f).
Proof. intros F s x s' Ok H. injection H as _ <-. unfold lgs. cbn. rewrite F. auto using grown_refl. Qed.
Lemma gr_move n : gr (move n).
Proof. intros s x s' Ht H. unfold move in H. gr_if H. Qed.
Lemma gr_to_marker n : gr (to_marker n).
Proof. intros s x s' Ht H. unfold to_marker in H. gr_if H. Qed.
Lemma gr_s_tail : gr s_tail.
Proof. intros s x s' Ht H. unfold s_tail in H. gr_if H. Qed.
Lemma gr_get_tok t : gr (get_tok t).
Proof. intros s x s' Ht H. unfold get_tok in H. gr_if H. Qed.

Ltac gr_step :=
  match goal with
  | |- gr (bind _ _) => apply gr_bind; [|intros ?]
  | |- gr (ret _) => apply gr_ret
  | |- gr panic => apply gr_panic
  | |- gr out_of_fuel => apply gr_fuel
  | |- gr (gets _) => apply gr_gets
  | |- gr mark => apply gr_gets
  | |- gr at_end => apply gr_gets
  | |- gr (modh _) => apply gr_modh; intros; reflexivity
  | |- gr (move _) => apply gr_move
  | |- gr (to_marker _) => apply gr_to_marker
  | |- gr s_tail => apply gr_s_tail
  | |- gr (get_tok _) => apply gr_get_tok
  | |- gr (error_for _) => unfold error_for
  | |- gr (error_if_false _ _) => unfold error_if_false
  | |- gr (if ?b then _ else _) => destruct b
  | |- gr (match ?b with _ => _ end) => destruct b
  end.
Ltac grs := repeat gr_step; auto.

Lemma gr_if_str x : gr (if_str x).
Proof. unfold if_str. grs. Qed.
Lemma gr_if_any l : gr (if_any l).
Proof. induction l; cbn [if_any]; grs. apply gr_if_str. Qed.
Lemma gr_if_rune r : gr (if_rune r).
Proof. unfold if_rune. grs. Qed.
Lemma gr_if_any_rune x : gr (if_any_rune x).
Proof. unfold if_any_rune. induction (runes x); cbn [if_any_rune_loop]; grs. apply gr_if_rune. Qed.
Lemma gr_if_between a b : gr (if_between a b).
Proof. unfold if_between. grs. Qed.
Lemma gr_if_match f : gr (if_match f).
Proof. unfold if_match. grs. Qed.
Lemma gr_if_fold f : gr (if_fold f).
Proof. unfold if_fold. grs. Qed.
Lemma gr_move_runes k : gr (move_runes k).
Proof. unfold move_runes. grs. unfold s_head. intros s x s' Ht H. gr_if H. Qed.
Lemma gr_read_bool f : gr (read_bool f).
Proof. unfold read_bool, read_bool_strs. grs; auto using gr_if_any, gr_if_str. Qed.
Lemma gr_read_int a b : gr (read_int a b).
Proof. unfold read_int. grs; auto using gr_if_rune. Qed.
Lemma gr_read_uint a b : gr (read_uint a b).
Proof. unfold read_uint. grs. Qed.
Lemma gr_tokenize_use m : gr m -> gr (tokenize_use m).
Proof. intros H. unfold tokenize_use. grs. Qed.
Lemma gr_use m : gr m -> gr (use m).
Proof. intros H. unfold use. grs. Qed.
Lemma gr_between_any l : gr (between_any_loop l).
Proof. induction l as [|[a b] l IH]; cbn [between_any_loop]; grs. apply gr_if_between. Qed.
Lemma gr_moves l : gr (do_moves l).
Proof. induction l; cbn [do_moves]; grs. Qed.
Lemma gr_any l : Forall gr l -> forall m errs, gr (any_loop l m errs).
Proof. induction 1; intros; cbn [any_loop]; grs. Qed.
Lemma gr_seq l : Forall gr l -> forall m, gr (seq_loop l m).
Proof. induction 1; intros; cbn [seq_loop]; grs. Qed.
Lemma gr_skip sk l : gr sk -> Forall gr l -> forall x, gr (skip_loop sk l x).
Proof. intros Hs. induction 1; intros; cbn [skip_loop]; grs. Qed.
Lemma gr_rep n m : gr m -> gr (rep_loop n m).
Proof. intros H. induction n; cbn [rep_loop]; grs. Qed.
Lemma gr_times n m : gr m -> gr (times_loop n m).
Proof. intros H. induction n; cbn [times_loop]; grs. Qed.
Lemma gr_past n m : gr m -> gr (past_loop n m).
Proof. intros H. induction n; cbn [past_loop]; grs. apply gr_move_runes. Qed.
Lemma gr_to n m : gr m -> gr (to_loop n m).
Proof. intros H. induction n; cbn [to_loop]; grs. apply gr_move_runes. Qed.
Lemma gr_on_sub str m : gr m -> gr (on_sub str m).
Proof.
  intros Hm s x s' Ht H. unfold on_sub in H. destruct (bind _ _ _) as [[y s1]| |] eqn:E; try discriminate. injection H as _ <-.
  assert (G : gr (let* e := use m in let* fin := at_end in ret (e, fin))) by (apply gr_bind; [apply gr_use; auto|intros; grs]).
  exact (G (mkSt (new_scanner str) (hp s)) y s1 Ht E).
Qed.
Lemma gr_body n m b t back : gr b -> gr t -> gr (body_loop n m b t back).
Proof. intros Hb Ht. induction n; cbn [body_loop]; grs; auto using gr_on_sub, gr_move_runes. Qed.

Lemma get_put_log l i h : get_log i (put_log i l h) = l.
Proof. unfold get_log, put_log. apply get_put_same. Qed.
Lemma get_put_log_other l i j h : i <> j -> get_log j (put_log i l h) = get_log j h.
Proof. intros H. unfold get_log, put_log. apply get_put_other. auto. Qed.

(** The state in which Monitor calls its sub reader. *)
Definition entered (info : bytes) (s : st) : st := with_heap (put_log lg (snd (log_enter info (pos (sc s)) (lgs s))) (hp s)) s.
(** And the state in which it returns. *)
Definition exited (info : bytes) (s : st) (x : option err) (s2 : st) : st :=
  with_heap (put_log lg (log_exit (fst (log_enter info (pos (sc s)) (lgs s))) (pos (sc s2)) x (lgs s2)) (hp s2)) s2.
Lemma monitor_reads e info r s x s' : reads e (RMonitor info lg r) s x s' <->
  exists s2, reads e r (entered info s) x s2 /\ s' = exited info s x s2.
Proof.
  split.
  - intros [[|n] H]; [discriminate|]. cbn [read] in H. unfold bind, mark, gets, modh, modify, ret in H.
    fold (lgs s) in H. change (with_heap _ _) with (entered info s) in H at 1.
    destruct (read n e r (entered info s)) as [[y s2]| |] eqn:E; try discriminate. injection H as <- <-.
    exists s2. split; [exists n; auto|reflexivity].
  - intros (s2 & [n H] & ->). exists (S n). cbn [read]. unfold bind, mark, gets, modh, modify, ret.
    change (with_heap _ _) with (entered info s) at 1. rewrite H. reflexivity.
Qed.
End Reads.

Lemma read_grows {L : GoLib} lg e n : forall r, gr lg (read n e r).
Proof.
  induction n as [|n IH]; intros r; [apply gr_fuel|].
  assert (Fl : forall rs, Forall (gr lg) (map (read n e) rs)) by (intros rs; induction rs; constructor; auto).
  assert (Mo : forall info l r0, gr lg (read (S n) e (RMonitor info l r0))).
  { intros info l r0 s x s' Ok H. cbn [read] in H. unfold bind, mark, gets, modh, modify, ret in H.
    change (with_heap _ _) with (entered l info s) in H at 1.
    destruct (read n e r0 (entered l info s)) as [[y s2]| |] eqn:E; try discriminate. injection H as _ <-.
    change (grown (lgs lg s) (lgs lg (exited l info s y s2))).
    destruct (Nat.eq_dec l lg) as [->|N].
    - unfold lgs at 2, exited. cbn [with_heap hp]. rewrite get_put_log.
      assert (G : grown (lgs lg (entered lg info s)) (lgs lg s2)).
      { apply (IH r0 (entered lg info s) y s2); auto. unfold lgs, entered. cbn [with_heap hp]. rewrite get_put_log. apply enter_spec; auto. }
      unfold lgs at 1, entered in G. cbn [with_heap hp] in G. rewrite get_put_log in G. apply (monitored_log info (pos (sc s)) (lgs lg s) (lgs lg s2)); auto.
    - assert (X : lgs lg (entered l info s) = lgs lg s) by (unfold lgs, entered; cbn [with_heap hp]; apply get_put_log_other; auto).
      unfold lgs at 2, exited. cbn [with_heap hp]. rewrite get_put_log_other by auto. rewrite <- X. apply (IH r0 (entered l info s) y s2); auto. rewrite X. auto. }
  destruct r; try (apply Mo); cbn [read]; try unfold skip_seq;
  repeat (match goal with
  | |- gr _ (bind _ _) => apply gr_bind; [|intros ?]
  | |- gr _ (ret _) => apply gr_ret
  | |- gr _ panic => apply gr_panic
  | |- gr _ (gets _) => apply gr_gets
  | |- gr _ mark => apply gr_gets
  | |- gr _ at_end => apply gr_gets
  | |- gr _ (modh _) => apply gr_modh; intros; reflexivity
  | |- gr _ (move _) => apply gr_move
  | |- gr _ (to_marker _) => apply gr_to_marker
  | |- gr _ s_tail => apply gr_s_tail
  | |- gr _ (get_tok _) => apply gr_get_tok
  | |- gr _ (error_for _) => unfold error_for
  | |- gr _ (error_if_false _ _) => unfold error_if_false
  | |- gr _ (if ?b then _ else _) => destruct b
  | |- gr _ (match ?b with _ => _ end) => destruct b
  end); auto using gr_any, gr_seq, gr_skip, gr_rep, gr_times, gr_past, gr_to, gr_body, gr_moves, gr_between_any, gr_tokenize_use,
      gr_if_str, gr_if_rune, gr_if_any_rune, gr_if_between, gr_if_match, gr_if_fold, gr_move_runes, gr_read_bool, gr_read_int, gr_read_uint.
Qed.

(* ------------------------------------------- what a Read cannot change *)

(** A reflexive and transitive relation between states that holds for all single
    steps of the readers allowed by [p] and the rules in [R] holds for all their Reads. *)
Section Frame.
Context {L : GoLib} (e : env) (p : reader -> Prop) (R : nat -> bool) (P : st -> st -> Prop)
  (Prefl : forall s, P s s) (Ptrans : forall s s1 s2, P s s1 -> P s1 s2 -> P s s2)
  (Pmove : forall s q, P s (moveto q s))
  (Pval : forall s i v, P s (with_heap (put_val i v (hp s)) s))
  (Pcell : forall s i v, P s (with_heap (put_cell i v (hp s)) s))
  (Pmap : forall id sub s t, p (RMap id sub) -> P s (with_heap (add_event id t (hp s)) s))
  (Ppick : forall info b sub s g, p (RPick info b sub) -> P s (with_heap (basket_add b g (hp s)) s))
  (Pmon : forall info lg sub s x s2, p (RMonitor info lg sub) -> reads e sub (entered lg info s) x s2 -> P (entered lg info s) s2 -> P s (exited lg info s x s2))
  (Psub : forall d t s str c h, p (RBody d t) \/ p (RBodyTail d t) -> P (mkSt (new_scanner str) (hp s)) (mkSt c h) -> P s (mkSt (sc s) h))
  (Prule : forall i, p (RRule i) -> R i = true)
  (Pgram : forall w x i, p (RGrammar w x i) -> R i = true)
  (HR : forall i r, R i = true -> r_reader (get_rule e i) = Some r -> rallP p r).

Definition fr {A} (m : M A) : Prop := forall s x s', m s = Ok (x, s') -> P s s'.
Ltac fr_if H := match type of H with (if ?b then _ else _) = _ => destruct b end; try discriminate; injection H as _ <-; auto.
Lemma fr_ret {A} (a : A) : fr (ret a).
Proof. intros s x s' H. injection H as _ <-. auto. Qed.
Lemma fr_panic {A} : fr (@panic A).
Proof. intros s x s' H. discriminate. Qed.
Lemma fr_fuel {A} : fr (@out_of_fuel A).
Proof. intros s x s' H. discriminate. Qed.
Lemma fr_bind {A B} (m : M A) (k : A -> M B) : fr m -> (forall a, fr (k a)) -> fr (bind m k).
Proof. intros Hm Hk s x s' H. apply bind_inv in H as (a & s1 & H1 & H2). eapply Ptrans; [eapply Hm|eapply Hk]; eauto. Qed.
Lemma fr_gets {A} (f : st -> A) : fr (gets f).
Proof. intros s x s' H. injection H as _ <-. auto. Qed.
Lemma fr_modh f : (forall s, P s (with_heap (f (hp s)) s)) -> fr (modh f).
Proof. intros F s x s' H. injection H as _ <-. auto. Qed.
Lemma fr_move n : fr (move n).
Proof. intros s x s' H. unfold move in H. fr_if H. Qed.
Lemma fr_to_marker n : fr (to_marker n).
Proof. intros s x s' H. unfold to_marker in H. fr_if H. Qed.
Lemma fr_s_tail : fr s_tail.
Proof. intros s x s' H. unfold s_tail in H. fr_if H. Qed.
Lemma fr_get_tok t : fr (get_tok t).
Proof. intros s x s' H. unfold get_tok in H. fr_if H. Qed.
Ltac fr_step :=
  match goal with
  | |- fr (bind _ _) => apply fr_bind; [|intros ?]
  | |- fr (ret _) => apply fr_ret
  | |- fr panic => apply fr_panic
  | |- fr out_of_fuel => apply fr_fuel
  | |- fr (gets _) => apply fr_gets
  | |- fr mark => apply fr_gets
  | |- fr at_end => apply fr_gets
  | |- fr (modh _) => apply fr_modh; intros ?; eauto
  | |- fr (move _) => apply fr_move
  | |- fr (to_marker _) => apply fr_to_marker
  | |- fr s_tail => apply fr_s_tail
  | |- fr (get_tok _) => apply fr_get_tok
  | |- fr (error_for _) => unfold error_for
  | |- fr (error_if_false _ _) => unfold error_if_false
  | |- fr (if ?b then _ else _) => destruct b
  | |- fr (match ?b with _ => _ end) => destruct b eqn:?
  end.
Ltac frs := repeat fr_step; auto.
Lemma fr_if_str x : fr (if_str x).
Proof. unfold if_str. frs. Qed.
Lemma fr_if_any l : fr (if_any l).
Proof. induction l; cbn [if_any]; frs. apply fr_if_str. Qed.
Lemma fr_if_rune r : fr (if_rune r).
Proof. unfold if_rune. frs. Qed.
Lemma fr_if_any_rune x : fr (if_any_rune x).
Proof. unfold if_any_rune. induction (runes x); cbn [if_any_rune_loop]; frs. apply fr_if_rune. Qed.
Lemma fr_if_between a b : fr (if_between a b).
Proof. unfold if_between. frs. Qed.
Lemma fr_if_match f : fr (if_match f).
Proof. unfold if_match. frs. Qed.
Lemma fr_if_fold f : fr (if_fold f).
Proof. unfold if_fold. frs. Qed.
Lemma fr_move_runes k : fr (move_runes k).
Proof. unfold move_runes. frs. unfold s_head. intros s x s' H. fr_if H. Qed.
Lemma fr_read_bool f : fr (read_bool f).
Proof. unfold read_bool, read_bool_strs. frs; auto using fr_if_any, fr_if_str. Qed.
Lemma fr_read_int a b : fr (read_int a b).
Proof. unfold read_int. frs; auto using fr_if_rune. Qed.
Lemma fr_read_uint a b : fr (read_uint a b).
Proof. unfold read_uint. frs. Qed.
Lemma fr_tokenize_use m : fr m -> fr (tokenize_use m).
Proof. intros H. unfold tokenize_use. frs. Qed.
Lemma fr_use m : fr m -> fr (use m).
Proof. intros H. unfold use. frs. Qed.
Lemma fr_between_any l : fr (between_any_loop l).
Proof. induction l as [|[a b] l IH]; cbn [between_any_loop]; frs. apply fr_if_between. Qed.
Lemma fr_moves l : fr (do_moves l).
Proof. induction l; cbn [do_moves]; frs. Qed.
Lemma fr_any l : Forall fr l -> forall m errs, fr (any_loop l m errs).
Proof. induction 1; intros; cbn [any_loop]; frs. Qed.
Lemma fr_seq l : Forall fr l -> forall m, fr (seq_loop l m).
Proof. induction 1; intros; cbn [seq_loop]; frs. Qed.
Lemma fr_skip sk l : fr sk -> Forall fr l -> forall x, fr (skip_loop sk l x).
Proof. intros Hs. induction 1; intros; cbn [skip_loop]; frs. Qed.
Lemma fr_rep n m : fr m -> fr (rep_loop n m).
Proof. intros H. induction n; cbn [rep_loop]; frs. Qed.
Lemma fr_times n m : fr m -> fr (times_loop n m).
Proof. intros H. induction n; cbn [times_loop]; frs. Qed.
Lemma fr_past n m : fr m -> fr (past_loop n m).
Proof. intros H. induction n; cbn [past_loop]; frs. apply fr_move_runes. Qed.
Lemma fr_to n m : fr m -> fr (to_loop n m).
Proof. intros H. induction n; cbn [to_loop]; frs. apply fr_move_runes. Qed.
Lemma fr_on_sub d t str m : p (RBody d t) \/ p (RBodyTail d t) -> fr m -> fr (on_sub str m).
Proof.
  intros Pb Hm s x s' H. unfold on_sub in H. destruct (bind _ _ _) as [[y s1]| |] eqn:E; try discriminate. injection H as _ <-.
  assert (G : fr (let* e := use m in let* fin := at_end in ret (e, fin))) by (apply fr_bind; [apply fr_use; auto|intros; frs]).
  apply (Psub d t s str (sc s1) (hp s1) Pb). destruct s1. exact (G _ _ _ E).
Qed.
Lemma fr_body d u n m b t back : p (RBody d u) \/ p (RBodyTail d u) -> fr b -> fr t -> fr (body_loop n m b t back).
Proof. intros Pb Hb Ht. induction n; cbn [body_loop]; frs; eauto using fr_on_sub, fr_move_runes. Qed.

Lemma frame_read n : forall r, rallP p r -> fr (read n e r).
Proof.
  induction n as [|n IH]; intros r Hr; [apply fr_fuel|].
  assert (Fl : forall rs, fold_right (fun x q => rallP p x /\ q) True rs -> Forall fr (map (read n e) rs)).
  { intros rs H. pose proof (all_in _ _ H) as H'. clear H. rename H' into H. apply Forall_forall. intros m Hm. apply in_map_iff in Hm as (x & <- & X). apply IH. apply H; auto. }
  pose proof (rallP_here _ _ Hr) as Ph.
  assert (Mo : forall info l r0, p (RMonitor info l r0) -> rallP p r0 -> fr (read (S n) e (RMonitor info l r0))).
  { intros info l r0 Pm Hs s x s' H. cbn [read] in H. unfold bind, mark, gets, modh, modify, ret in H.
    change (with_heap _ _) with (entered l info s) in H at 1.
    destruct (read n e r0 (entered l info s)) as [[y s2]| |] eqn:E; try discriminate. injection H as _ <-.
    exact (Pmon info l r0 s y s2 Pm (ex_intro _ n E) (IH r0 Hs _ _ _ E)). }
  destruct r; try (apply Mo; [exact Ph|cbn [rallP] in Hr; destruct Hr as [_ Hr]; exact Hr]);
    cbn [read]; cbn [rallP] in Hr; destruct Hr as [_ Hr];
    try match type of Hr with _ /\ _ => destruct Hr as [Hr Hr2] end; try unfold skip_seq; frs;
    eauto using fr_any, fr_seq, fr_skip, fr_rep, fr_times, fr_past, fr_to, fr_body, fr_moves, fr_between_any, fr_tokenize_use,
      fr_if_str, fr_if_rune, fr_if_any_rune, fr_if_between, fr_if_match, fr_if_fold, fr_move_runes, fr_read_bool, fr_read_int, fr_read_uint.
Qed.
End Frame.

(** Readers without Monitor of log [lg]. *)
Definition unmonitored1 (lg : nat) (R : nat -> bool) (r : reader) : bool :=
  match r with RMonitor _ l _ => negb (Nat.eqb l lg) | RRule i | RGrammar _ _ i => R i | _ => true end.
Definition unmonitored lg R := rall (unmonitored1 lg R).
Definition unmonitored_rules lg R (e : env) : Prop := forall i r, R i = true -> r_reader (get_rule e i) = Some r -> unmonitored lg R r = true.
Lemma unmonitored_log {L : GoLib} e lg R r s x s' : unmonitored_rules lg R e -> unmonitored lg R r = true -> reads e r s x s' ->
  get_log lg (hp s') = get_log lg (hp s).
Proof.
  intros HR Hr [n H]. refine (frame_read e (fun r => unmonitored1 lg R r = true) R (fun s s' => get_log lg (hp s') = get_log lg (hp s)) _ _ _ _ _ _ _ _ _ _ _ _ n r _ s x s' H);
    auto; try (intros; congruence); try (intros; reflexivity); try (intros; apply rallP_rall; eapply HR; eauto; fail); try (apply rallP_rall; auto).
  - intros s0 q. exact (log_moveto lg q s0).
  - intros info l sub s0 y s2 Pm _ E. cbn in Pm. apply negb_true_iff, Nat.eqb_neq in Pm. unfold exited, entered in *. cbn [with_heap hp] in *.
    rewrite get_put_log_other by auto. rewrite E. apply get_put_log_other. auto.
Qed.

(* ------------------------------------------- where the entries come from *)

Section Tried.
Context {L : GoLib} (e : env) (lg : nat) (q : reader -> Prop).
(** No Monitor below Body and BodyTail (where positions count from the start of the body), and [q]. *)
Definition loggable (r : reader) : Prop := q r /\ match r with RBody _ _ | RBodyTail _ _ => False | _ => True end.
(** [en] is the entry of a Read of a monitored reader in text [t]. *)
Definition tried (t : bytes) (en : entry) : Prop :=
  exists info sub s1 x s2, q (RMonitor info lg sub) /\ reads e sub s1 x s2 /\ full (sc s1) = t /\
    e_info en = info /\ e_enter en = pos (sc s1) /\ (e_err en = x /\ e_exit en = pos (sc s2) \/ e_err en = None /\ e_exit en = 0).
Definition Pt (s s' : st) : Prop := full (sc s') = full (sc s) /\ (log_ok (lgs lg s) -> grown (lgs lg s) (lgs lg s') /\
  exists new, log_entries (lgs lg s') = log_entries (lgs lg s) ++ new /\ Forall (tried (full (sc s))) new).

Lemma Pt_same s s' : full (sc s') = full (sc s) -> lgs lg s' = lgs lg s -> Pt s s'.
Proof.
  intros F E. split; auto. rewrite E. intros H. split; [apply grown_refl; auto|]. exists []. rewrite app_nil_r. auto.
Qed.
Lemma Pt_trans s s1 s2 : Pt s s1 -> Pt s1 s2 -> Pt s s2.
Proof.
  intros [F1 H1] [F2 H2]. split; [congruence|]. intros Ok. destruct (H1 Ok) as (G1 & n1 & E1 & A1). pose proof G1 as [Ok1 _].
  destruct (H2 Ok1) as (G2 & n2 & E2 & A2). split; [eapply grown_trans; eauto|]. exists (n1 ++ n2). rewrite E2, E1, app_assoc. split; auto.
  apply Forall_app. rewrite <- F1. split; auto. rewrite F1. auto.
Qed.
Lemma tried_read r s x s' : eallP loggable e -> rallP loggable r -> reads e r s x s' -> Pt s s'.
Proof.
  intros He Hr [n H].
  refine (frame_read e loggable (fun _ => true) Pt _ _ _ _ _ _ _ _ _ _ _ _ n r Hr s x s' H); auto.
  - intros. apply Pt_same; auto.
  - apply Pt_trans.
  - intros s0 p. apply Pt_same; [reflexivity|apply log_moveto].
  - intros. apply Pt_same; reflexivity.
  - intros. apply Pt_same; reflexivity.
  - intros. apply Pt_same; reflexivity.
  - intros. apply Pt_same; reflexivity.
  - intros info l sub s0 y s2 [Q _] Rd [F G]. split; [exact F|]. intros Ok. destruct (Nat.eq_dec l lg) as [->|N].
    + assert (En : lgs lg (entered lg info s0) = snd (log_enter info (pos (sc s0)) (lgs lg s0))) by (unfold lgs, entered; cbn [with_heap hp]; apply get_put_log).
      assert (Ex : lgs lg (exited lg info s0 y s2) = log_exit (fst (log_enter info (pos (sc s0)) (lgs lg s0))) (pos (sc s2)) y (lgs lg s2))
        by (unfold exited; unfold lgs at 1; cbn [with_heap hp]; apply get_put_log).
      pose proof (enter_spec info (pos (sc s0)) (lgs lg s0) Ok) as (Oe & Ee & _).
      rewrite En in G. destruct (G Oe) as (G1 & n1 & E1 & A1).
      destruct (monitored_log info (pos (sc s0)) (lgs lg s0) (lgs lg s2) (pos (sc s2)) y Ok G1) as (M1 & n2 & M2 & M3). cbv zeta in *.
      rewrite Ex. split; [exact M1|]. rewrite M3. eexists. split; [reflexivity|].
      rewrite E1, Ee in M2. apply app_inv_head in M2. subst n2. constructor; [|exact A1].
      exists info, sub, (entered lg info s0), y, s2. split; [exact Q|]. split; [exact Rd|]. split; [reflexivity|].
      destruct (Nat.leb _ _); cbn; auto.
    + assert (En : lgs lg (entered l info s0) = lgs lg s0) by (unfold lgs, entered; cbn [with_heap hp]; apply get_put_log_other; auto).
      assert (Ex : lgs lg (exited l info s0 y s2) = lgs lg s2) by (unfold lgs, exited; cbn [with_heap hp]; apply get_put_log_other; auto).
      rewrite Ex. rewrite En in G. exact (G Ok).
  - intros d t s0 str c h [[_ []]|[_ []]].
  - intros i r0 _ E. eapply He; eauto.
Qed.
End Tried.
