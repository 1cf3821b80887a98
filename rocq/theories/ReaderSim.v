(** ReaderSim.v - two runs of readers side by side: more fuel does not change a
    result; Monitor, Pick and Map can be put in or left out; state that a reader
    does not look at does not matter. *)
From Verif Require Export ReaderFacts.
From Coq Require Import Lia ZifyBool.

(* ------------------------------------------------------------ more fuel *)

Definition fle {A} (m1 m2 : M A) : Prop := forall s, m1 s = Fuel \/ m1 s = m2 s.
Lemma fle_refl {A} (m : M A) : fle m m.
Proof. intros s. auto. Qed.
Lemma fle_bind {A B} (m1 m2 : M A) (f1 f2 : A -> M B) : fle m1 m2 -> (forall x, fle (f1 x) (f2 x)) -> fle (bind m1 f1) (bind m2 f2).
Proof.
  intros H1 H2 s. unfold bind. destruct (H1 s) as [E|E]; rewrite E; auto. destruct (m2 s) as [[x s']| |]; auto. apply H2.
Qed.
Lemma fle_fuel {A} (m : M A) : fle out_of_fuel m.
Proof. intros s. left. reflexivity. Qed.

Lemma fle_any rds1 rds2 : Forall2 fle rds1 rds2 -> forall m errs, fle (any_loop rds1 m errs) (any_loop rds2 m errs).
Proof.
  induction 1; intros m errs; cbn [any_loop]; [apply fle_refl|]. apply fle_bind; auto. intros [y'|]; [auto|apply fle_refl].
Qed.
Lemma fle_seq rds1 rds2 : Forall2 fle rds1 rds2 -> forall m, fle (seq_loop rds1 m) (seq_loop rds2 m).
Proof.
  induction 1; intros m; cbn [seq_loop]; [apply fle_refl|]. apply fle_bind; auto. intros [y'|]; [apply fle_refl|auto].
Qed.
Lemma fle_skip sk1 sk2 rds1 rds2 : fle sk1 sk2 -> Forall2 fle rds1 rds2 -> forall x, fle (skip_loop sk1 rds1 x) (skip_loop sk2 rds2 x).
Proof.
  intros Hs. induction 1; intros x'; cbn [skip_loop]; [apply fle_refl|]. destruct x'; [apply fle_refl|].
  apply fle_bind; auto. intros [y'|]; auto. apply fle_bind; auto.
Qed.
Lemma fle_rep n1 n2 rd1 rd2 : (n1 <= n2)%nat -> fle rd1 rd2 -> fle (rep_loop n1 rd1) (rep_loop n2 rd2).
Proof.
  intros Hn H. revert n2 Hn. induction n1 as [|n1 IH]; intros n2 Hn; [apply fle_fuel|]. destruct n2; [lia|]. cbn [rep_loop].
  apply fle_bind; auto. intros [y|]; [apply fle_refl|]. apply IH. lia.
Qed.
Lemma fle_times k rd1 rd2 : fle rd1 rd2 -> fle (times_loop k rd1) (times_loop k rd2).
Proof.
  intros H. induction k as [|n1 IH]; cbn [times_loop]; [apply fle_refl|].
  apply fle_bind; auto. intros [y|]; auto. apply fle_refl.
Qed.
Lemma fle_past n1 n2 rd1 rd2 : (n1 <= n2)%nat -> fle rd1 rd2 -> fle (past_loop n1 rd1) (past_loop n2 rd2).
Proof.
  intros Hn H. revert n2 Hn. induction n1 as [|n1 IH]; intros n2 Hn; [apply fle_fuel|]. destruct n2; [lia|]. cbn [past_loop].
  apply fle_bind; [apply fle_refl|]. intros [|]; [apply fle_refl|]. apply fle_bind; auto. intros [y|]; [|apply fle_refl].
  apply fle_bind; [apply fle_refl|]. intros _. apply IH. lia.
Qed.
Lemma fle_to n1 n2 rd1 rd2 : (n1 <= n2)%nat -> fle rd1 rd2 -> fle (to_loop n1 rd1) (to_loop n2 rd2).
Proof.
  intros Hn H. revert n2 Hn. induction n1 as [|n1 IH]; intros n2 Hn; [apply fle_fuel|]. destruct n2; [lia|]. cbn [to_loop].
  apply fle_bind; [apply fle_refl|]. intros m. apply fle_bind; auto. intros [y|]; [|apply fle_refl].
  apply fle_bind; [apply fle_refl|]. intros [|]; [|apply fle_refl]. apply IH. lia.
Qed.
Lemma fle_on_sub str rd1 rd2 : fle rd1 rd2 -> fle (on_sub str rd1) (on_sub str rd2).
Proof.
  intros H s. unfold on_sub.
  assert (F : fle (let* e := use rd1 in let* fin := at_end in ret (e, fin)) (let* e := use rd2 in let* fin := at_end in ret (e, fin))).
  { apply fle_bind; [|intros; apply fle_refl]. unfold use. apply fle_bind; [apply fle_refl|]. intros m.
    apply fle_bind; auto. intros; apply fle_refl. }
  destruct (F (mkSt (new_scanner str) (hp s))) as [E|E]; rewrite E; auto.
Qed.
Lemma fle_body n1 n2 m b1 b2 t1 t2 back : (n1 <= n2)%nat -> fle b1 b2 -> fle t1 t2 ->
  fle (body_loop n1 m b1 t1 back) (body_loop n2 m b2 t2 back).
Proof.
  intros Hn H H'. revert n2 Hn. induction n1 as [|n1 IH]; intros n2 Hn; [apply fle_fuel|]. destruct n2; [lia|]. cbn [body_loop].
  apply fle_bind; [apply fle_refl|]. intros [|]; [apply fle_refl|]. apply fle_bind; [apply fle_refl|]. intros t.
  apply fle_bind; auto. intros [y|].
  - apply fle_bind; [apply fle_refl|]. intros _. apply IH. lia.
  - apply fle_bind; [apply fle_refl|]. intros str. apply fle_bind; [apply fle_on_sub; auto|]. intros; apply fle_refl.
Qed.

Theorem read_fle {L : GoLib} e n1 : forall n2 r, (n1 <= n2)%nat -> fle (read n1 e r) (read n2 e r).
Proof.
  induction n1 as [|n1 IH]; intros n2 r Hn; [apply fle_fuel|]. destruct n2 as [|n2]; [lia|].
  assert (H : forall r, fle (read n1 e r) (read n2 e r)) by (intros; apply IH; lia).
  assert (HL : forall rs, Forall2 fle (map (read n1 e) rs) (map (read n2 e) rs)).
  { induction rs; constructor; auto. }
  assert (Hn' : (n1 <= n2)%nat) by lia.
  destruct r; cbn [read]; try apply fle_refl;
    repeat first [ apply fle_refl | apply H | apply fle_any; auto | apply fle_seq; auto | apply fle_rep; auto | apply fle_times; auto
      | apply fle_past; auto | apply fle_to; auto | apply fle_body; auto
      | apply fle_bind; [|intros] | match goal with |- fle (match ?x with _ => _ end) _ => destruct x end ].
  - apply fle_skip; auto.
Qed.
Lemma read_mono {L : GoLib} n1 n2 e r s : (n1 <= n2)%nat -> read n1 e r s <> Fuel -> read n2 e r s = read n1 e r s.
Proof. intros Hn H. destruct (read_fle e n1 n2 r Hn s) as [E|E]; [congruence|auto]. Qed.
Lemma read_agree {L : GoLib} n1 n2 e r s x1 x2 : read n1 e r s = x1 -> read n2 e r s = x2 ->
  x1 <> Fuel -> x2 <> Fuel -> x1 = x2.
Proof.
  intros <- <- H1 H2. destruct (Nat.le_ge_cases n1 n2).
  - symmetry. apply read_mono; auto.
  - apply read_mono; auto.
Qed.

(* ----------------------------------------------------------- side by side *)

Section Sim.
(** [kc]: the cells of Janus pairs agree; [kb]: baskets, coupled tracker, events and
    stored values agree.  Logs need not agree. *)
Context (kc kb : bool).

Definition hrel (h1 h2 : heap) : Prop :=
  (kc = true -> h_cells h1 = h_cells h2) /\
  (kb = true -> h_baskets h1 = h_baskets h2 /\ h_events h1 = h_events h2 /\ h_vals h1 = h_vals h2).
Definition srel (t : bytes) (s1 s2 : st) : Prop :=
  full (sc s1) = t /\ full (sc s2) = t /\ pos (sc s1) = pos (sc s2) /\ in_text s1 /\
  (kb = true -> trk (sc s1) = trk (sc s2)) /\ hrel (hp s1) (hp s2).
Definition sim {A} (t : bytes) (m1 m2 : M A) : Prop := forall s1 s2, srel t s1 s2 ->
  match m1 s1 with
  | Ok (x, s1') => exists s2', m2 s2 = Ok (x, s2') /\ srel t s1' s2'
  | Panic => m2 s2 = Panic
  | Fuel => True
  end.

Section Rules.
Context (t : bytes).

Lemma sim_ret {A} (x : A) : sim t (ret x) (ret x).
Proof. intros s1 s2 H. exists s2. auto. Qed.
Lemma sim_fuel {A} (m : M A) : sim t out_of_fuel m.
Proof. intros s1 s2 H. exact I. Qed.
Lemma sim_panic {A} : sim t (@panic A) panic.
Proof. intros s1 s2 H. reflexivity. Qed.
Lemma sim_bind {A B} (m1 m2 : M A) (f1 f2 : A -> M B) : sim t m1 m2 -> (forall x, sim t (f1 x) (f2 x)) -> sim t (bind m1 f1) (bind m2 f2).
Proof.
  intros H1 H2 s1 s2 H. specialize (H1 s1 s2 H). unfold bind. destruct (m1 s1) as [[x s1']| |]; auto.
  - destruct H1 as (s2' & E & H'). rewrite E. apply H2; auto.
  - rewrite H1. reflexivity.
Qed.
Lemma sim_mark {B} (f1 f2 : Z -> M B) : (forall m, 0 <= m <= slen t -> sim t (f1 m) (f2 m)) -> sim t (bind mark f1) (bind mark f2).
Proof.
  intros H s1 s2 R. unfold bind, mark, gets. pose proof R as (R1 & R2 & R3 & R4 & _). rewrite <- R3.
  apply H; auto. destruct R4. subst t. auto.
Qed.
Lemma srel_moveto m s1 s2 : 0 <= m <= slen t -> srel t s1 s2 -> srel t (moveto m s1) (moveto m s2).
Proof.
  intros Hm (R1 & R2 & R3 & R4 & R5 & R6 & R7). split; [exact R1|]. split; [exact R2|]. split; [reflexivity|].
  split; [apply in_text_move; auto; subst t; lia|]. split; [exact R5|].
  unfold moveto; cbn [hp]. split.
  - intros K. specialize (R6 K). unfold track. destruct (trk (sc s1)), (trk (sc s2)); cbn; auto.
  - intros K. specialize (R5 K). destruct (R7 K) as (A & B & C). unfold track. rewrite R5.
    destruct (trk (sc s2)); cbn; auto. unfold get_basket. rewrite A. auto.
Qed.
Lemma sim_marker m : 0 <= m <= slen t -> sim t (to_marker m) (to_marker m).
Proof.
  intros Hm s1 s2 R. rewrite !to_marker_nonneg by lia. eexists. split; [reflexivity|]. apply srel_moveto; auto.
Qed.
Lemma sim_move d : sim t (move d) (move d).
Proof.
  intros s1 s2 R. unfold move. pose proof R as (R1 & R2 & R3 & _). rewrite <- R3, R1, R2.
  match goal with |- context [if (?a || ?b)%bool then _ else _] => destruct (a || b)%bool eqn:E end.
  - exists s2; auto.
  - eexists. split; [reflexivity|]. apply srel_moveto; auto. lia.
Qed.
Lemma sim_tail : sim t s_tail s_tail.
Proof.
  intros s1 s2 R. unfold s_tail. pose proof R as (R1 & R2 & R3 & _). rewrite <- R3, R1, R2. destruct (_ && _); [exists s2; auto|reflexivity].
Qed.
Lemma sim_at_end : sim t at_end at_end.
Proof.
  intros s1 s2 R. unfold at_end, gets. pose proof R as (R1 & R2 & R3 & _). rewrite <- R3, R1, R2. exists s2; auto.
Qed.
Lemma sim_get_tok k : sim t (get_tok k) (get_tok k).
Proof.
  intros s1 s2 R. unfold get_tok. pose proof R as (R1 & R2 & R3 & _). rewrite R1, R2. destruct (_ && _); [exists s2; auto|reflexivity].
Qed.
Lemma sim_if {A} (c : bool) (a1 a2 b1 b2 : M A) : sim t a1 a2 -> sim t b1 b2 -> sim t (if c then a1 else b1) (if c then a2 else b2).
Proof. destruct c; auto. Qed.
Lemma sim_modh f1 f2 : (forall h1 h2, hrel h1 h2 -> hrel (f1 h1) (f2 h2)) -> sim t (modh f1) (modh f2).
Proof.
  intros H s1 s2 (R1 & R2 & R3 & R4 & R5 & R6). unfold modh, modify. eexists. split; [reflexivity|].
  split; [exact R1|]. split; [exact R2|]. split; [exact R3|]. split; [exact R4|]. split; [exact R5|]. apply H; auto.
Qed.
Lemma sim_error_for w : sim t (error_for w) (error_for w).
Proof. unfold error_for. apply sim_mark. intros. apply sim_ret. Qed.
Lemma sim_error_if_false ok w : sim t (error_if_false ok w) (error_if_false ok w).
Proof. unfold error_if_false. apply sim_if; [apply sim_ret|apply sim_error_for]. Qed.

Ltac sm := repeat first [ apply sim_ret | apply sim_tail | apply sim_move | apply sim_if | apply sim_at_end | apply sim_get_tok
  | apply sim_error_for | apply sim_error_if_false | (apply sim_marker; lia) | (apply sim_mark; intros) | (apply sim_bind; [|intros]) ].

Lemma sim_if_str x : sim t (if_str x) (if_str x).
Proof. unfold if_str. sm. Qed.
Lemma sim_if_any x : sim t (if_any x) (if_any x).
Proof. induction x; cbn [if_any]; [sm|]. apply sim_bind; [apply sim_if_str|]. intros. apply sim_if; [sm|auto]. Qed.
Lemma sim_if_rune x : sim t (if_rune x) (if_rune x).
Proof. unfold if_rune. apply sim_bind; [sm|]. intros b. destruct (decode_rune b). sm. Qed.
Lemma sim_if_any_rune x : sim t (if_any_rune x) (if_any_rune x).
Proof.
  unfold if_any_rune. induction (runes x) as [|r rs IH]; cbn [if_any_rune_loop]; [sm|].
  apply sim_bind; [apply sim_if_rune|]. intros. apply sim_if; [sm|auto].
Qed.
Lemma sim_if_between a b : sim t (if_between a b) (if_between a b).
Proof. unfold if_between. apply sim_bind; [sm|]. intros c. destruct (decode_rune c). sm. Qed.
Lemma sim_if_match f : sim t (if_match f) (if_match f).
Proof. unfold if_match. apply sim_bind; [sm|]. intros c. destruct (decode_rune c). sm. Qed.
Lemma sim_if_fold {L : GoLib} x : sim t (if_fold x) (if_fold x).
Proof. unfold if_fold. apply sim_bind; [sm|]. intros c. apply sim_if; [apply sim_panic|sm]. Qed.
Lemma sim_runes1 : sim t (move_runes 1) (move_runes 1).
Proof. unfold move_runes. cbn [Z.ltb Z.compare]. apply sim_bind; [sm|]. intros c. destruct (move_runes_fwd 1 (range_str c) 0); sm. Qed.
Lemma sim_read_bool f : sim t (read_bool f) (read_bool f).
Proof.
  unfold read_bool, read_bool_strs.
  repeat first [apply sim_if_any | apply sim_if_str | apply sim_if | apply sim_ret | apply sim_error_for | (apply sim_bind; [|intros])].
Qed.
Lemma sim_read_int a b : sim t (read_int a b) (read_int a b).
Proof.
  unfold read_int. destruct (char_func a); [|sm]. destruct (int_bounds b) as [[mn mx]|]; [|sm].
  apply sim_mark. intros m Hm. apply sim_bind; [apply sim_if_rune|]. intros neg.
  apply sim_bind; [apply sim_if; [sm|apply sim_if_rune]|]. intros _. apply sim_bind; [sm|]. intros u.
  destruct (read_int_loop _ _ _ _ _ _ _ _). sm.
Qed.
Lemma sim_read_uint a b : sim t (read_uint a b) (read_uint a b).
Proof.
  unfold read_uint. destruct (char_func a); [|sm]. destruct (uint_max b) as [mx|]; [|sm].
  apply sim_bind; [sm|]. intros u. destruct (read_uint_loop _ _ _ _ _ _). sm.
Qed.
Lemma sim_bany l : sim t (between_any_loop l) (between_any_loop l).
Proof.
  induction l as [|[mn mx] l IH]; cbn [between_any_loop]; [sm|]. apply sim_bind; [apply sim_if_between|]. intros. apply sim_if; [sm|auto].
Qed.

Lemma sim_any rds1 rds2 : Forall2 (sim t) rds1 rds2 -> forall m errs, 0 <= m <= slen t -> sim t (any_loop rds1 m errs) (any_loop rds2 m errs).
Proof.
  induction 1; intros m errs Hm; cbn [any_loop]; [sm|]. apply sim_bind; auto. intros [y'|]; [auto|sm].
Qed.
Lemma sim_seq rds1 rds2 : Forall2 (sim t) rds1 rds2 -> forall m, 0 <= m <= slen t -> sim t (seq_loop rds1 m) (seq_loop rds2 m).
Proof.
  induction 1; intros m Hm; cbn [seq_loop]; [sm|]. apply sim_bind; auto. intros [y'|]; [sm|auto].
Qed.
Lemma sim_skip sk1 sk2 rds1 rds2 : sim t sk1 sk2 -> Forall2 (sim t) rds1 rds2 -> forall x, sim t (skip_loop sk1 rds1 x) (skip_loop sk2 rds2 x).
Proof.
  intros Hs. induction 1; intros x'; cbn [skip_loop]; [sm|]. destruct x'; [sm|].
  apply sim_bind; auto. intros [y'|]; auto. apply sim_bind; auto.
Qed.
Lemma sim_rep n1 n2 rd1 rd2 : (n1 <= n2)%nat -> sim t rd1 rd2 -> sim t (rep_loop n1 rd1) (rep_loop n2 rd2).
Proof.
  intros Hn H. revert n2 Hn. induction n1 as [|n1 IH]; intros n2 Hn; [apply sim_fuel|]. destruct n2; [lia|]. cbn [rep_loop].
  apply sim_bind; auto. intros [y|]; [sm|]. apply IH. lia.
Qed.
Lemma sim_times k rd1 rd2 : sim t rd1 rd2 -> sim t (times_loop k rd1) (times_loop k rd2).
Proof.
  intros H. induction k as [|n1 IH]; cbn [times_loop]; [sm|].
  apply sim_bind; auto. intros [y|]; auto. sm.
Qed.
Lemma sim_past n1 n2 rd1 rd2 : (n1 <= n2)%nat -> sim t rd1 rd2 -> sim t (past_loop n1 rd1) (past_loop n2 rd2).
Proof.
  intros Hn H. revert n2 Hn. induction n1 as [|n1 IH]; intros n2 Hn; [apply sim_fuel|]. destruct n2; [lia|]. cbn [past_loop].
  apply sim_bind; [sm|]. intros [|]; [sm|]. apply sim_bind; auto. intros [y|]; [|sm].
  apply sim_bind; [apply sim_runes1|]. intros _. apply IH. lia.
Qed.
Lemma sim_to n1 n2 rd1 rd2 : (n1 <= n2)%nat -> sim t rd1 rd2 -> sim t (to_loop n1 rd1) (to_loop n2 rd2).
Proof.
  intros Hn H. revert n2 Hn. induction n1 as [|n1 IH]; intros n2 Hn; [apply sim_fuel|]. destruct n2; [lia|]. cbn [to_loop].
  apply sim_mark. intros m Hm. apply sim_bind; auto. intros [y|]; [|sm].
  apply sim_bind; [apply sim_runes1|]. intros [|]; [|sm]. apply IH. lia.
Qed.
Lemma sim_use rd1 rd2 : sim t rd1 rd2 -> sim t (use rd1) (use rd2).
Proof. intros H. unfold use. apply sim_mark. intros m Hm. apply sim_bind; auto. intros [x|]; sm. Qed.
Lemma sim_tokenize rd1 rd2 : sim t rd1 rd2 -> sim t (tokenize_use rd1) (tokenize_use rd2).
Proof. intros H. unfold tokenize_use. apply sim_mark. intros m Hm. apply sim_bind; auto. intros [x|]; sm. Qed.
End Rules.

Lemma sim_on_sub t str rd1 rd2 : slen str < 2 ^ 63 -> sim str rd1 rd2 -> sim t (on_sub str rd1) (on_sub str rd2).
Proof.
  intros Hs H s1 s2 (R1 & R2 & R3 & R4 & R5 & R6). unfold on_sub.
  assert (F : sim str (let* e := use rd1 in let* fin := at_end in ret (e, fin)) (let* e := use rd2 in let* fin := at_end in ret (e, fin))).
  { apply sim_bind; [apply sim_use; auto|]. intros x. apply sim_bind; [apply sim_at_end|intros; apply sim_ret]. }
  assert (R : srel str (mkSt (new_scanner str) (hp s1)) (mkSt (new_scanner str) (hp s2))).
  { split; [reflexivity|]. split; [reflexivity|]. split; [reflexivity|]. split.
    { split; [cbn; pose proof (slen_nonneg str); lia|exact Hs]. } split; [reflexivity|exact R6]. }
  specialize (F _ _ R). match type of F with match ?a with _ => _ end => destruct a as [[x s']| |] end; auto.
  - destruct F as (s2' & E & (_ & _ & _ & _ & _ & F6)). rewrite E. eexists. split; [reflexivity|].
    split; [exact R1|]. split; [exact R2|]. split; [exact R3|]. split; [exact R4|]. split; [exact R5|exact F6].
  - rewrite F. reflexivity.
Qed.
Lemma sim_body t n1 n2 m b1 b2 t1 t2 back : (n1 <= n2)%nat -> 0 <= m <= slen t -> (forall str, slen str < 2 ^ 63 -> sim str b1 b2) -> sim t t1 t2 ->
  sim t (body_loop n1 m b1 t1 back) (body_loop n2 m b2 t2 back).
Proof.
  intros Hn Hm H H'. revert n2 Hn. induction n1 as [|n1 IH]; intros n2 Hn; [apply sim_fuel|]. destruct n2; [lia|]. cbn [body_loop].
  apply sim_bind; [apply sim_at_end|]. intros [|]; [apply sim_ret|]. apply sim_mark. intros u Hu.
  apply sim_bind; auto. intros [y|].
  - apply sim_bind; [apply sim_runes1|]. intros _. apply IH. lia.
  - intros s1 s2 R. pose proof (sim_get_tok t (make_token m u) s1 s2 R) as G. 
    destruct (get_tok (make_token m u) s1) as [[str s1']| |] eqn:E1.
    2:{ unfold bind at 1. rewrite E1. unfold bind. rewrite G. reflexivity. }
    2:{ unfold bind at 1. rewrite E1. exact I. }
    destruct G as (s2' & E2 & R').
    rewrite (bind_ok _ _ _ _ _ E1), (bind_ok _ _ _ _ _ E2).
    assert (Hs : slen str < 2 ^ 63).
    { unfold get_tok in E1. destruct (_ && _) eqn:C; [|discriminate]. injection E1 as <- _.
      destruct R as (R1 & _ & _ & [_ R4] & _). rewrite slen_slice; lia. }
    refine ((_ : sim t _ _) s1' s2' R'). apply sim_bind; [apply sim_on_sub; auto|].
    intros [[x|] fin]; cbn [fst snd]; [apply sim_ret|]. destruct fin; cbn [negb]; [|apply sim_ret].
    destruct back; [|apply sim_ret]. apply sim_bind; [apply sim_marker; lia|intros; apply sim_ret].
Qed.

(* ------------------------------------------------ readers that match up *)

Section Rel.
Context {L : GoLib} (e1 e2 : env).

(** A Wrap function that moves inside the text. *)
Definition wrap_inside (f : read_func) : Prop := forall t p m, In m (fst (f t p)) -> 0 <= m <= slen t.
(** A reader that does not move when it fails. *)
Definition nonconsuming (e : env) (r : reader) : Prop := forall n s x s', in_text s ->
  read n e r s = Ok (Some x, s') -> pos (sc s') = pos (sc s).

Inductive rel : reader -> reader -> Prop :=
| rel_any rs1 rs2 : rels rs1 rs2 -> rel (RAny rs1) (RAny rs2)
| rel_any_rune x : rel (RAnyRune x) (RAnyRune x)
| rel_at a b : rel a b -> rel (RAt a) (RAt b)
| rel_at_end : rel RAtEnd RAtEnd
| rel_between x y : rel (RBetween x y) (RBetween x y)
| rel_between_any x y : rel (RBetweenAny x y) (RBetweenAny x y)
| rel_body a1 a2 b1 b2 : rel a1 a2 -> rel b1 b2 -> rel (RBody a1 b1) (RBody a2 b2)
| rel_body_tail a1 a2 b1 b2 : rel a1 a2 -> rel b1 b2 -> rel (RBodyTail a1 b1) (RBodyTail a2 b2)
| rel_bool i x : rel (RBool i x) (RBool i x)
| rel_fold x : rel (RFold x) (RFold x)
| rel_holey x y z : rel (RHoley x y z) (RHoley x y z)
| rel_int i x y : rel (RInt i x y) (RInt i x y)
| rel_janus_beg c x a b : rel a b -> rel (RJanusBeg c x a) (RJanusBeg c x b)
| rel_janus_end c x : kc = true -> rel (RJanusEnd c x) (RJanusEnd c x)
| rel_invalid x : rel (RInvalid x) (RInvalid x)
| rel_lit x : rel (RLit x) (RLit x)
| rel_many a b : rel a b -> rel (RMany a) (RMany b)
| rel_map i a b : rel a b -> rel (RMap i a) (RMap i b)
| rel_match x f : rel (RMatch x f) (RMatch x f)
| rel_named x a b : rel a b -> rel (RNamed x a) (RNamed x b)
| rel_not a b : rel a b -> rel (RNot a) (RNot b)
| rel_opt a b : rel a b -> rel (ROpt a) (ROpt b)
| rel_past a b : rel a b -> rel (RPast a) (RPast b)
| rel_rune x : rel (RRune x) (RRune x)
| rel_seq rs1 rs2 : rels rs1 rs2 -> rel (RSeq rs1) (RSeq rs2)
| rel_skip_seq a b rs1 rs2 : rel a b -> rels rs1 rs2 -> rel (RSkipSeq a rs1) (RSkipSeq b rs2)
| rel_times k a b : rel a b -> rel (RTimes k a) (RTimes k b)
| rel_to a b : rel a b -> rel (RTo a) (RTo b)
| rel_uint i x y : rel (RUint i x y) (RUint i x y)
| rel_wrap x f : wrap_inside f -> rel (RWrap x f) (RWrap x f)
| rel_zom a b : rel a b -> rel (RZom a) (RZom b)
| rel_pick x i a b : rel a b -> rel (RPick x i a) (RPick x i b)
| rel_rule i : rel (RRule i) (RRule i)
| rel_rule_name a b : rel a b -> rel (RRuleName a) (RRuleName b)
| rel_grammar x y i : rel (RGrammar x y i) (RGrammar x y i)
(* put in or left out *)
| rel_mon_r x i a b : rel a b -> rel a (RMonitor x i b)
| rel_mon_l x i a b : rel a b -> rel (RMonitor x i a) b
| rel_pick_r x i a b : kb = false -> nonconsuming e1 a -> rel a b -> rel a (RPick x i b)
| rel_pick_l x i a b : kb = false -> nonconsuming e2 b -> rel a b -> rel (RPick x i a) b
| rel_map_r i a b : kb = false -> nonconsuming e1 a -> rel a b -> rel a (RMap i b)
| rel_map_l i a b : kb = false -> nonconsuming e2 b -> rel a b -> rel (RMap i a) b
with rels : list reader -> list reader -> Prop :=
| rels_nil : rels [] []
| rels_cons a b l1 l2 : rel a b -> rels l1 l2 -> rels (a :: l1) (b :: l2).

Scheme rel_mind := Induction for rel Sort Prop with rels_mind := Induction for rels Sort Prop.
Combined Scheme rel_rels_ind from rel_mind, rels_mind.

Definition erel : Prop := forall i, r_name (get_rule e1 i) = r_name (get_rule e2 i) /\
  match r_reader (get_rule e1 i), r_reader (get_rule e2 i) with
  | Some a, Some b => rel a b
  | None, None => True
  | _, _ => False
  end.
Context (E : erel).

Lemma rel_what_both :
  (forall a b, rel a b -> what e1 a = what e2 b) /\
  (forall a b, rels a b -> map (what e1) a = map (what e2) b).
Proof.
  apply rel_rels_ind; intros; cbn [what]; auto;
    try (fold (map (what e1)); fold (map (what e2)));
    try congruence.
  - destruct (E i) as [-> _]. reflexivity.
  - cbn. congruence.
Qed.
Definition rel_what a b := proj1 rel_what_both a b.

(** The body of Pick and Map. *)
Definition around (f : token -> heap -> heap) (rd : M (option err)) : M (option err) :=
  let* te := tokenize_use rd in
  match snd te with
  | None => modh (f (fst te)) ;; ret None
  | Some x => ret (Some x)
  end.
Definition nonc (m : M (option err)) : Prop := forall s x s', in_text s -> m s = Ok (Some x, s') -> pos (sc s') = pos (sc s).

Lemma around_run f rd s : 0 <= pos (sc s) -> around f rd s =
  match rd s with
  | Ok (None, s') => Ok (None, with_heap (f (make_token (pos (sc s)) (pos (sc s'))) (hp s')) s')
  | Ok (Some x, s') => Ok (Some x, moveto (pos (sc s)) s')
  | Panic => Panic | Fuel => Fuel end.
Proof.
  intros H. unfold around, tokenize_use, mark, gets, bind. destruct (rd s) as [[[x|] s']| |]; auto.
  rewrite to_marker_nonneg by auto. reflexivity.
Qed.
Lemma hrel_track_r k p h1 h2 : kb = false -> hrel h1 h2 -> hrel h1 (track k p h2).
Proof. intros K [A B]. split; [|congruence]. intros C. rewrite (A C). destruct k; reflexivity. Qed.
Lemma hrel_track_l k p h1 h2 : kb = false -> hrel h1 h2 -> hrel (track k p h1) h2.
Proof. intros K [A B]. split; [|congruence]. intros C. rewrite <- (A C). destruct k; reflexivity. Qed.

Lemma sim_around_r t f m1 rd2 : kb = false -> nonc m1 -> (forall tk h, h_cells (f tk h) = h_cells h) ->
  sim t m1 rd2 -> sim t m1 (around f rd2).
Proof.
  intros K N F H s1 s2 R. pose proof R as (R1 & R2 & R3 & R4 & R5 & R6). specialize (H s1 s2 R).
  rewrite around_run by (rewrite <- R3; destruct R4; lia).
  destruct (m1 s1) as [[[x|] s1']| |] eqn:E1; auto.
  - destruct H as (s2' & E2 & (Q1 & Q2 & Q3 & Q4 & Q5 & Q6)). rewrite E2. eexists. split; [reflexivity|].
    specialize (N _ _ _ R4 E1). split; [exact Q1|]. split; [exact Q2|]. split; [cbn; lia|]. split; [exact Q4|]. split; [congruence|].
    apply hrel_track_r; auto.
  - destruct H as (s2' & E2 & (Q1 & Q2 & Q3 & Q4 & Q5 & Q6)). rewrite E2. eexists. split; [reflexivity|].
    split; [exact Q1|]. split; [exact Q2|]. split; [exact Q3|]. split; [exact Q4|]. split; [congruence|].
    destruct Q6 as [A B]. split; [|congruence]. intros C. cbn. rewrite F. auto.
  - rewrite H. reflexivity.
Qed.
Lemma sim_around_l t f rd1 m2 : kb = false -> nonc m2 -> (forall tk h, h_cells (f tk h) = h_cells h) ->
  sim t rd1 m2 -> sim t (around f rd1) m2.
Proof.
  intros K N F H s1 s2 R. pose proof R as (R1 & R2 & R3 & R4 & R5 & R6). specialize (H s1 s2 R).
  rewrite around_run by (destruct R4; lia).
  assert (R4' : in_text s2) by (destruct R4; split; rewrite R2, <- R1, <- ?R3; auto).
  destruct (rd1 s1) as [[[x|] s1']| |] eqn:E1; auto.
  - destruct H as (s2' & E2 & (Q1 & Q2 & Q3 & Q4 & Q5 & Q6)). rewrite E2. eexists. split; [reflexivity|].
    specialize (N _ _ _ R4' E2). split; [exact Q1|]. split; [exact Q2|]. split; [cbn; lia|]. split; [apply in_text_move; auto; destruct R4; rewrite Q1, <- R1; lia|]. split; [congruence|].
    apply hrel_track_l; auto.
  - destruct H as (s2' & E2 & (Q1 & Q2 & Q3 & Q4 & Q5 & Q6)). rewrite E2. eexists. split; [reflexivity|].
    split; [exact Q1|]. split; [exact Q2|]. split; [exact Q3|]. split; [exact Q4|]. split; [congruence|].
    destruct Q6 as [A B]. split; [|congruence]. intros C. cbn. rewrite F. auto.
Qed.
Lemma sim_around t f1 f2 rd1 rd2 : (forall tk h1 h2, hrel h1 h2 -> hrel (f1 tk h1) (f2 tk h2)) ->
  sim t rd1 rd2 -> sim t (around f1 rd1) (around f2 rd2).
Proof.
  intros F H. unfold around. apply sim_bind; [apply sim_tokenize; auto|]. intros [tk [x|]]; cbn [fst snd]; [apply sim_ret|].
  apply sim_bind; [apply sim_modh; auto|intros; apply sim_ret].
Qed.

(** Monitor: only the log changes. *)
Definition monitored (info : bytes) (lg : nat) (rd : M (option err)) : M (option err) :=
  let* p := mark in
  let* ptr := gets (fun s => fst (log_enter info p (get_log lg (hp s)))) in
  modh (fun h => put_log lg (snd (log_enter info p (get_log lg h))) h) ;;
  let* x := rd in
  let* q := mark in
  modh (fun h => put_log lg (log_exit ptr q x (get_log lg h)) h) ;;
  ret x.
Lemma hrel_log_l lg l h1 h2 : hrel h1 h2 -> hrel (put_log lg l h1) h2.
Proof. intros [A B]. split; auto. Qed.
Lemma hrel_log_r lg l h1 h2 : hrel h1 h2 -> hrel h1 (put_log lg l h2).
Proof. intros [A B]. split; auto. Qed.
Lemma srel_heap_r t s1 s2 h : hrel (hp s1) h -> srel t s1 s2 -> srel t s1 (with_heap h s2).
Proof. intros H (R1 & R2 & R3 & R4 & R5 & R6). split; [exact R1|]. split; [exact R2|]. split; [exact R3|]. split; [exact R4|]. split; [exact R5|exact H]. Qed.
Lemma srel_heap_l t s1 s2 h : hrel h (hp s2) -> srel t s1 s2 -> srel t (with_heap h s1) s2.
Proof. intros H (R1 & R2 & R3 & R4 & R5 & R6). split; [exact R1|]. split; [exact R2|]. split; [exact R3|]. split; [exact R4|]. split; [exact R5|exact H]. Qed.
Lemma srel_hrel t s1 s2 : srel t s1 s2 -> hrel (hp s1) (hp s2).
Proof. intros (R1 & R2 & R3 & R4 & R5 & R6). exact R6. Qed.
Lemma sim_mon_r t x i m1 rd2 : sim t m1 rd2 -> sim t m1 (monitored x i rd2).
Proof.
  intros H s1 s2 R. unfold monitored, mark, gets, modh, modify, bind.
  set (s2a := with_heap _ s2). assert (R' : srel t s1 s2a) by (apply srel_heap_r; auto; apply hrel_log_r; eapply srel_hrel; eauto).
  specialize (H s1 s2a R'). destruct (m1 s1) as [[y s1']| |]; auto.
  - destruct H as (s2' & E2 & Q). rewrite E2. eexists. split; [reflexivity|].
    apply srel_heap_r; auto. apply hrel_log_r; eapply srel_hrel; eauto.
  - rewrite H. reflexivity.
Qed.
Lemma sim_mon_l t x i rd1 m2 : sim t rd1 m2 -> sim t (monitored x i rd1) m2.
Proof.
  intros H s1 s2 R. unfold monitored, mark, gets, modh, modify, bind.
  set (s1a := with_heap _ s1). assert (R' : srel t s1a s2) by (apply srel_heap_l; auto; apply hrel_log_l; eapply srel_hrel; eauto).
  specialize (H s1a s2 R'). destruct (rd1 s1a) as [[y s1']| |]; [|exact H|exact H].
  destruct H as (s2' & E2 & Q). rewrite E2. eexists. split; [reflexivity|].
  apply srel_heap_l; auto. apply hrel_log_l; eapply srel_hrel; eauto.
Qed.
Lemma sim_moves t l : (forall m, In m l -> 0 <= m <= slen t) -> sim t (do_moves l) (do_moves l).
Proof.
  induction l as [|m l IH]; intros H; cbn [do_moves]; [apply sim_ret|].
  apply sim_bind; [apply sim_marker, H; left; auto|]. intros _. apply IH. intros; apply H; right; auto.
Qed.
Lemma sim_gets {A B} t (P : A -> Prop) (f1 f2 : st -> A) (k1 k2 : A -> M B) :
  (forall s1 s2, srel t s1 s2 -> f1 s1 = f2 s2 /\ P (f1 s1)) ->
  (forall x, P x -> sim t (k1 x) (k2 x)) -> sim t (bind (gets f1) k1) (bind (gets f2) k2).
Proof.
  intros H1 H2 s1 s2 R. unfold gets, bind. destruct (H1 _ _ R) as [E0 P1]. rewrite <- E0. apply H2; auto.
Qed.
Lemma sim_wrap t f : wrap_inside f ->
  sim t (let* me := gets (fun s => f (full (sc s)) (pos (sc s))) in do_moves (fst me) ;; ret (snd me))
        (let* me := gets (fun s => f (full (sc s)) (pos (sc s))) in do_moves (fst me) ;; ret (snd me)).
Proof.
  intros W. apply (sim_gets t (fun me => forall m, In m (fst me) -> 0 <= m <= slen t)).
  - intros s1 s2 (R1 & R2 & R3 & _). rewrite <- R3, R1, R2. split; [reflexivity|]. intros m. apply W.
  - intros me Hm. apply sim_bind; [|intros; apply sim_ret]. apply sim_moves. auto.
Qed.

Lemma hrel_val i v h1 h2 : hrel h1 h2 -> hrel (put_val i v h1) (put_val i v h2).
Proof. intros [A B]. split; [exact A|]. intros K. destruct (B K) as (B1 & B2 & B3). cbn. rewrite B3. auto. Qed.
Lemma hrel_cell i v h1 h2 : hrel h1 h2 -> hrel (put_cell i v h1) (put_cell i v h2).
Proof. intros [A B]. split; [|exact B]. intros K. cbn. rewrite (A K). auto. Qed.

Theorem sim_read n1 : forall r1 r2, rel r1 r2 ->
  exists N, forall n2, (N <= n2)%nat -> forall t, sim t (read n1 e1 r1) (read n2 e2 r2).
Proof.
  induction n1 as [|n1 IH]; intros r1 r2 H; [exists 0%nat; intros; apply sim_fuel|].
  assert (IL : forall l1 l2, rels l1 l2 -> exists N, forall n2, (N <= n2)%nat -> forall t,
    Forall2 (sim t) (map (read n1 e1) l1) (map (read n2 e2) l2)).
  { induction 1 as [|a b l1 l2 Hab Hl IHl]; [exists 0%nat; intros; constructor|].
    destruct (IH _ _ Hab) as [N1 H1], IHl as [N2 H2]. exists (N1 + N2)%nat. intros n2 Hn t. constructor; [apply H1; lia|apply H2; lia]. }
  induction H;
    let W := fresh "W" in
    match goal with
    | |- exists N, forall n2, _ -> forall t, sim t (read _ _ ?a) (read _ _ ?b) =>
        assert (W : what e1 a = what e2 b) by (apply rel_what; econstructor; eauto; fail)
    end.
  all: try match goal with
    | |- exists N, forall n2, _ -> forall t, sim t _ (read n2 e2 (RMonitor _ _ _)) => idtac
    | |- exists N, forall n2, _ -> forall t, sim t (read _ e1 (RMonitor _ _ _)) _ => idtac
    | H : kb = false |- _ => idtac
    | H1 : rel ?a ?b, H2 : rel ?c ?d |- _ =>
        destruct (IH _ _ H1) as [N1 HN1], (IH _ _ H2) as [N2 HN2]; exists (S (S n1 + N1 + N2))
    | H1 : rel ?a ?b, H2 : rels ?c ?d |- _ =>
        destruct (IH _ _ H1) as [N1 HN1], (IL _ _ H2) as [N2 HN2]; exists (S (S n1 + N1 + N2))
    | H1 : rel ?a ?b |- _ =>
        destruct (IH _ _ H1) as [N1 HN1]; exists (S (S n1 + N1))
    | H1 : rels ?a ?b |- _ =>
        destruct (IL _ _ H1) as [N1 HN1]; exists (S (S n1 + N1))
    | |- exists N, forall n2, _ -> forall t, sim t (read _ _ ?a) (read _ _ ?a) =>
       match a with RRule _ => idtac | RGrammar _ _ _ => idtac | _ => exists 1%nat end
    end.
  all: try (intros n2 Hn t; destruct n2 as [|n2]; [exfalso; lia|]; cbn [read]; rewrite ?W).
  all: try (repeat first
    [ match goal with
      | HN : forall n2, _ -> forall t, sim t (read _ e1 ?a) (read n2 e2 ?b) |- sim _ (read _ e1 ?a) _ => apply HN; lia
      end
    | apply sim_ret | apply sim_if_any_rune | apply sim_at_end | apply sim_if_between | apply sim_bany | apply sim_read_bool
    | apply sim_if_fold | apply sim_read_int | apply sim_read_uint | apply sim_if_str | apply sim_if_match | apply sim_if_rune | apply sim_runes1
    | apply sim_error_if_false | apply sim_error_for | (apply sim_marker; lia) | apply sim_tail | apply sim_move
    | (apply sim_rep; [lia|]) | (apply sim_past; [lia|]) | (apply sim_to; [lia|]) | apply sim_times
    | (apply sim_any; [|lia]; apply HN1; lia) | (apply sim_seq; [|lia]; apply HN1; lia) | (apply sim_skip; [|apply HN2; lia])
    | (apply sim_body; [lia|lia|intros; apply HN1; lia|apply HN2; lia])
    | apply sim_if | (apply sim_mark; intros) | (apply sim_bind; [|intros])
    | match goal with |- sim _ (match ?x with _ => _ end) _ => destruct x end
    ]; fail).
  - (* Bool *) apply sim_bind; [apply sim_read_bool|]. intros x0. apply sim_bind; [|intros; apply sim_ret].
    apply sim_modh. apply hrel_val.
  - (* Int *) apply sim_bind; [apply sim_read_int|]. intros x0. apply sim_bind; [|intros; apply sim_ret].
    apply sim_modh. apply hrel_val.
  - (* JanusBeg *) apply sim_bind; [apply sim_tokenize; apply HN1; lia|]. intros [tk [y|]]; cbn [fst snd]; [apply sim_ret|].
    apply sim_bind; [apply sim_get_tok|]. intros str. apply sim_bind; [|intros; apply sim_ret].
    apply sim_modh. apply hrel_cell.
  - (* JanusEnd *) apply (sim_gets t (fun _ => True)); [|intros str _].
    { intros s1 s2 R. split; [|exact I]. destruct (srel_hrel _ _ _ R) as [A _]. unfold get_cell. rewrite A; auto. }
    apply sim_bind; [apply sim_if_str|]. intros ok. apply sim_bind; [apply sim_error_if_false|]. intros [y|]; [apply sim_ret|].
    apply sim_bind; [|intros; apply sim_ret]. apply sim_modh. apply hrel_cell.
  - (* Map *) apply (sim_around t (fun tk => add_event i tk) (fun tk => add_event i tk)); [|apply HN1; lia].
    intros tk h1 h2 [A B]. split; [exact A|]. intros K. destruct (B K) as (B1 & B2 & B3). cbn. rewrite B2. auto.
  - (* Not *) rewrite (rel_what _ _ H). apply sim_mark. intros m Hm. apply sim_bind; [apply HN1; lia|]. intros y.
    apply sim_bind; [apply sim_marker; lia|]. intros _. destruct y; [|apply sim_error_for].
    apply sim_bind; [apply sim_runes1|intros; apply sim_ret].
  - (* Uint *) apply sim_bind; [apply sim_read_uint|]. intros x0. apply sim_bind; [|intros; apply sim_ret].
    apply sim_modh. apply hrel_val.
  - (* Wrap *) apply sim_wrap. auto.
  - (* Pick *) apply (sim_around t (fun tk => basket_add i (mkSeg x tk)) (fun tk => basket_add i (mkSeg x tk))); [|apply HN1; lia].
    intros tk h1 h2 [A B]. split; [exact A|]. intros K. destruct (B K) as (B1 & B2 & B3). cbn. unfold get_basket. rewrite B1. auto.
  - (* Rule *) destruct (E i) as [_ X]. destruct (r_reader (get_rule e1 i)) as [a|] eqn:E1, (r_reader (get_rule e2 i)) as [b|] eqn:E2; try tauto.
    + destruct (IH _ _ X) as [N HN]. exists (S N). intros n2 Hn t. destruct n2 as [|n2]; [lia|]. cbn [read]. rewrite E1, E2. apply HN. lia.
    + exists 1%nat. intros n2 Hn t. destruct n2 as [|n2]; [lia|]. cbn [read]. rewrite E1, E2. apply sim_panic.
  - (* Grammar *) destruct (E i) as [_ X]. destruct (r_reader (get_rule e1 i)) as [a|] eqn:E1, (r_reader (get_rule e2 i)) as [b|] eqn:E2; try tauto.
    + destruct (IH _ _ X) as [N HN]. exists (S N). intros n2 Hn t. destruct n2 as [|n2]; [lia|]. cbn [read]. rewrite E1, E2.
      apply sim_bind; [apply HN; lia|]. intros [z|]; apply sim_ret.
    + exists 1%nat. intros n2 Hn t. destruct n2 as [|n2]; [lia|]. cbn [read]. rewrite E1, E2. apply sim_panic.
  - (* Monitor right *) destruct IHrel as [N HN]. exists (S N). intros n2 Hn t. destruct n2 as [|n2]; [lia|].
    change (read (S n2) e2 (RMonitor x i b)) with (monitored x i (read n2 e2 b)). apply sim_mon_r. apply HN. lia.
  - (* Monitor left *) destruct (IH _ _ H) as [N HN]. exists N. intros n2 Hn t.
    change (read (S n1) e1 (RMonitor x i a)) with (monitored x i (read n1 e1 a)). apply sim_mon_l. apply HN. lia.
  - (* Pick right *) destruct IHrel as [N HN]. exists (S N). intros n2 Hn t. destruct n2 as [|n2]; [lia|].
    change (read (S n2) e2 (RPick x i b)) with (around (fun tk => basket_add i (mkSeg x tk)) (read n2 e2 b)).
    apply sim_around_r; auto; [|apply HN; lia]. intros s0 y s'. apply H0.
  - (* Pick left *) destruct (IH _ _ H1) as [N HN]. exists N. intros n2 Hn t.
    change (read (S n1) e1 (RPick x i a)) with (around (fun tk => basket_add i (mkSeg x tk)) (read n1 e1 a)).
    apply sim_around_l; auto. intros s0 y s'. apply H0.
  - (* Map right *) destruct IHrel as [N HN]. exists (S N). intros n2 Hn t. destruct n2 as [|n2]; [lia|].
    change (read (S n2) e2 (RMap i b)) with (around (fun tk => add_event i tk) (read n2 e2 b)).
    apply sim_around_r; auto; [|apply HN; lia]. intros s0 y s'. apply H0.
  - (* Map left *) destruct (IH _ _ H1) as [N HN]. exists N. intros n2 Hn t.
    change (read (S n1) e1 (RMap i a)) with (around (fun tk => add_event i tk) (read n1 e1 a)).
    apply sim_around_l; auto. intros s0 y s'. apply H0.
Qed.
End Rel.
End Sim.
