(** Wire.v - the same readers over two sets of rules. *)
From Verif Require Export ReaderTrans.
From Coq Require Import Lia.

(** [q] with rule [k] kept at [f k]. *)
Fixpoint rewire (f : nat -> nat) (q : reader) : reader :=
  match q with
  | RAny rs => RAny (map (rewire f) rs)
  | RSeq rs => RSeq (map (rewire f) rs)
  | RSkipSeq sk rs => RSkipSeq (rewire f sk) (map (rewire f) rs)
  | RAt s => RAt (rewire f s)
  | RBody b t => RBody (rewire f b) (rewire f t)
  | RBodyTail b t => RBodyTail (rewire f b) (rewire f t)
  | RJanusBeg c w s => RJanusBeg c w (rewire f s)
  | RMany s => RMany (rewire f s)
  | RMap i s => RMap i (rewire f s)
  | RNamed w s => RNamed w (rewire f s)
  | RNot s => RNot (rewire f s)
  | ROpt s => ROpt (rewire f s)
  | RPast s => RPast (rewire f s)
  | RTimes n s => RTimes n (rewire f s)
  | RTo s => RTo (rewire f s)
  | RZom s => RZom (rewire f s)
  | RPick w b s => RPick w b (rewire f s)
  | RMonitor w l s => RMonitor w l (rewire f s)
  | RRuleName s => RRuleName (rewire f s)
  | RRule i => RRule (f i)
  | RGrammar w p i => RGrammar w p (f i)
  | _ => q
  end.
(** The rules that [q] names are of [S]. *)
Definition within (S : nat -> bool) (q : reader) : bool := match q with RRule i | RGrammar _ _ i => S i | _ => true end.

Section Wire.
Context {L : GoLib} (S : nat -> bool).
(** The rules of [S] are kept at [f] in [e] and at [g] in [e']. *)
Definition wired (f g : nat -> nat) (e e' : env) : Prop := forall k, S k = true ->
  r_name (get_rule e (f k)) = r_name (get_rule e' (g k)) /\
  ((r_reader (get_rule e (f k)) = None /\ r_reader (get_rule e' (g k)) = None) \/
   exists q, rall (within S) q = true /\ r_reader (get_rule e (f k)) = Some (rewire f q) /\ r_reader (get_rule e' (g k)) = Some (rewire g q)).
Lemma wired_sym f g e e' : wired f g e e' -> wired g f e' e.
Proof.
  intros H k K. destruct (H k K) as [N [[H1 H2]|(q & Q & H1 & H2)] ]; split; auto. right. exists q. auto.
Qed.
Section Two.
Context (f g : nat -> nat) (e e' : env) (W : wired f g e e').
Lemma what_wired q : rall (within S) q = true -> what e (rewire f q) = what e' (rewire g q).
Proof.
  revert q. assert (G : forall rs, Forall (fun q => rall (within S) q = true -> what e (rewire f q) = what e' (rewire g q)) rs -> forallb (rall (within S)) rs = true ->
    (fix whats (rs : list reader) : list bytes := match rs with [] => [] | x :: t => what e x :: whats t end) (map (rewire f) rs) =
    (fix whats (rs : list reader) : list bytes := match rs with [] => [] | x :: t => what e' x :: whats t end) (map (rewire g) rs)).
  { induction 1 as [|q rs Hq F IH]; [reflexivity|]. cbn [forallb map]. rewrite andb_true_iff. intros [A B]. rewrite Hq, IH; auto. }
  refine (reader_ind' _ _ _ _ _ _ _ _ _ _ _ _ _ _ _ _ _ _ _ _ _ _ _ _ _ _ _ _ _ _ _ _ _ _ _ _ _); intros; cbn [rewire]; try reflexivity;
    match goal with H : rall _ _ = true |- _ => cbn [rall] in H; rewrite ?andb_true_iff in H end; repeat match goal with H : _ /\ _ |- _ => destruct H end;
    cbn [what]; repeat match goal with IH : rall _ ?x = true -> _, H : rall _ ?x = true |- _ => rewrite (IH H); clear IH | F : Forall _ ?rs, H : forallb _ ?rs = true |- _ => rewrite (G rs F H); clear F end; try reflexivity.
  cbn [within] in *. apply W. auto.
Qed.
Lemma read_wired n : forall q, rall (within S) q = true -> fle (read n e (rewire f q)) (read n e' (rewire g q)).
Proof.
  induction n as [|n IH]; [intros; apply fle_fuel|]. intros q H.
  assert (Is : forall rs, forallb (rall (within S)) rs = true -> Forall2 fle (map (read n e) (map (rewire f) rs)) (map (read n e') (map (rewire g) rs))).
  { induction rs as [|x rs I]; cbn [forallb map]; [constructor|]. rewrite andb_true_iff. intros [A B]. constructor; auto. }
  pose proof (what_wired q H) as Wq. pose proof H as Hh. apply rall_here in Hh.
  destruct q; cbn [rall] in H; rewrite ?andb_true_iff in H; repeat match goal with H : _ /\ _ |- _ => destruct H end; cbn [rewire] in *; cbn [read]; rewrite ?Wq;
    try (repeat match goal with
     | |- fle ?a ?a => apply fle_refl
     | |- fle (bind _ _) (bind _ _) => apply fle_bind; [|intros]
     | |- fle (any_loop _ _ _) _ => apply fle_any
     | |- fle (seq_loop _ _) _ => apply fle_seq
     | |- fle (rep_loop _ _) _ => apply fle_rep; [lia|]
     | |- fle (times_loop _ _) _ => apply fle_times
     | |- fle (past_loop _ _) _ => apply fle_past; [lia|]
     | |- fle (to_loop _ _) _ => apply fle_to; [lia|]
     | |- fle (body_loop _ _ _ _ _) _ => apply fle_body; [lia| |]
     | |- fle (tokenize_use _) _ => unfold tokenize_use
     | |- fle (match ?x with _ => _ end) (match ?x with _ => _ end) => destruct x
     | |- fle (read _ _ (rewire _ _)) _ => apply IH; assumption
     | |- Forall2 _ _ _ => apply Is; assumption
     end; fail).
  - assert (what e (rewire f q) = what e' (rewire g q)) as -> by now apply what_wired.
    apply fle_bind; [apply fle_refl|intros m]. apply fle_bind; [now apply IH|intros x]. apply fle_refl.
  - unfold skip_seq. repeat first [apply fle_refl|apply fle_skip; auto|now apply IH|apply fle_bind; [|intros]|match goal with |- fle (match ?x with _ => _ end) _ => destruct x end].
  - destruct (W i Hh) as [_ [ [-> ->]|(q & Q & -> & ->)] ]; [apply fle_refl|auto].
  - destruct (W i Hh) as [_ [ [-> ->]|(q & Q & -> & ->)] ]; [apply fle_refl|]. apply fle_bind; [auto|intros; apply fle_refl].
Qed.
End Two.
Lemma same_wired f g e e' (W : wired f g e e') q n s : rall (within S) q = true -> read n e (rewire f q) s = read n e' (rewire g q) s.
Proof.
  intros H. destruct (read_wired f g e e' W n q H s) as [A|A]; [|exact A]. destruct (read_wired g f e' e (wired_sym _ _ _ _ W) n q H s) as [B|B]; congruence.
Qed.
End Wire.
