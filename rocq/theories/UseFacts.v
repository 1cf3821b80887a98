(** UseFacts.v - Scanner.Use(r), against Read: what it returns, and when it does not. *)
From Verif Require Export PegFacts.
From Coq Require Import Lia ZifyBool.
From Verif Require Import ReaderSteps Peg.

(** s.Use(r) returns [x] in state [s']; it does not return. *)
Definition uses {L : GoLib} (e : env) (r : reader) (s : st) (x : option err) (s' : st) : Prop := exists n, use (read n e r) s = Ok (x, s').
Definition use_hangs {L : GoLib} (e : env) (r : reader) (s : st) : Prop := forall n, use (read n e r) s = Fuel.
Ltac run n := exists n; vm_compute; reflexivity.

Lemma uses_reads {L : GoLib} e r s x s' : 0 <= pos (sc s) -> (uses e r s x s' <->
  exists s1, reads e r s x s1 /\ s' = match x with None => s1 | Some _ => moveto (pos (sc s)) s1 end).
Proof.
  intros P. split.
  - intros [n U]. unfold use in U. rewrite (bind_ok _ _ _ _ _ (mark_ok s)) in U. apply bind_inv in U as (y & s1 & R & U). destruct y as [y|].
    + rewrite bind_run, to_marker_nonneg in U by auto. injection U as <- <-. exists s1. split; [exists n; auto|auto].
    + injection U as <- <-. exists s1. split; [exists n; auto|auto].
  - intros (s1 & [n R] & ->). exists n. unfold use. rewrite (bind_ok _ _ _ _ _ (mark_ok s)), (bind_ok _ _ _ _ _ R). destruct x; [|reflexivity].
    rewrite bind_run, to_marker_nonneg by auto. reflexivity.
Qed.
Lemma use_hangs_is {L : GoLib} e r s : use_hangs e r s <-> hangs e r s.
Proof.
  unfold use_hangs, hangs, use. split; intros H n; specialize (H n); rewrite (bind_ok _ _ _ _ _ (mark_ok s)), bind_run in *.
  - destruct (read n e r s) as [[[x|] s1]| |]; try discriminate; auto. rewrite bind_run in H. unfold to_marker in H.
    destruct (_ && _) in H; discriminate.
  - rewrite H. reflexivity.
Qed.
Lemma stands_at t a b c s : t = a ++ b -> stands t c b s -> at_split s a b.
Proof. intros -> (F & _ & _ & P & Lt). split; auto. split; auto. rewrite P, slen_app. lia. Qed.
