(** ExKit.v - helpers for the concrete cases shown beside the theorems. *)
From Verif Require Export Spec.
From Verif Require Import Utf8Facts.

(** A scanner over [text] standing at [p], nothing coupled. *)
Definition mk (text : bytes) (p : Z) : st := mkSt (mkSc text p None) heap0.

Lemma mk_split a b : slen (a ++ b) < 2 ^ 63 -> at_split (mk (a ++ b) (slen a)) a b.
Proof. repeat split; auto. Qed.
Ltac split_here := split; [vm_compute; reflexivity|split; [vm_compute; reflexivity|vm_compute; reflexivity]].
Ltac in_here := split; [split; vm_compute; discriminate|vm_compute; reflexivity].

(** Computes the chunks of a concrete text. *)
Fixpoint chunk_list (n : nat) (s : bytes) : list (Z * bytes) :=
  match n, s with
  | S n', _ :: _ => let '(v, i) := decode_rune s in (v, firstn i s) :: chunk_list n' (skipn i s)
  | _, _ => []
  end.
Lemma chunk_list_ok n : forall s, (length s <= n)%nat -> chunked s (chunk_list n s).
Proof.
  induction n as [|n IH]; intros s H.
  - destruct s; [constructor|cbn in H; lia].
  - destruct s as [|b t]; [constructor|]. cbn [chunk_list].
    destruct (decode_cases (b :: t) ltac:(discriminate)) as [(r & u & Hr & E & D)|[D B]]; rewrite D.
    + rewrite E. rewrite firstn_app, firstn_all, Nat.sub_diag, app_nil_r.
      rewrite skipn_app, skipn_all, Nat.sub_diag. cbn [app skipn].
      constructor; auto. apply IH. apply (f_equal (@length _)) in E. rewrite app_length in E.
      pose proof (utf8_length_pos r). cbn in E, H. lia.
    + cbn [firstn skipn]. constructor; auto. apply IH. cbn in H. lia.
Qed.
Lemma chunks_here s l : chunk_list (length s) s = l -> chunked s l.
Proof. intros <-. apply chunk_list_ok. lia. Qed.
Ltac chunks_here := apply chunks_here; vm_compute; reflexivity.
