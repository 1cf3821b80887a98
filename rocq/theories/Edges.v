(** Edges.v - Reads in well-formed UTF-8 begin and end between runes, and so does everything they report (C170). *)
From Verif Require Export PegTotal TraceFacts MarksFacts.
From Coq Require Import Lia ZifyBool.

(** Literals are valid UTF-8; [bd]: Body and BodyTail are allowed. *)
Definition whole1 (bd : bool) (r : reader) : bool :=
  match r with RLit x => valid x | RBody _ _ | RBodyTail _ _ => bd | _ => true end.
Definition wfcs (c : cells) : Prop := forall i, wf_text (get [] c i).
Lemma wfcs_put c i x : wfcs c -> wf_text x -> wfcs (put [] c i x).
Proof. intros C X j. rewrite get_put. destruct (Nat.eqb i j); auto. Qed.
(** Position [p] of text [t] lies between two runes, or at an end. *)
Definition edge (t : bytes) (p : Z) : Prop := exists x y, t = x ++ y /\ p = slen x /\ wf_text x /\ wf_text y.
(** Token [k] of text [t] is made of whole runes, and so is the text before and behind it. *)
Definition piece (t : bytes) (k : token) : Prop := exists x y z, t = x ++ y ++ z /\ t_from k = slen x /\ t_to k = slen x + slen y /\ wf_text x /\ wf_text y /\ wf_text z.

Section Edges.
Context (e : env) (bd : bool) (He : eall (whole1 bd) e) (t : bytes).
Definition wgood (r : reader) : Prop := rall (whole1 bd) r = true.
(** A rest of the text that begins with a rune. *)
Definition sfx (b : bytes) : Prop := wf_text b /\ exists a, t = a ++ b.
Definition wgood_item (i : item) : Prop :=
  match i with
  | IR r | IRep r | ITimes _ r | IPast r | ITo r => wgood r
  | IAny rs | ISeq rs => forall r, In r rs -> wgood r
  | IBody y _ d r => bd = true /\ wgood d /\ wgood r /\ sfx y
  end.
Lemma wgood_list rs : forallb (rall (whole1 bd)) rs = true <-> forall r, In r rs -> wgood r.
Proof. apply forallb_forall. Qed.
Lemma wgood_interleave sk rs : wgood sk -> (forall r, In r rs -> wgood r) -> forall r, In r (interleave sk rs) -> wgood r.
Proof.
  intros A B r. rewrite interleave_flat. intros [<-|I]; auto. apply in_flat_map in I as (x & I1 & [<-|[<-|[]]]); auto.
Qed.
Lemma sfx_of d b : sfx (d ++ b) -> wf_text b -> sfx b.
Proof. intros [_ [a E]] W. split; [exact W|]. exists (a ++ d). rewrite E, app_assoc. reflexivity. Qed.
Lemma sfx_after b : sfx b -> sfx (after_rune b).
Proof.
  intros S. pose proof S as [W _]. apply (sfx_of (firstn (snd (decode_rune b)) b)); [|apply wf_after, W]. unfold after_rune. rewrite firstn_skipn. exact S.
Qed.
Lemma sfx_step b : sfx b -> sfx (snd (step b)).
Proof. intros S. destruct (step_suffix b) as [d E]. pose proof S as [W _]. rewrite E in S. apply (sfx_of d _ S), wf_step, W. Qed.
Lemma sfx_rest x b : sfx (x ++ b) -> wf_text x -> sfx b.
Proof. intros S X. pose proof S as [W _]. apply (sfx_of x _ S). apply (wf_rest x); auto. Qed.
Lemma sfx_edge b : wf_text t -> sfx b -> edge t (slen t - slen b).
Proof. intros W [B [a E]]. exists a, b. split; [exact E|]. split; [rewrite E, slen_app; lia|]. split; [|exact B]. apply (wf_begin a b); [auto|]. rewrite <- E. auto. Qed.

Lemma sfx_piece d b : wf_text t -> sfx (d ++ b) -> sfx b -> piece t (mkTok (slen t - slen (d ++ b)) (slen t - slen b)).
Proof.
  intros W [A [a E]] [B _]. exists a, d, b. split; [exact E|]. cbn [t_from t_to]. rewrite E, !slen_app. split; [lia|]. split; [lia|].
  split; [apply (wf_begin a (d ++ b)); [auto|rewrite <- E; auto]|]. split; [apply (wf_begin d b); auto|auto].
Qed.
End Edges.
Ltac wgd H := unfold wgood in H; cbn [rall] in H; rewrite ?andb_true_iff, ?wgood_list in H.
Ltac prep := cbn [wgood_item] in *;
    repeat match goal with
    | X : wgood _ (_ _) |- _ => wgd X; cbn [whole1] in X
    | X : wgood _ (_ _ _) |- _ => wgd X; cbn [whole1] in X
    | X : wgood _ (_ _ _ _) |- _ => wgd X; cbn [whole1] in X
    end.

(** Reads end between runes. *)
Lemma eats_sfx e bd (He : eall (whole1 bd) e) i c b ok c' b' : eats e i c b ok c' b' -> forall t, wgood_item bd t i -> sfx t b -> wfcs c -> sfx t b' /\ wfcs c'.
Proof.
  induction 1; intros t0 G B C; prep; auto.
  - destruct (test f b); auto using sfx_after.
  - split; auto. destruct G as [G _]. eapply sfx_rest; [exact B|apply valid_wf, G].
  - apply IHeats; auto. exact (He _ _ H).
  - apply IHeats; auto. exact (He _ _ H).
  - destruct G. apply IHeats; auto.
  - destruct G. apply IHeats; auto.
  - destruct G. apply IHeats; auto.
  - destruct G, (IHeats t0); auto. destruct ok; auto.
  - destruct G, (IHeats t0); auto. destruct ok; auto.
  - destruct G. apply IHeats; auto.
  - destruct G, (IHeats t0); auto.
  - destruct G, (IHeats t0); auto. destruct ok; auto using sfx_step.
  - destruct G, (IHeats t0); auto. destruct ok; auto.
  - destruct G, (IHeats t0); auto. destruct ok; auto.
  - destruct G as (_ & G1 & G2). destruct (IHeats t0 (wgood_interleave _ _ _ G1 G2) B C). destruct ok; auto.
  - destruct G. apply IHeats; auto.
  - destruct G. apply IHeats; auto.
  - destruct G. apply IHeats; auto.
  - destruct G, (IHeats t0); auto. destruct ok; auto.
  - destruct G, (IHeats t0); auto. destruct ok; auto.
  - destruct G as (G0 & G1 & G2), (IHeats t0); auto. destruct ok; auto.
  - destruct G as (G0 & G1 & G2), (IHeats t0); auto. destruct ok; auto.
  - destruct G, (IHeats t0) as [S1 C1]; auto. split; auto. apply wfcs_put; auto. apply (wf_begin x b); [apply S1|apply B].
  - destruct G, (IHeats t0); auto.
  - split; [|apply wfcs_put; auto; apply wf_nil]. eapply sfx_rest; [exact B|apply C].
  - apply IHeats; auto. apply G. left; auto.
  - destruct (IHeats1 t0); auto; [apply G; left; auto|]. apply IHeats2; auto. intros q I. apply G. right. auto.
  - apply IHeats; auto. apply G. left; auto.
  - destruct (IHeats1 t0); auto; [apply G; left; auto|]. apply IHeats2; auto. intros q I. apply G. right. auto.
  - destruct (IHeats1 t0); auto.
  - destruct (IHeats1 t0); auto.
  - destruct (IHeats1 t0); auto using sfx_step.
  - destruct (IHeats t0); auto.
  - destruct (IHeats t0) as [S1 C1]; auto. split; auto. pose proof (sfx_step t0 b1 S1) as X. rewrite H0 in X. exact X.
  - destruct (IHeats1 t0) as [S1 C1]; auto. apply IHeats2; auto. pose proof (sfx_step t0 b1 S1) as X. rewrite H0 in X. exact X.
  - destruct G as (G0 & G1 & G2 & G3). destruct (IHeats1 t0) as [S1 C1]; auto.
    assert (S : wf_text str) by (apply (wf_begin str b); [apply B|apply G3]). destruct (IHeats2 str) as [_ C2]; auto; [split; [exact S|exists []; auto]|]. split; auto. destruct (k && _); auto.
  - destruct G as (G0 & G1 & G2 & G3). destruct (IHeats1 t0); auto. apply IHeats2; auto using sfx_step.
Qed.

(** The calls of functions and the entries of Logs, if there is no Body. *)
Definition edge_act (t : bytes) (a : act) : Prop :=
  match a with ACall _ k => piece t k | ATry _ _ _ p _ q => edge t p /\ edge t q end.
Lemma deeper_edges t lg l : Forall (edge_act t) l -> Forall (edge_act t) (map (deeper lg) l).
Proof. induction 1 as [|a l A _ IH]; constructor; auto. destruct a; cbn; auto. destruct (Nat.eqb _ _); auto. Qed.
Lemma traces_edges e (He : eall (whole1 false) e) N i c b ok c' b' l : traces e N i c b ok c' b' l -> forall t, slen t = N -> wf_text t ->
  wgood_item false t i -> sfx t b -> wfcs c -> Forall (edge_act t) l.
Proof.
  induction 1; intros t0 HN W G B C; prep; auto.
  all: try (match goal with X : false = true /\ _ |- _ => destruct X; discriminate end).
  all: try (constructor; fail).
  all: try (match goal with X : true = true /\ _ |- _ => destruct X as [_ G] end).
  all: try (apply IHtraces; auto; fail).
  all: try (match goal with
    | T : traces _ _ ?j ?c0 ?b0 _ ?c1 ?b1 _, T2 : traces _ _ _ ?c1 _ _ _ _ _, X : sfx _ ?b0, Y : wfcs ?c0 |- _ =>
      assert (M : wgood_item false t0 j -> sfx t0 b1 /\ wfcs c1) by (intros Gj; exact (eats_sfx _ _ He _ _ _ _ _ _ (traces_eats _ _ _ _ _ _ _ _ _ T) t0 Gj X Y)); cbn [wgood_item] in M
    end).
  all: try (apply Forall_app; split; [apply IHtraces1; auto; apply G; left; auto|];
    apply IHtraces2; auto; [intros q I; apply G; right; auto|apply M, G; left; auto|apply M, G; left; auto]; fail).
  all: try (apply Forall_app; split; [apply IHtraces1; auto|]; apply IHtraces2; auto; try (apply sfx_step); apply M; auto; fail).
  - apply IHtraces; auto. exact (He _ _ H).
  - apply IHtraces; auto. exact (He _ _ H).
  - assert (S1 : sfx t0 b') by (eapply (eats_sfx _ _ He _ _ _ _ _ _ (traces_eats _ _ _ _ _ _ _ _ _ H) t0); eauto).
    constructor; [|apply deeper_edges; auto]. subst N. cbn. auto using sfx_edge.
  - assert (S1 : sfx t0 b') by (eapply (eats_sfx _ _ He _ _ _ _ _ _ (traces_eats _ _ _ _ _ _ _ _ _ H) t0); eauto).
    destruct ok; auto. apply Forall_app. split; auto. constructor; [|constructor]. subst N.
    destruct (eats_suffix _ _ _ _ _ _ _ (traces_eats _ _ _ _ _ _ _ _ _ H)) as [d ->]. apply sfx_piece; auto.
  - destruct G as [G1 G2]. apply IHtraces; auto. apply wgood_interleave; auto.
  - apply IHtraces; auto. apply G. left; auto.
  - apply IHtraces; auto. apply G. left; auto.
  - apply Forall_app. destruct (M G) as [S1 C1]. split; auto. apply IHtraces2; auto. pose proof (sfx_step t0 b1 S1) as X. rewrite H0 in X. exact X.
Qed.

(** The segments in a Basket, if nothing is picked inside a body. *)
Definition edge_seg (t : bytes) (g : segment) : Prop := piece t (s_tok g).
Lemma cut_edges t N b l : Forall (edge_seg t) l -> Forall (edge_seg t) (cut N b l).
Proof. unfold cut. induction 1; cbn; [constructor|]. destruct (_ <=? _); auto. Qed.
Lemma back_edges t N ok b l : Forall (edge_seg t) l -> Forall (edge_seg t) (back N ok b l).
Proof. unfold back. destruct ok; auto using cut_edges. Qed.
Lemma marks_edges e (He : eall (whole1 true) e) k R N i c b ok c' b' l : marks e k R N i c b ok c' b' l -> forall t, slen t = N -> wf_text t ->
  wgood_item true t i -> sfx t b -> wfcs c -> Forall (edge_seg t) l.
Proof.
  induction 1; intros t0 HN W G B C; prep; auto; try (apply cut_edges); try (apply back_edges).
  all: try (constructor; fail).
  all: try (match goal with X : true = true /\ _ |- _ => destruct X as [_ G] end).
  all: try (apply IHmarks; auto; fail).
  all: try (match goal with
    | T : marks _ _ _ _ ?j ?c0 ?b0 _ ?c1 ?b1 _, T2 : marks _ _ _ _ _ ?c1 _ _ _ _ _, X : sfx _ ?b0, Y : wfcs ?c0 |- _ =>
      assert (M : wgood_item true t0 j -> sfx t0 b1 /\ wfcs c1) by (intros Gj; exact (eats_sfx _ _ He _ _ _ _ _ _ (marks_eats _ _ _ _ _ _ _ _ _ _ _ T) t0 Gj X Y)); cbn [wgood_item] in M
    end).
  all: try (apply Forall_app; split; [apply IHmarks1; auto; apply G; left; auto|];
    apply IHmarks2; auto; [intros q I; apply G; right; auto|apply M, G; left; auto|apply M, G; left; auto]; fail).
  all: try (apply Forall_app; split; [apply IHmarks1; auto|]; apply IHmarks2; auto; try (apply sfx_step); apply M; auto; fail).
  - apply IHmarks; auto. exact (He _ _ H).
  - apply IHmarks; auto. exact (He _ _ H).
  - assert (S1 : sfx t0 b') by (eapply (eats_sfx _ _ He _ _ _ _ _ _ (marks_eats _ _ _ _ _ _ _ _ _ _ _ H) t0); eauto).
    destruct ok; [|apply cut_edges; auto]. apply Forall_app. split; auto. unfold picked_by. destruct (Nat.eqb _ _); constructor; [|constructor]. subst N.
    destruct (eats_suffix _ _ _ _ _ _ _ (marks_eats _ _ _ _ _ _ _ _ _ _ _ H)) as [d ->]. apply sfx_piece; auto.
  - destruct G as [G1 G2]. apply IHmarks; auto. apply wgood_interleave; auto.
  - destruct G as [G1 G2]. apply IHmarks; auto.
  - destruct G as [G1 G2]. apply IHmarks; auto.
  - apply IHmarks; auto. apply G. left; auto.
  - apply IHmarks; auto. apply G. left; auto.
  - apply Forall_app. destruct (M G) as [S1 C1]. split; auto. apply IHmarks2; auto. pose proof (sfx_step t0 b1 S1) as X. rewrite H0 in X. exact X.
  - destruct G as (_ & G & _). apply IHmarks; auto.
  - destruct G as (G1 & G2 & G3). apply Forall_app. destruct (M ltac:(auto)) as [S1 C1]. split; auto. apply IHmarks2; auto using sfx_step.
Qed.
