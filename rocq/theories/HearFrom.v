(** HearFrom.v - where the calls of mapped functions come from: each is for a parse of a mapped rule, at a place of the
    text that meets any invariant the grammar keeps. *)
From Verif Require Export TraceFacts Silent PropTrack LuaSyntax.
From Coq Require Import Lia ZifyBool.

(** Below Body and BodyTail only rules of [R]; nothing mapped or picked. *)
Definition unheard (R : nat -> bool) (r : reader) : Prop :=
  match r with RMap _ _ | RPick _ _ _ => False | RBody d _ | RBodyTail d _ => rallP (silent R) d | _ => True end.

Section From.
Context (e e' : env) (who : bytes -> nat) (sel R : nat -> bool) (Al : altered (fun r => rule_map e (who (r_name r)) r) sel e e').
Context (Co : complete e) (Re : restores e).
Context (Rs : forall i, R i = true -> sel i = false) (Rb : forall i r, R i = true -> r_reader (get_rule e i) = Some r -> rallP (silent R) r).
Context (N : Z) (W : cells -> bytes -> Prop) (G : reader -> Prop) (Gu : forall r, G r -> unheard R r).
Context (Ge : forall i r, r_reader (get_rule e i) = Some r -> rallP G r) (HWs : forall c b, W c b -> W c (snd (step b))).
Context (HW : forall r c b ok c' b', rallP G r -> eats e (IR r) c b ok c' b' -> W c b -> W c' b').
(** A call for a read of a mapped rule. *)
Definition call_of_read (a : act) : Prop :=
  match a with
  | ACall id t => exists j q c0 b0 c1 b1, sel j = true /\ r_reader (get_rule e j) = Some q /\ id = who (r_name (get_rule e j)) /\
      W c0 b0 /\ eats e (IR q) c0 b0 true c1 b1 /\ t = mkTok (N - slen b0) (N - slen b1)
  | ATry _ _ _ _ _ _ => True
  end.
(** A reader without maps, or a map of one. *)
Definition once (r : reader) : Prop :=
  rallP G r \/ exists j q, r = RMap (who (r_name (get_rule e j))) q /\ sel j = true /\ r_reader (get_rule e j) = Some q.
Definition onces (i : item) : Prop :=
  match i with
  | IR r => once r
  | IRep r | ITimes _ r | IPast r | ITo r => rallP G r
  | IAny rs | ISeq rs => Forall (rallP G) rs
  | IBody _ _ d t => rallP G t /\ rallP (silent R) d
  end.
Lemma once_rule i q : r_reader (get_rule e' i) = Some q -> once q.
Proof.
  intros Q. destruct Al as [Ln Gt]. destruct (Nat.lt_ge_cases i (length e)) as [K|K]; [|rewrite rule_beyond in Q by lia; discriminate].
  pose proof (Co i K) as C. destruct (r_reader (get_rule e i)) as [r|] eqn:Er; [|contradiction]. rewrite Gt in Q by auto. destruct (sel i) eqn:S.
  - unfold rule_map, rule_sub in Q. cbn [r_reader] in Q. rewrite Er in Q. injection Q as <-. right. exists i, r. auto.
  - rewrite Er in Q. injection Q as <-. left. eauto.
Qed.
Lemma after c b ok c' b' r N' l : traces e' N' (IR r) c b ok c' b' l -> rallP G r -> W c b -> W c' b'.
Proof. intros T Hr Hw. eapply HW; [exact Hr| |exact Hw]. apply (eats_map e e' who sel Al Co Re). eapply traces_eats; eauto. Qed.
Lemma calm N' r c b ok c' b' l : traces e' N' (IR r) c b ok c' b' l -> rallP (silent R) r -> l = [].
Proof.
  intros T H. apply (traces_det _ _ _ _ _ _ _ _ _ T ok c' b'). apply (silent_traces e e' R).
  - intros i q Hi Q. split; [apply (map_no e e' who sel Al); auto|eapply Rb; eauto].
  - apply (eats_map e e' who sel Al Co Re). eapply traces_eats; eauto.
  - exact H.
Qed.
Lemma deeper_from lg l : Forall call_of_read l -> Forall call_of_read (map (deeper lg) l).
Proof. intros H. apply Forall_map. revert H. apply Forall_impl. intros [id t|g w v p ok q]; cbn; auto. destruct (Nat.eqb g lg); auto. Qed.

Lemma calls_from n i c b ok c' b' l : traces e' n i c b ok c' b' l -> n = N -> onces i -> W c b -> Forall call_of_read l.
Proof.
  induction 1; intros En Hi Hw; subst; cbn [onces] in Hi; try (constructor; fail);
  try match goal with
  | X : once (RMap _ _) |- _ => idtac
  | X : once _ |- _ => destruct X as [X|(j & q & X & _)]; [|discriminate]; cbn [rallP] in X
  end.
  all: repeat match goal with
  | X : _ /\ _ |- _ => destruct X
  | X : Forall _ (_ :: _) |- _ => inversion_clear X
  | X : fold_right _ True ?l0 |- _ => apply all_Forall in X
  end.
  all: try solve [apply IHtraces; auto; left; auto|apply IHtraces; auto].
  all: try solve [apply Forall_app; split; [apply IHtraces1; auto; left; auto|]; apply IHtraces2; auto; try apply HWs; eapply after; eauto].
  - apply IHtraces; auto. eapply once_rule; eauto.
  - apply IHtraces; auto. eapply once_rule; eauto.
  - constructor; [exact Logic.I|]. apply deeper_from. apply IHtraces; auto. left; auto.
  - destruct Hi as [[Hi _]|(j & q & E & Sj & Q)]; [destruct (Gu _ Hi)|]. injection E as -> <-.
    assert (F : Forall call_of_read l) by (apply IHtraces; auto; left; eauto). destruct ok; auto. apply Forall_app. split; auto. constructor; auto.
    exists j, r, c, b, c', b'. repeat split; auto. apply (eats_map e e' who sel Al Co Re). eapply traces_eats; eauto.
  - apply IHtraces; auto. cbn. apply all_interleave; auto.
  - apply IHtraces; auto. cbn. split; auto. exact (Gu _ H0).
  - apply IHtraces; auto. cbn. split; auto. exact (Gu _ H0).
  - apply Forall_app; split; [apply IHtraces1; auto; left; auto|]. apply IHtraces2; auto. replace b2 with (snd (step b1)) by (rewrite H0; auto). apply HWs. eapply after; eauto.
  - apply Forall_app; split; [apply IHtraces1; auto; left; auto|]. match goal with T : traces e' _ (IR d) _ _ _ _ _ l2 |- _ => rewrite (calm _ _ _ _ _ _ _ _ T) by auto end. constructor.
  - apply Forall_app; split; [apply IHtraces1; auto; left; auto|]. apply IHtraces2; [auto|split; auto|]. apply HWs. eapply after; eauto.
Qed.
End From.

(** The calls of a read, in a text that meets the invariant. *)
Section Read.
Context {L : GoLib} (e : env) (who : bytes -> nat) (ids : list nat) (R : nat -> bool) (Nd : NoDup ids) (In_e : forall i, In i ids -> (i < length e)%nat).
Context (Co : complete e) (Re : restores e) (Ce : eall covered e).
Context (Rs : forall i, In i ids -> R i = false) (Rb : forall i r, R i = true -> r_reader (get_rule e i) = Some r -> rallP (silent R) r).
Context (W : cells -> bytes -> Prop) (G : reader -> Prop) (Ge : eallP G e) (Ue : eallP (unheard R) e) (HWs : forall c b, W c b -> W c (snd (step b))).
Context (HW : forall r c b ok c' b', rallP G r -> eats e (IR r) c b ok c' b' -> W c b -> W c' b').
(** A call for a part of the text that was read with a mapped rule. *)
Definition told_part (t : bytes) (x : nat * token) : Prop :=
  exists j q u v z c c', In j ids /\ fst x = who (r_name (get_rule e j)) /\ r_reader (get_rule e j) = Some q /\
    t = u ++ v ++ z /\ snd x = mkTok (slen u) (slen (u ++ v)) /\ W c (v ++ z) /\ eats e (IR q) c (v ++ z) true c' z.
Lemma told_from r s a b x s' : rall covered r = true -> rallP G r -> rallP (unheard R) r -> at_split s a b -> W (h_cells (hp s)) b ->
  reads (map_rules who ids e) r s x s' -> exists new, h_events (hp s') = h_events (hp s) ++ new /\ Forall (told_part (a ++ b)) new.
Proof.
  intros Hc Hg Hu Sp Hw Rd. pose proof (map_altered who ids e Nd In_e) as Al.
  destruct (C103_calls_and_entries_exact _ r s a b x s' (map_covered e _ who _ Al Co Ce) Hc Sp Rd) as (c' & b' & l & P & T & _ & Ev & _).
  exists (calls l). split; [exact Ev|].
  assert (Rs' : forall i, R i = true -> chosen ids i = false).
  { intros i H. unfold chosen. destruct (existsb (Nat.eqb i) ids) eqn:E; auto. apply existsb_exists in E as (j & J & Q). apply Nat.eqb_eq in Q. subst j. apply Rs in J. congruence. }
  set (W' := fun (c0 : cells) b1 => W c0 b1 /\ exists a1, a ++ b = a1 ++ b1).
  set (G' := fun r => G r /\ unheard R r).
  assert (HWs' : forall c y, W' c y -> W' c (snd (step y))).
  { intros c y [W1 [a1 E1]]. split; [auto|]. destruct (step_suffix y) as [d Ed]. exists (a1 ++ d). rewrite E1, Ed at 1. apply app_assoc. }
  assert (HW' : forall q c y ok d y', rallP G' q -> eats e (IR q) c y ok d y' -> W' c y -> W' d y').
  { intros q c y ok d y' Hq D [Wy [a1 Ea]]. split; [eapply HW; [|exact D|exact Wy]; revert Hq; apply rallP_impl; intros z Hz; apply Hz|].
    destruct (eats_suffix _ _ _ _ _ _ _ D) as [w ->]. exists (a1 ++ w). rewrite Ea, app_assoc. auto. }
  pose proof (calls_from e _ who (chosen ids) R Al Co Re Rs' Rb (slen (a ++ b)) W' G' (fun r H => proj2 H) (fun i q Q => rallP_and G (unheard R) q (Ge i q Q) (Ue i q Q)) HWs' HW'
    _ _ _ _ _ _ _ _ T eq_refl (or_introl (rallP_and G (unheard R) r Hg Hu)) (conj Hw (ex_intro _ a eq_refl))) as F.
  unfold calls. apply Forall_forall. intros y Hy. apply in_flat_map in Hy as (z & Iz & Hz). rewrite Forall_forall in F. apply F in Iz.
  destruct z as [id t|]; cbn in Hz; [|contradiction]. destruct Hz as [<-|[]]. destruct Iz as (j & q & c0 & b0 & c1 & b1 & Sj & Q & -> & (Wb & a0 & Ea) & D & ->).
  destruct (eats_suffix _ _ _ _ _ _ _ D) as [v ->]. exists j, q, a0, v, b1, c0, c1. cbn [fst snd].
  split. { unfold chosen in Sj. apply existsb_exists in Sj as (i & Ii & X). apply Nat.eqb_eq in X. congruence. }
  split; [reflexivity|]. split; [exact Q|]. split; [exact Ea|]. split; [|auto]. rewrite Ea, !slen_app. f_equal; lia.
Qed.
End Read.
(** A check for [unheard]. *)
Definition silentb (R : nat -> bool) (r : reader) : bool := match r with RRule i | RGrammar _ _ i => R i | RMap _ _ | RMonitor _ _ _ => false | _ => true end.
Definition unheardb (R : nat -> bool) (r : reader) : bool :=
  match r with RMap _ _ | RPick _ _ _ => false | RBody d _ | RBodyTail d _ => rall (silentb R) d | _ => true end.
Lemma silent_check R r : rall (silentb R) r = true -> rallP (silent R) r.
Proof. intros H. apply rallP_rall in H. revert H. apply rallP_impl. intros y H. destruct y; cbn in *; auto; discriminate. Qed.
Lemma unheard_check R r : rall (unheardb R) r = true -> rallP (unheard R) r.
Proof. intros H. apply rallP_rall in H. revert H. apply rallP_impl. intros y H. destruct y; cbn in *; auto; try discriminate; apply silent_check; exact H. Qed.
