(** PropEdges.v - C170: Reads cut well-formed UTF-8 between runes. *)
From Verif Require Import Edges Json Mxt Lua ExKit.
From Coq Require Import Lia ZifyBool.
From Verif Require Import Edges PegBytes MarksFacts.

(** C170.  A Read that begins between two runes of a well-formed text ends between two runes, whether it succeeds or fails,
    if the literals in the grammar are well-formed; what Janus readers keep stays well-formed. *)
Theorem C170_reads_end_between_runes {L : GoLib} e r s a b x s' :
  eall covered e -> rall covered r = true -> eall (whole1 true) e -> rall (whole1 true) r = true ->
  at_split s a b -> wf_text a -> wf_text b -> (forall i, wf_text (get [] (h_cells (hp s)) i)) -> reads e r s x s' ->
  exists a' b', at_split s' a' b' /\ a' ++ b' = a ++ b /\ wf_text a' /\ wf_text b' /\ (forall i, wf_text (get [] (h_cells (hp s')) i)).
Proof.
  intros C1 C2 W1 W2 Sp Wa Wb Wc Rd. destruct (reads_eats e r _ _ _ s x s' C1 C2 (stands_split _ _ _ Sp) Rd) as (c' & b' & St & D).
  destruct (eats_sfx e true W1 _ _ _ _ _ _ D (a ++ b)) as [[S1 [a' E]] Wc']; auto. { split; [exact Wb|exists a; reflexivity]. }
  exists a', b'. split; [exact (split_stands _ _ _ _ _ St E)|]. split; [congruence|]. destruct St as (_ & -> & _). split; [|split; [exact S1|exact Wc']].
  apply (wf_begin a' b'); [exact S1|]. rewrite <- E. apply wf_app; auto.
Qed.
Print Assumptions C170_reads_end_between_runes.

(** Functions are told whole runes, and entries of Logs begin and end between runes (without Body and BodyTail, where positions count from
    the beginning of the body). *)
Theorem C170_calls_and_entries {L : GoLib} e r s a b x s' :
  eall covered e -> rall covered r = true -> eall (whole1 false) e -> rall (whole1 false) r = true ->
  at_split s a b -> wf_text a -> wf_text b -> (forall i, wf_text (get [] (h_cells (hp s)) i)) -> reads e r s x s' ->
  (exists new, h_events (hp s') = h_events (hp s) ++ new /\ forall id k, In (id, k) new -> piece (a ++ b) k) /\
  (forall lg, log_ok (get_log lg (hp s)) -> exists new, log_entries (get_log lg (hp s')) = log_entries (get_log lg (hp s)) ++ new /\
    forall en, In en new -> edge (a ++ b) (e_enter en) /\ edge (a ++ b) (e_exit en)).
Proof.
  intros C1 C2 W1 W2 Sp Wa Wb Wc Rd. assert (W : wf_text (a ++ b)) by (apply wf_app; auto).
  destruct (reads_traces e r _ _ _ s x s' C1 C2 (stands_split _ _ _ Sp) Rd) as (c' & b' & l & Tr & _ & A1 & A2).
  pose proof (traces_edges e W1 _ _ _ _ _ _ _ _ Tr (a ++ b) eq_refl W W2 ltac:(split; [exact Wb|exists a; reflexivity]) Wc) as F. rewrite Forall_forall in F. split.
  - exists (calls l). split; [exact A2|]. intros id k I. apply in_flat_map in I as (ac & I & J). destruct ac as [id' k'|]; [|destruct J].
    destruct J as [J|[]]. injection J as -> ->. exact (F _ I).
  - intros lg Ok. destruct (A1 lg Ok) as (_ & new & E & F2). exists new. split; [exact E|]. intros en I.
    assert (F' : forall ac, In ac (tries lg l) -> edge_act (a ++ b) ac) by (intros ac J; apply filter_In in J as [J _]; auto). clear -F2 F' I W.
    induction F2 as [|ac en' k new H _ IH]; [destruct I|]. destruct I as [<-|I]; [|apply IH; auto; intros ac' J; apply F'; right; auto].
    specialize (F' ac (or_introl eq_refl)). destruct ac as [|g w v p o q]; [destruct H|]. cbn in F', H. destruct H as (_ & _ & -> & H). split; [apply F'|].
    destruct H as [[-> _]|[-> _]]; [apply F'|]. exists [], (a ++ b). split; [reflexivity|]. split; [reflexivity|]. split; [apply wf_nil|exact W].
Qed.
Print Assumptions C170_calls_and_entries.

(** Picked segments are whole runes, also with Body and BodyTail, if nothing is picked inside bodies. *)
Theorem C170_segments {L : GoLib} e k R r s a b x s' :
  unpicked_rules k R e -> eall covered e -> eallP (flat_body k R) e -> rall covered r = true -> rallP (flat_body k R) r ->
  eall (whole1 true) e -> rall (whole1 true) r = true ->
  at_split s a b -> wf_text a -> wf_text b -> (forall i, wf_text (get [] (h_cells (hp s)) i)) ->
  trk (sc s) = Some k -> Forall (fun g => t_to (s_tok g) <= pos (sc s)) (get_basket k (hp s)) -> reads e r s x s' ->
  exists new, get_basket k (hp s') = get_basket k (hp s) ++ new /\ forall g, In g new -> piece (a ++ b) (s_tok g).
Proof.
  intros HR Ce Fe Cr Fr W1 W2 Sp Wa Wb Wc T Lw Rd. pose proof (stands_split _ _ _ Sp) as St.
  destruct (reads_marks e k R HR r (a ++ b) (h_cells (hp s)) b (get_basket k (hp s)) s x s' Ce Fe Cr Fr) as (c' & b' & l & M & S'); auto.
  { split; auto. } { unfold low. rewrite <- (stands_pos _ _ _ _ St). exact Lw. }
  exists l. split; [apply S'|]. assert (W : wf_text (a ++ b)) by (apply wf_app; auto).
  pose proof (marks_edges e W1 k R _ _ _ _ _ _ _ _ M (a ++ b) eq_refl W W2 ltac:(split; [exact Wb|exists a; reflexivity]) Wc) as F. rewrite Forall_forall in F. exact F.
Qed.
Print Assumptions C170_segments.

(** The grammars of the package have only well-formed literals. *)
Lemma json_whole {L : GoLib} : eall covered json_env /\ eall (whole1 false) json_env /\ eall (whole1 true) json_env.
Proof. split; [|split]; apply eall_check; vm_compute; reflexivity. Qed.
Lemma mxt_whole {L : GoLib} : eall covered mxt_env /\ eall (whole1 true) mxt_env.
Proof. split; apply eall_check; vm_compute; reflexivity. Qed.
Lemma lua_whole {L : GoLib} : eall covered lua_env /\ eall (whole1 false) lua_env /\ eall (whole1 true) lua_env.
Proof. split; [|split]; apply eall_check; vm_compute; reflexivity. Qed.
Definition stays_between_runes {L : GoLib} (e : env) (r : reader) : Prop := forall s a b x s',
  at_split s a b -> wf_text a -> wf_text b -> (forall i, wf_text (get [] (h_cells (hp s)) i)) -> reads e r s x s' ->
  exists a' b', at_split s' a' b' /\ a' ++ b' = a ++ b /\ wf_text a' /\ wf_text b' /\ (forall i, wf_text (get [] (h_cells (hp s')) i)).
Lemma whole_stays {L : GoLib} e w p i : eall covered e -> eall (whole1 true) e -> stays_between_runes e (RGrammar w p i).
Proof. intros A B s a b x s' H1 H2 H3 H4 H5. exact (C170_reads_end_between_runes e (RGrammar w p i) s a b x s' A eq_refl B eq_refl H1 H2 H3 H4 H5). Qed.
Theorem C170_grammars {L : GoLib} : stays_between_runes json_env json /\ stays_between_runes mxt_env mxt /\ stays_between_runes lua_env lua.
Proof.
  destruct json_whole as (J1 & _ & J2). destruct mxt_whole as (M1 & M2). destruct lua_whole as (U1 & _ & U2).
  split; [exact (whole_stays _ _ _ _ J1 J2)|]. split; [exact (whole_stays _ _ _ _ M1 M2)|exact (whole_stays _ _ _ _ U1 U2)].
Qed.
Print Assumptions C170_grammars.

(** NewBasketFor(JSON()) and NewBasketFor(Lua()): all picked segments are whole runes. *)
Definition picks_whole_runes {L : GoLib} (k : nat) (e : env) (r : reader) : Prop := forall s a b x s',
  at_split s a b -> wf_text a -> wf_text b -> (forall i, wf_text (get [] (h_cells (hp s)) i)) ->
  trk (sc s) = Some k -> get_basket k (hp s) = [] -> reads e r s x s' -> forall g, In g (get_basket k (hp s')) -> piece (a ++ b) (s_tok g).
Lemma bodiless_flat k R r : rall (whole1 false) r = true -> rallP (flat_body k R) r.
Proof. intros H. apply rallP_rall in H. revert H. apply rallP_impl. intros q. destruct q; cbn; auto; discriminate. Qed.
Lemma basket_whole {L : GoLib} k e w p i : eall covered e -> eall (whole1 false) e -> eall (whole1 true) e -> picks_whole_runes k e (RGrammar w p i).
Proof.
  intros C W1 W2 s a b x s' Sp Wa Wb Wc T E Rd g I.
  destruct (C170_segments e k (fun _ => false) (RGrammar w p i) s a b x s') as (new & En & F); auto.
  - intros j q H. discriminate.
  - intros j q H. apply bodiless_flat. exact (W1 j q H).
  - apply bodiless_flat. reflexivity.
  - rewrite E. constructor.
  - rewrite E in En. cbn [app] in En. rewrite En in I. auto.
Qed.
Theorem C170_baskets {L : GoLib} k : picks_whole_runes k (pick_with k json_env) json /\ picks_whole_runes k (pick_with k lua_env) lua.
Proof. split; apply basket_whole; apply eall_check; vm_compute; reflexivity. Qed.
Print Assumptions C170_baskets.

(** The literals have to be well-formed: the first byte of a rune of two bytes ends inside the rune. *)
Theorem C170_condition {L : GoLib} : exists r s s', rall covered r = true /\ at_split s [] [xc3; xa9] /\ wf_text [xc3; xa9] /\ reads [] r s None s' /\
  ~ edge [xc3; xa9] (pos (sc s')).
Proof.
  exists (RLit [xc3]), (mk [xc3; xa9] 0). eexists. split; [reflexivity|]. split; [repeat split; cbn; lia|]. split; [apply valid_wf; vm_compute; reflexivity|].
  split; [exists 1%nat; vm_compute; reflexivity|]. intros (x & y & E & P & Wx & _). cbn in P.
  destruct x as [|x0 [|x1 x]]; unfold slen in P; cbn [length] in P; try lia. injection E as <- _.
  destruct (wf_first _ Wx) as (r & t & Hr & E & _); [discriminate|].
  pose proof (decode_utf8 r t Hr) as D. rewrite <- E in D. apply (f_equal fst) in D as D1. apply (f_equal snd) in D as D2. cbn [fst snd] in D1, D2.
  vm_compute in D1. subst r. vm_compute in D2. discriminate.
Qed.
Print Assumptions C170_condition.

(** Many(Any(Map(umlaut), Pick)) on a well-formed text with runes of one, two and three bytes. *)
Definition runes170 : bytes := utf8s [0xe4; 0x61; 0x20ac].
Definition many170 : reader := RMany (RAny [RMap 3 (RLit (utf8 0xe4)); RPick (lit "g") 0 (RBetween 0x80 0x10FFFF); RRune 0x61]).
Definition start170 : st := mkSt (mkSc runes170 0 (Some 0%nat)) heap0.
Example ex170 {L : GoLib} : exists s', reads [] many170 start170 None s' /\ rall covered many170 = true /\ rall (whole1 false) many170 = true /\
  at_split start170 [] runes170 /\ wf_text runes170 /\ pos (sc s') = 6 /\ h_events (hp s') = [(3%nat, mkTok 0 2)] /\ get_basket 0 (hp s') = [mkSeg (lit "g") (mkTok 3 6)].
Proof.
  eexists. split; [exists 6%nat; vm_compute; reflexivity|]. split; [vm_compute; reflexivity|]. split; [vm_compute; reflexivity|]. split; [repeat split; vm_compute; congruence|].
  split; [apply valid_wf; vm_compute; reflexivity|]. repeat split.
Qed.
