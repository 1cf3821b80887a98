(** PropShow.v - C136 to C138: what the package prints can be read back. *)
From Verif Require Import LogFacts ShowFacts SpecSeg GraphFacts ScannerSafe ReaderSteps PropReader PropLeaf PropRead UseFacts ExKit.
From Verif Require Import Grammar.
From Coq Require Import Lia DecimalString DecimalPos.

(* ------------------------------------------------------------------ C136 *)

Theorem C136_token_string t u : tok_string t = tok_string u -> t = u.
Proof. intros E. apply (f_equal (fun x => x ++ [])) in E. now apply tok_string_split in E. Qed.
Print Assumptions C136_token_string.
(** Also in front of other text. *)
Theorem C136_token_in_text t u a b : tok_string t ++ a = tok_string u ++ b -> t = u /\ a = b.
Proof. apply tok_string_split. Qed.
Print Assumptions C136_token_in_text.
(** Whatever the info is. *)
Theorem C136_segment_string v w : seg_string v = seg_string w -> v = w.
Proof. apply seg_string_inj. Qed.
Print Assumptions C136_segment_string.
Theorem C136_log_entry e f : entry_string e = entry_string f <-> e_level e = e_level f /\ e_enter e = e_enter f /\ e_info e = e_info f.
Proof. split; [apply entry_string_split|]. unfold entry_string. intros (-> & -> & ->). reflexivity. Qed.
Print Assumptions C136_log_entry.

Lemma horner_acc d : forall acc, horner 10 (Zpos acc) (String.list_byte_of_string (NilEmpty.string_of_uint d)) = Zpos (Pos.of_uint_acc d acc).
Proof. induction d; intros acc; cbn [NilEmpty.string_of_uint String.list_byte_of_string String.list_ascii_of_string map horner Pos.of_uint_acc]; auto; rewrite <- IHd; f_equal; vm_compute (digit_val _ _); cbv iota; lia. Qed.
Lemma horner_uint d : horner 10 0 (String.list_byte_of_string (NilEmpty.string_of_uint d)) = Z.of_N (Pos.of_uint d).
Proof. induction d; cbn [NilEmpty.string_of_uint String.list_byte_of_string String.list_ascii_of_string map horner Pos.of_uint]; auto; (rewrite <- IHd || apply horner_acc); reflexivity. Qed.
Lemma digs_digits l : Forall (fun x => dig x = true) l -> Forall (is_digit 10) l.
Proof. intros F. eapply Forall_impl; [|exact F]. intros x D. unfold is_digit. destruct x; cbn in D; try discriminate D; vm_compute; eexists; reflexivity. Qed.
Lemma nil_zero_value d : horner 10 0 (String.list_byte_of_string (NilZero.string_of_uint d)) = Z.of_N (Pos.of_uint d).
Proof. destruct d; try apply horner_uint. reflexivity. Qed.
Lemma itoa_value v : exists neg sg ds, itoa v = sg ++ ds /\ (neg = false /\ sg = [] \/ neg = true /\ sg = [x2d]) /\ ds <> [] /\ Forall (is_digit 10) ds /\ sgn neg (horner 10 0 ds) = v.
Proof.
  assert (Q : forall d, String.list_byte_of_string (NilZero.string_of_uint d) <> [] /\ Forall (is_digit 10) (String.list_byte_of_string (NilZero.string_of_uint d))).
  { intros d. destruct (nil_zero_digs d) as (x & u & -> & F). split; [discriminate|now apply digs_digits]. }
  destruct v as [|p|p].
  - exists false, [], (lit "0"). destruct (Q (Decimal.D0 Decimal.Nil)). repeat split; auto.
  - exists false, [], (String.list_byte_of_string (NilZero.string_of_uint (Pos.to_uint p))). destruct (Q (Pos.to_uint p)). repeat split; auto. rewrite nil_zero_value, Unsigned.of_to. reflexivity.
  - exists true, [x2d], (String.list_byte_of_string (NilZero.string_of_uint (Pos.to_uint p))). destruct (Q (Pos.to_uint p)). repeat split; auto. rewrite nil_zero_value, Unsigned.of_to. reflexivity.
Qed.
Lemma stores_itoa {L : GoLib} e id s a v t : int_fits 64 v -> at_split s a (itoa v ++ t) -> no_digit_at 10 t ->
  exists s', reads e (RInt id 10 64) s None s' /\ at_split s' (a ++ itoa v) t /\ value_of id s' = VInt v /\ forall j, j <> id -> value_of j s' = value_of j s.
Proof.
  intros F Sp N. destruct (itoa_value v) as (neg & sg & ds & E & Sg & Ne & Fd & Ev).
  assert (S2 : stores e (RInt id 10 64) id s None (slen a + slen sg + slen ds) (VInt v)).
  { eapply (stores_intro e _ id s (read_int 10 64) VInt); [reflexivity|exact (fr_read_int same_vals sv_refl sv_trans sv_move 10 64)|]. rewrite <- Ev.
    apply (C20_read_int_partial s a (itoa v ++ t) 10 64 neg sg ds t); unfold is_base, is_size; auto; [|now rewrite Ev]. rewrite E, <- app_assoc.
    destruct Sg as [ [-> ->]|[-> ->] ]; [|apply ss_neg]. destruct ds as [|d ds]; [congruence|]. inversion Fd as [|? ? [w W] ]. apply ss_none; cbn; intros u Eu; injection Eu as -> _; discriminate W. }
  destruct S2 as (s' & R & P & Fu & _ & V & O). exists s'. repeat split; auto.
  - rewrite Fu. destruct Sp as (-> & _). now rewrite app_assoc.
  - rewrite P, E, !slen_app. lia.
  - destruct Sp as (_ & _ & B). rewrite <- app_assoc. exact B.
Qed.
Lemma takes_lit {L : GoLib} e str s a t : at_split s a (str ++ t) -> exists s', reads e (RLit str) s None s' /\ at_split s' (a ++ str) t /\ forall j, value_of j s' = value_of j s.
Proof.
  intros Sp. destruct (C122_lit e str s a _ Sp) as [H _]. specialize (H t eq_refl). unfold takes in H. eexists. split; [exact H|]. split.
  - destruct Sp as (A & B & C). repeat split; cbn; rewrite <- ?app_assoc; auto. rewrite B, slen_app. lia.
  - intros j. unfold value_of. now rewrite (sv_move s (pos (sc s) + slen str)).
Qed.
(** And with the readers of the package. *)
Definition token_reader (p q : nat) : reader := RSeq [RLit (lit "["); RInt p 10 64; RLit (lit "-"); RInt q 10 64; RLit (lit ")")].
Theorem C136_token_reads_back {L : GoLib} e p q t s a r : p <> q -> int_fits 64 (t_from t) -> int_fits 64 (t_to t) -> at_split s a (tok_string t ++ r) ->
  exists s', uses e (token_reader p q) s None s' /\ at_split s' (a ++ tok_string t) r /\ value_of p s' = VInt (t_from t) /\ value_of q s' = VInt (t_to t).
Proof.
  intros N F1 F2 Sp. assert (Sp0 := Sp). unfold tok_string in Sp. rewrite <- !app_assoc in Sp.
  destruct (takes_lit e _ _ _ _ Sp) as (s1 & R1 & Sp1 & V1).
  destruct (stores_itoa e p _ _ _ _ F1 Sp1) as (s2 & R2 & Sp2 & V2 & O2). { intros d u E. cbn in E. injection E as <- _. intros [w W]. discriminate W. }
  destruct (takes_lit e _ _ _ _ Sp2) as (s3 & R3 & Sp3 & V3).
  destruct (stores_itoa e q _ _ _ _ F2 Sp3) as (s4 & R4 & Sp4 & V4 & O4). { intros d u E. cbn in E. injection E as <- _. intros [w W]. discriminate W. }
  destruct (takes_lit e _ _ _ _ Sp4) as (s5 & R5 & Sp5 & V5).
  exists s5. split; [|split].
  - apply uses_reads; [destruct Sp0 as (_ & -> & _); apply slen_nonneg|]. exists s5. split; auto. apply seq_reads; [destruct Sp0 as (_ & -> & _); apply slen_nonneg|]. left. split; auto.
    repeat (econstructor; eauto).
  - unfold tok_string. rewrite !app_assoc in *. exact Sp5.
  - split; [rewrite V5, O4, V3, V2; auto|rewrite V5, V4; auto].
Qed.
Print Assumptions C136_token_reads_back.
Example C136_case {L : GoLib} : tok_string (mkTok 3 17) = lit "[3-17)" /\ seg_string (mkSeg (lit "key1[2-3)") (mkTok 3 17)) = lit "key1[2-3)[3-17)" /\
  entry_string (mkEntry 4 (lit "Name") 2 5 None) = lit "2..@ 4 Name" /\ int_fits 64 17 /\ at_split (mk (lit "x[3-17)7") 1) (lit "x") (tok_string (mkTok 3 17) ++ lit "7").
Proof. repeat split; reflexivity || (vm_compute; discriminate). Qed.

(* ------------------------------------------------------------------ C137 *)

(** C137.  If no info contains a line end, the flame stack tells the whole tree. *)
Theorem C137_flame_stack_identifies n m : one_line n -> one_line m -> flame_stack n = flame_stack m -> n = m.
Proof.
  intros A B E. unfold flame_stack in E. apply (f_equal (fun x => x ++ [])) in E. apply flame_back in E as [E _]; auto; intros [t Et]; symmetry in Et; unfold head_of in Et;
    apply app_eq_nil in Et as [Et _]; apply app_eq_nil in Et as [_ Et]; apply app_eq_nil in Et as [Et _]; pose proof (itoa_len 1) as Q; rewrite Et in Q; cbn in Q; lia.
Qed.
Print Assumptions C137_flame_stack_identifies.
(** Line ends in infos spoil it. *)
Definition leaf_a : node := Node (mkSeg (lit "x") (mkTok 0 1)) [Node (mkSeg (lit "y") (mkTok 0 1)) [] ].
Definition leaf_b : node := Node (mkSeg (lit "x[0-1) 1" ++ [x0a] ++ lit "1.x[0-1);1.y") (mkTok 0 1)) [].
Theorem C137_line_ends_matter : flame_stack leaf_a = flame_stack leaf_b /\ leaf_a <> leaf_b.
Proof. split; [vm_compute; reflexivity|discriminate]. Qed.
Print Assumptions C137_line_ends_matter.
Example C137_case : one_line leaf_a /\ flame_stack leaf_a = lit "1.x[0-1) 1" ++ [x0a] ++ lit "1.x[0-1);1.y[0-1) 1" ++ [x0a].
Proof. split; [|vm_compute; reflexivity]. intros i [<-|[<-|[] ] ] [H|[] ]; discriminate H. Qed.

(* ------------------------------------------------------------------ C138 *)

(** C138.  The frame of a node is as wide as it and all nodes below it together. *)
Theorem C138_frame_width_exact root p m : leads 1 root p m ->
  flame_stack root = flat_map stack_line (stacks [] 1 root) /\
  frame_width (joined p) (stacks [] 1 root) = sum_of (map (fun m => tok_len (n_tok m)) (nodes m)).
Proof. intros H. split; [apply stacks_lines|exact (flame_width 1 root p m H [])]. Qed.
Print Assumptions C138_frame_width_exact.
(** That is too much unless all nodes below it are empty. *)
Theorem C138_right_width_exact root p s k : leads 1 root p (Node s k) -> (forall c, In c (flat_map nodes k) -> 0 <= tok_len (n_tok c)) ->
  (frame_width (joined p) (stacks [] 1 root) = tok_len (s_tok s) <-> forall c, In c (flat_map nodes k) -> tok_len (n_tok c) = 0).
Proof.
  intros H N. destruct (C138_frame_width_exact root p _ H) as [_ ->]. cbn [nodes map]. cbn [sum_of fold_right]. unfold n_tok at 1. cbn [n_seg]. revert N. generalize (flat_map nodes k). intros l N.
  change (fold_right Z.add 0 (map (fun m => tok_len (n_tok m)) l)) with (sum_of (map (fun m => tok_len (n_tok m)) l)).
  assert (G : 0 <= sum_of (map (fun m => tok_len (n_tok m)) l) /\ (sum_of (map (fun m => tok_len (n_tok m)) l) = 0 <-> forall c, In c l -> tok_len (n_tok c) = 0)).
  { induction l as [|c l IH]; cbn; [split; [lia|split; [contradiction|auto] ]|]. unfold sum_of in IH. destruct (IH (fun x I => N x (or_intror I))) as [I1 I2]. pose proof (N c (or_introl eq_refl)) as Nc.
    split; [lia|]. split.
    - intros E c' [<-|I]; [lia|]. apply I2; auto. lia.
    - intros A. rewrite (A c (or_introl eq_refl)). rewrite (proj2 I2); [reflexivity|]. intros; apply A; right; auto. }
  destruct G as [_ G]. rewrite <- G. lia.
Qed.
Print Assumptions C138_right_width_exact.
Theorem C138_frames_are_segments_refuted : ~ forall segs root p m, build_graph (lit "g") segs = Some root -> leads 1 root p m -> frame_width (joined p) (stacks [] 1 root) = tok_len (n_tok m).
Proof.
  intros H. specialize (H [mkSeg (lit "a") (mkTok 0 4)] _ _ _ eq_refl (leads_here 1 _ _)). vm_compute in H. discriminate.
Qed.
Print Assumptions C138_frames_are_segments_refuted.
Example C138_case : exists root p m, build_graph (lit "g") [mkSeg (lit "a") (mkTok 0 4); mkSeg (lit "b") (mkTok 1 3)] = Some root /\ leads 1 root p m /\
  p = [(1, mkSeg (lit "g") (mkTok 0 4)); (1, mkSeg (lit "a") (mkTok 0 4))] /\ frame_width (joined p) (stacks [] 1 root) = 4 + 2 /\ tok_len (n_tok m) = 4.
Proof.
  eexists _, _, _. split; [vm_compute; reflexivity|]. split; [eapply (leads_down 1 _ _ 0); [reflexivity|apply leads_here]|]. repeat split; vm_compute; reflexivity.
Qed.
