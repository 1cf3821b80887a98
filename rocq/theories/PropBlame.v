(** PropBlame.v - C143 to C146: the place an error names, and the errors of JSON(). *)
From Verif Require Import ReaderFacts PropLog UseFacts ExKit Mxt MxtFacts JsonBlame PropCost.
From Coq Require Import Lia ZifyBool.

(* ------------------------------------------------------------------ C143 *)

(** C143.  The error names a place between the one where Read began and the end of the text.  Not so: Any() names the place 0. *)
Definition named_inside {L : GoLib} (e : env) (r : reader) : Prop := forall s a b n w s', at_split s a b -> reads e r s (Some (EReadError n w)) s' ->
  pos (sc s) <= n <= slen (full (sc s)).
Theorem C143_refuted : ~ forall (L : GoLib) e r, named_inside e r.
Proof.
  intros H. specialize (H roomy [] (RAny []) (mk (lit "ab") 1) (lit "a") (lit "b") 0 [] (mk (lit "ab") 1)).
  assert (1 <= 0 <= 2); [|lia]. apply H; [split_here|]. run 3%nat.
Qed.
Print Assumptions C143_refuted.
(** The same with Any of readers that give other errors, as Any(JSON(), MXT()) does. *)
Theorem C143_refuted_grammars : ~ forall (L : GoLib) e, named_inside e (RAny [RGrammar (lit "g") (lit "g: ") 0]).
Proof.
  intros H. specialize (H roomy [mkRule (lit "r") (Some (RLit (lit "x")))] (mk (lit "ab") 1) (lit "a") (lit "b") 0 [] (mk (lit "ab") 1)).
  assert (1 <= 0 <= 2); [|lia]. apply H; [split_here|]. run 5%nat.
Qed.
Print Assumptions C143_refuted_grammars.

(** Readers that name a place. *)
Definition polite (r : reader) : bool := match r with RInvalid _ | RGrammar _ _ _ | RAny [] => false | _ => true end.
Definition item_all (p : reader -> bool) (i : item) : bool :=
  match i with IR r | IRep r | ITimes _ r | IPast r | ITo r => rall p r | IAny rs | ISeq rs => forallb (rall p) rs | IBody _ _ d t => rall p d && rall p t end.
Definition names (t : Z) (b : bytes) (x : err) : Prop := exists n w, x = EReadError n w /\ t - slen b <= n <= t.
Lemma names_more t d b x : names t b x -> names t (d ++ b) x.
Proof. intros (n & w & -> & H). exists n, w. split; auto. rewrite slen_app. unfold slen in *. lia. Qed.
Lemma names_deepest t b : forall xs m w, Forall (names t b) xs -> t - slen b <= m <= t \/ (m <= t - slen b /\ xs <> []) -> names t b (deepest_loop xs m w).
Proof.
  induction xs as [|x xs IH]; intros m w F H; cbn [deepest_loop]; [exists m, w; split; auto; destruct H as [H|[_ H]]; [auto|congruence]|].
  inversion F as [|? ? (n & v & -> & Hn) F2]; subst. unfold err_later. destruct (Z.leb_spec m n); apply IH; auto; left; lia.
Qed.
Section Polite.
Context {L : GoLib} (e : env) (Pe : eall polite e).
Lemma blames_named t i c b xs : blames t e i c b xs -> item_all polite i = true -> 0 <= t - slen b -> Forall (names t b) xs /\ (forall r rs, i = IAny (r :: rs) -> xs <> []).
Proof.
  assert (Suf : forall i c b ok c' b' x, eats e i c b ok c' b' -> names t b' x -> names t b x) by (intros i0 c0 b0 ok c' b' x D N; apply eats_suffix in D as [d ->]; apply names_more, N).
  assert (Len : forall i c b ok c' b', eats e i c b ok c' b' -> 0 <= t - slen b -> 0 <= t - slen b') by (intros i0 c0 b0 ok c' b' D H; apply eats_suffix in D as [d ->]; rewrite slen_app in H; unfold slen in *; lia).
  assert (Here : forall b w, 0 <= t - slen b -> names t b (EReadError (t - slen b) w)) by (intros b0 w H; eexists _, _; split; [reflexivity|unfold slen in *; lia]).
  induction 1; intros Hp Hb; cbn [item_all] in Hp; (split; [|try (intros; discriminate)]).
  - constructor; auto. eapply Suf; [exact H0|]. apply Here. eapply Len; eauto.
  - constructor; auto.
  - constructor; auto.
  - discriminate.
  - apply IHblames; auto. cbn [item_all]. eapply Pe; eauto.
  - discriminate.
  - apply IHblames; auto. 
  - apply IHblames; auto.
  - apply IHblames; auto.
  - apply IHblames; auto.
  - apply IHblames; auto.
  - apply IHblames; auto.
  - destruct rs as [|r rs]; [discriminate|]. cbn [rall polite andb] in Hp. destruct (IHblames Hp Hb) as [F N]. constructor; auto. apply names_deepest; auto. right. split; [lia|eauto].
  - apply IHblames; auto.
  - apply IHblames; auto. cbn [item_all rall polite andb] in *. apply andb_true_iff in Hp as [A B]. rewrite interleave_flat. cbn [forallb]. rewrite A. cbn [andb]. clear -A B.
    induction rs as [|q rs IHr]; auto. cbn in *. apply andb_true_iff in B as [B1 B2]. rewrite B1, A. auto.
  - apply IHblames; auto.
  - constructor.
  - cbn [forallb] in Hp. apply andb_true_iff in Hp as [A B]. destruct (IHblames1 A Hb) as [F1 _]. destruct (IHblames2 B (Len _ _ _ _ _ _ H0 Hb)) as [F2 _]. constructor; [inversion F1; auto|].
    eapply Forall_impl; [|exact F2]. intros y. apply (Suf _ _ _ _ _ _ y H0).
  - cbn [forallb] in Hp. apply andb_true_iff in Hp as [A B]. apply IHblames; auto.
  - cbn [forallb] in Hp. apply andb_true_iff in Hp as [A B]. destruct (IHblames B (Len _ _ _ _ _ _ H Hb)) as [F2 _]. eapply Forall_impl; [|exact F2]. intros y. apply (Suf _ _ _ _ _ _ y H).
  - apply IHblames; auto.
  - destruct (IHblames Hp (Len _ _ _ _ _ _ H Hb)) as [F2 _]. eapply Forall_impl; [|exact F2]. intros y. apply (Suf _ _ _ _ _ _ y H).
Qed.
Lemma polite_error r s a b x s' : eall covered e -> rall covered r = true -> rall polite r = true -> at_split s a b -> reads e r s (Some x) s' ->
  exists n w, x = EReadError n w /\ pos (sc s) <= n <= slen (full (sc s)).
Proof.
  intros Ce Cr Pr Sp R. pose proof (stands_split _ _ _ Sp) as St. pose proof (stands_nonneg _ _ _ _ St). rewrite (stands_pos _ _ _ _ St) in *.
  pose proof (reads_blames e r _ _ _ _ _ _ Ce Cr St R) as B. destruct (blames_named _ _ _ _ _ B Pr ltac:(lia)) as [F _]. inversion F as [|? ? (n & w & -> & Hn) _]; subst.
  exists n, w. split; auto. replace (full (sc s)) with (a ++ b) by (destruct St; auto). exact Hn.
Qed.
End Polite.
(** With no InvalidReader, grammar or empty Any inside, the error is a ReadError and the place is there. *)
Theorem C143_exact {L : GoLib} e r s a b x s' : eall covered e -> rall covered r = true -> eall polite e -> rall polite r = true -> at_split s a b -> reads e r s (Some x) s' ->
  exists n w, x = EReadError n w /\ pos (sc s) <= n <= slen (full (sc s)).
Proof. intros Ce Cr Pe Pr Sp R. eapply polite_error; eauto. Qed.
Print Assumptions C143_exact.
Definition ex143 : env := [mkRule (lit "r") (Some (RAny [RSeq [RLit (lit "a"); RLit (lit "x")]; RSeq [RLit (lit "a"); RLit (lit "b"); RLit (lit "y")]; RTimes 2 (RRule 1)])); mkRule (lit "q") (Some (RLit (lit "z")))].
Example C143_case : eall covered ex143 /\ eall polite ex143 /\
  reads (L := roomy) ex143 (RRule 0) (mk (lit "zabcd") 1) (Some (EReadError 3 (lit """y"""))) (mk (lit "zabcd") 1).
Proof. split; [apply eall_check; vm_compute; reflexivity|]. split; [apply eall_check; vm_compute; reflexivity|]. run 9%nat. Qed.
(** So JSON() and MXT() name such a place in the text of their errors. *)
Lemma grammar_error {L : GoLib} e w p i s a b x s' : eall covered e -> eall polite e -> at_split s a b -> reads e (RGrammar w p i) s (Some x) s' ->
  exists n v, x = EOther (p ++ err_text (EReadError n v)) /\ pos (sc s) <= n <= slen (full (sc s)).
Proof.
  intros Ce Pe Sp R. pose proof (stands_split _ _ _ Sp) as St. pose proof (stands_nonneg _ _ _ _ St). rewrite (stands_pos _ _ _ _ St) in *.
  pose proof (reads_blames e (RGrammar w p i) _ _ _ _ _ _ Ce eq_refl St R) as B. destruct (grammar_blame _ _ _ _ _ _ _ _ B) as (y & -> & By).
  destruct (blames_named e Pe _ _ _ _ _ By eq_refl ltac:(lia)) as [F _]. inversion F as [|? ? (n & v & -> & Hn) _]; subst.
  exists n, v. split; auto. replace (full (sc s)) with (a ++ b) by (destruct St; auto). exact Hn.
Qed.
Theorem C143_json {L : GoLib} s a b x s' : at_split s a b -> reads json_env json s (Some x) s' ->
  exists n v, x = EOther (lit "json parse error: " ++ err_text (EReadError n v)) /\ pos (sc s) <= n <= slen (full (sc s)).
Proof. intros Sp R. eapply grammar_error; [apply json_covered|apply eall_check; vm_compute; reflexivity|exact Sp|exact R]. Qed.
Print Assumptions C143_json.
Theorem C143_mxt {L : GoLib} s a b x s' : at_split s a b -> reads mxt_env mxt s (Some x) s' ->
  exists n v, x = EOther (lit "mxt parse error: " ++ err_text (EReadError n v)) /\ pos (sc s) <= n <= slen (full (sc s)).
Proof. assert (C : eall covered mxt_env) by (apply eall_check; vm_compute; reflexivity). assert (P : eall polite mxt_env) by (apply eall_check; vm_compute; reflexivity). intros Sp R. eapply grammar_error; eauto. Qed.
Print Assumptions C143_mxt.
Example C143_json_case : exists s', reads (L := roomy) (json_env (L := roomy)) json (mk (lit "x[1,]") 1) (Some (EOther (lit "json parse error: not able to read ']' at 3"))) s'.
Proof. eexists. run 60%nat. Qed.

(* ------------------------------------------------------------------ C144 *)

(** C144.  Which error JSON() returns.  [complains b u w] (JsonBlame.v, nothing there refers to the readers) says for the rest [b] of a text that the error stands behind [u]
    and names [w]: behind white space, for an object the place behind the longest beginning of its members (or white space), and a brace; for an array the same with elements and a bracket;
    for a string the place where the contents stop, and a quote; for a minus the place behind it, and the digits 1 to 9; in all other cases the place itself, and null. *)
Theorem C144_json_error {L : GoLib} s a b x s' : at_split s a b -> reads json_env json s (Some x) s' ->
  exists u w, complains b u w /\ x = EOther (lit "json parse error: not able to read " ++ w ++ lit " at " ++ itoa (pos (sc s) + slen u)).
Proof. intros Sp R. exact (json_blame _ _ _ _ _ _ (stands_split _ _ _ Sp) R). Qed.
Print Assumptions C144_json_error.
(** That is one error. *)
Lemma app_prefix {A} (m r m' r' : list A) : m ++ r = m' ++ r' -> (exists d, m' = m ++ d /\ r = d ++ r') \/ (exists d, m = m' ++ d /\ r' = d ++ r).
Proof.
  revert m'. induction m as [|x m IH]; intros m' E; [left; exists m'; auto|]. destruct m' as [|y m']; [right; exists (x :: m); auto|]. injection E as -> E.
  destruct (IH m' E) as [(d & -> & ->)|(d & -> & ->)]; [left|right]; exists d; auto.
Qed.
Lemma longest_unique P m r m' r' : longest P m r -> longest P m' r' -> m ++ r = m' ++ r' -> m = m' /\ r = r'.
Proof.
  intros [P1 L1] [P2 L2] E. destruct (app_prefix _ _ _ _ E) as [(d & -> & ->)|(d & -> & ->)].
  - rewrite (L1 d r' eq_refl P2), app_nil_r. auto.
  - rewrite (L2 d r eq_refl P1), app_nil_r. auto.
Qed.
Lemma wrong_unique b u w u' w' : wrong b u w -> wrong b u' w' -> u = u' /\ w = w'.
Proof.
  assert (Un : forall (P : bytes -> Prop) m r m' r', longest P m r -> longest P m' r' -> m' ++ r' = m ++ r -> m = m').
  { intros P m r m' r' L1 L2 E. destruct (longest_unique _ _ _ _ _ L1 L2 (eq_sym E)). auto. }
  assert (No : forall x r, In x (x22 :: lit "{[-") -> ~ starts (fun y => In y (x22 :: lit "{[-") \/ dig y) (x :: r) -> False) by (intros x r I N; apply N; exists x, r; auto).
  intros H H'. inversion H as [m r Lo N|m r Lo N|v r Lo N|r N|v N1 N2]; subst; inversion H' as [m' r' Lo' N' E|m' r' Lo' N' E|v' r' Lo' N' E|r' N' E|v' N1' N2' E]; try discriminate E; subst; auto;
    try (rewrite (Un _ _ _ _ _ Lo Lo' E); auto; fail); exfalso; first [eapply No; [|exact N1]|eapply No; [|exact N1']]; cbn; auto 10.
Qed.
Theorem C144_json_error_unique b u w u' w' : complains b u w -> complains b u' w' -> u = u' /\ w = w'.
Proof.
  intros (z & v & u0 & -> & Z & Nv & -> & Wr) (z' & v' & u0' & E & Z' & Nv' & -> & Wr').
  assert (z = z' /\ v = v') as [<- <-].
  { destruct (app_prefix _ _ _ _ E) as [(d & -> & ->)|(d & -> & ->)]; destruct d as [|x d]; rewrite ?app_nil_r; auto; exfalso.
    - apply Nv. exists x, (d ++ v'). split; auto. apply Forall_app in Z' as [_ Z']. inversion Z'; auto.
    - apply Nv'. exists x, (d ++ v). split; auto. apply Forall_app in Z as [_ Z]. inversion Z; auto. }
  destruct (wrong_unique _ _ _ _ _ Wr Wr') as [-> ->]. auto.
Qed.
Print Assumptions C144_json_error_unique.
(** The white space only inside brackets or nothing: a nested value that is wrong is not looked into, whatever it is. *)
Example C144_case : exists s', reads (L := roomy) (json_env (L := roomy)) json (mk (lit " [[1 2]]") 0) (Some (EOther (lit "json parse error: not able to read ']' at 2"))) s'.
Proof. eexists. run 60%nat. Qed.
Example C144_case_object : exists s', reads (L := roomy) (json_env (L := roomy)) json (mk (lit "{""a"":1 , ""b"":tru}") 0) (Some (EOther (lit "json parse error: not able to read '}' at 7"))) s'.
Proof. eexists. run 60%nat. Qed.
Example C144_case_string : exists s', reads (L := roomy) (json_env (L := roomy)) json (mk (lit """a\x""") 0) (Some (EOther (lit "json parse error: not able to read '""' at 2"))) s'.
Proof. eexists. run 60%nat. Qed.
Example C144_case_minus : exists s', reads (L := roomy) (json_env (L := roomy)) json (mk (lit "-a") 0) (Some (EOther (lit "json parse error: not able to read <19> at 1"))) s'.
Proof. eexists. run 60%nat. Qed.
Example C144_case_other : exists s', reads (L := roomy) (json_env (L := roomy)) json (mk (lit " nul") 0) (Some (EOther (lit "json parse error: not able to read ""null"" at 1"))) s'.
Proof. eexists. run 60%nat. Qed.

(* ------------------------------------------------------------------ C145 *)

(** C145.  What stands before the place that JSON() names is the beginning of a JSON text. *)
Definition place (s : st) (n : Z) (u b : bytes) : Prop := exists r, b = u ++ r /\ n = pos (sc s) + slen u.
Lemma ws_element z v : j_ws z -> json_text Value v -> json_text Element (z ++ v).
Proof. intros Z V. rewrite <- (app_nil_r v). apply jt_element; auto. constructor. Qed.
Theorem complains_viable b u w : complains b u w -> (exists r, b = u ++ r) /\ exists v, json_text Element (u ++ v).
Proof.
  intros (z & v & u0 & -> & Z & _ & -> & Wr). inversion Wr as [m r [I _] N|m r [I _] N|u r [I _] N|r N|v' N1 N2]; subst; (split; [eexists; rewrite <- ?app_assoc; cbn [app]; rewrite <- ?app_assoc; reflexivity|]).
  - exists (lit "}"). rewrite <- !app_assoc. apply ws_element; auto. destruct I as [J|W]; [apply jt_object|apply jt_object0]; auto.
  - exists (lit "]"). rewrite <- !app_assoc. apply ws_element; auto. destruct I as [J|W]; [apply jt_array|apply jt_array0]; auto.
  - exists [x22]. rewrite <- !app_assoc. apply ws_element; auto. apply jt_string. exists u. auto.
  - exists (lit "0"). rewrite <- !app_assoc. apply ws_element; auto. apply jt_number. exists (lit "-0"), [], []. split; auto. split; [|split; left; auto].
    exists (lit "-"), (lit "0"). auto.
  - exists (lit "null"). rewrite app_nil_r. apply ws_element; auto. apply jt_null.
Qed.
Theorem C145_json_error_viable {L : GoLib} s a b x s' : at_split s a b -> reads json_env json s (Some x) s' ->
  exists n w u v, x = EOther (lit "json parse error: not able to read " ++ w ++ lit " at " ++ itoa n) /\ place s n u b /\ json_text Element (u ++ v).
Proof.
  intros Sp R. destruct (C144_json_error _ _ _ _ _ Sp R) as (u & w & C & ->). destruct (complains_viable _ _ _ C) as [[r Q] [v J]].
  exists (pos (sc s) + slen u), w, u, v. split; auto. split; auto. exists r. auto.
Qed.
Print Assumptions C145_json_error_viable.

(* ------------------------------------------------------------------ C146 *)

(** C146.  JSON() names the first place where the text is wrong: no longer beginning can be continued to a JSON text.  Not so. *)
Definition first_wrong_named (L : GoLib) : Prop := forall s a b s' w n, at_split s a b ->
  reads json_env json s (Some (EOther (lit "json parse error: not able to read " ++ w ++ lit " at " ++ itoa n))) s' ->
  forall u r v, b = u ++ r -> json_text Element (u ++ v) -> pos (sc s) + slen u <= n.
Theorem C146_refuted : ~ forall L, first_wrong_named L.
Proof.
  intros H. specialize (H roomy (mk (lit "[[1 2]]") 0) [] (lit "[[1 2]]")).
  assert (0 + 4 <= 1); [|lia]. assert (exists s', reads (L := roomy) (json_env (L := roomy)) json (mk (lit "[[1 2]]") 0) (Some (EOther (lit "json parse error: not able to read ']' at 1"))) s') as [s' R] by (eexists; run 60%nat).
  apply (H s' (lit "']'") 1 ltac:(split_here) R (lit "[[1 ") (lit "2]]") (lit "]]")); [reflexivity|].
  assert (One : json_text Element (lit "1 ")).
  { apply (jt_element [] (lit "1") (lit " ")); [constructor| |repeat constructor; auto]. apply jt_number. exists (lit "1"), [], []. split; auto. split; [|split; left; auto].
    exists [], (lit "1"). split; auto. split; auto. right. exists x31, []. split; auto. split; [cbn; lia|constructor]. }
  apply (ws_element []); [constructor|]. apply (jt_array (lit "[1 ]")). apply jt_elements1. apply (ws_element []); [constructor|]. apply (jt_array (lit "1 ")). apply jt_elements1. exact One.
Qed.
Print Assumptions C146_refuted.
