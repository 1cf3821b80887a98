(** PropAll.v - C99, C100: NewBasketFor and MonitorGrammar reach every rule, and rules without a Reader panic as before. *)
From Verif Require Import ReaderTrans ReaderSteps ExKit Json BasketFacts LogFacts TrackFacts PropLog.
From Coq Require Import Lia.

Lemma seq_in n i : In i (seq 0 n) -> (i < n)%nat.
Proof. rewrite in_seq. lia. Qed.
Lemma all_monitored lg e i : (i < length e)%nat -> get_rule (monitor_all lg e) i = rule_monitor e lg (get_rule e i).
Proof.
  intros I. destruct (monitor_altered lg (seq 0 (length e)) e (seq_NoDup _ _) (seq_in _)) as [_ G]. unfold monitor_all. rewrite G, all_chosen by exact I. reflexivity.
Qed.
Lemma all_picked b e i : (i < length e)%nat -> get_rule (pick_with b e) i = rule_pick e b (get_rule e i).
Proof.
  intros I. destruct (pick_altered b (seq 0 (length e)) e (seq_NoDup _ _) (seq_in _)) as [_ G]. unfold pick_with. rewrite G, all_chosen by exact I. reflexivity.
Qed.
(** After MonitorGrammar, the Read of any rule begins with an entry of its own: its name, and where it began. *)
Theorem C100_monitor_grammar {L : GoLib} e lg i s x s' : (i < length e)%nat -> log_ok (get_log lg (hp s)) -> reads (monitor_all lg e) (RRule i) s x s' ->
  exists en new, log_entries (get_log lg (hp s')) = log_entries (get_log lg (hp s)) ++ en :: new /\
    e_info en = r_name (get_rule e i) /\ e_enter en = pos (sc s) /\ e_level en = l_level (get_log lg (hp s)) + 1.
Proof.
  intros I Ok H. pose proof (all_monitored lg e i I) as G. assert (R : r_reader (get_rule (monitor_all lg e) i) = Some (RMonitor (r_name (get_rule e i)) lg (rule_sub e (get_rule e i)))) by (rewrite G; reflexivity).
  apply (rule_reads _ _ _ _ _ _ R) in H. destruct (C56_monitored_read_exact _ _ _ _ _ _ _ Ok H) as (_ & s1 & s2 & new & _ & _ & _ & _ & _ & _ & E). eexists _, new. split; [exact E|auto].
Qed.
(** After NewBasketFor, the successful Read of any rule ends with a segment of its own: its name, and what it read. *)
Theorem C99_new_basket_for {L : GoLib} e b i s s' : (i < length e)%nat -> reads (pick_with b e) (RRule i) s None s' ->
  exists segs, get_basket b (hp s') = segs ++ [mkSeg (r_name (get_rule e i)) (make_token (pos (sc s)) (pos (sc s')))].
Proof.
  intros I H. pose proof (all_picked b e i I) as G. assert (R : r_reader (get_rule (pick_with b e) i) = Some (RPick (r_name (get_rule e i)) b (rule_sub e (get_rule e i)))) by (rewrite G; reflexivity).
  apply (rule_reads _ _ _ _ _ _ R) in H. apply pick_adds in H as (s1 & _ & ->). exists (get_basket b (hp s1)). cbn [with_heap hp sc]. unfold basket_add. rewrite get_put_basket. reflexivity.
Qed.
(** The names of the rules stay. *)
Theorem C100_names_stay e lg i : r_name (get_rule (monitor_all lg e) i) = r_name (get_rule e i) /\ r_name (get_rule (pick_with lg e) i) = r_name (get_rule e i).
Proof.
  destruct (Nat.lt_ge_cases i (length e)) as [I|I].
  - rewrite all_monitored, all_picked by exact I. auto.
  - destruct (monitor_altered lg (seq 0 (length e)) e (seq_NoDup _ _) (seq_in _)) as [M _]. destruct (pick_altered lg (seq 0 (length e)) e (seq_NoDup _ _) (seq_in _)) as [P _].
    unfold monitor_all, pick_with. rewrite !rule_beyond by (rewrite ?M, ?P; exact I). auto.
Qed.
(** A rule without a Reader panics when it is read, monitored and picked or not. *)
Theorem C100_rule_without_reader {L : GoLib} e k i s : (i < length e)%nat -> r_reader (get_rule e i) = None ->
  panics e (RRule i) s /\ panics (monitor_all k e) (RRule i) s /\ panics (pick_with k e) (RRule i) s.
Proof.
  intros I N. split; [exists 1%nat; cbn [read]; rewrite N; reflexivity|]. split; exists 3%nat; cbn [read].
  - destruct (monitor_altered k (seq 0 (length e)) e (seq_NoDup _ _) (seq_in _)) as [M _]. rewrite all_monitored by exact I. cbn [rule_monitor r_reader]. unfold rule_sub. rewrite N. unfold nil_reader. cbn [read].
    unfold monitor_all. rewrite (rule_beyond _ (length e)) by (rewrite M; lia). reflexivity.
  - destruct (pick_altered k (seq 0 (length e)) e (seq_NoDup _ _) (seq_in _)) as [P _]. rewrite all_picked by exact I. cbn [rule_pick r_reader]. unfold rule_sub. rewrite N. unfold nil_reader. cbn [read].
    unfold pick_with. rewrite (rule_beyond _ (length e)) by (rewrite P; lia). reflexivity.
Qed.
Print Assumptions C100_monitor_grammar.
Print Assumptions C99_new_basket_for.
Print Assumptions C100_names_stay.
Print Assumptions C100_rule_without_reader.
(** All the rules of JSON() are monitored: the first entries of reading an element. *)
Example C100_all_case : exists s', reads (L := roomy) (monitor_all 0 (json_env (L := roomy))) (RRule jElement) (mk (lit "[]") 0) None s' /\
  map (fun en => (e_info en, e_enter en)) (firstn 4 (log_entries (get_log 0 (hp s')))) = [(lit "element", 0); (lit "ws", 0); (lit "value", 0); (lit "object", 0)].
Proof. eexists. split; [exists 60%nat; vm_compute; reflexivity|]. vm_compute. reflexivity. Qed.
Example C99_all_case {L : GoLib} : exists s', reads (pick_with 0 json_env) (RRule jElement) (new_basket 0 (mk (lit "[]") 0)) None s' /\
  map (fun g => (s_info g, t_from (s_tok g), t_to (s_tok g))) (get_basket 0 (hp s')) = [(lit "ws", 0, 0); (lit "ws", 1, 1); (lit "ws", 1, 1); (lit "array", 0, 2); (lit "value", 0, 2); (lit "ws", 2, 2); (lit "element", 0, 2)].
Proof. eexists. split; [exists 60%nat; vm_compute; reflexivity|]. vm_compute. reflexivity. Qed.
