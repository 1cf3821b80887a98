(** PropDemo.v - the demo json-stack: C107-C109. *)
From Verif Require Import JsonTree PropTrack PropJson.
From Coq Require Import Lia ZifyBool Sorted Permutation.
From Verif Require Import GraphFacts UseFacts.

(* ------------------------------------------------------------------ C107 *)

(** C107.  BuildGraph gives back the forest its segments are from, in whatever order they come. *)
Theorem C107_graph_rebuilds_the_forest name p q k segs : tidy p q k -> Permutation segs (flat_map flat k) ->
  build_graph name segs = Some (Node (mkSeg name (extent k)) k).
Proof. exact (build_tidy name p q k segs). Qed.
Print Assumptions C107_graph_rebuilds_the_forest.

(* ------------------------------------------------------------------ C108 *)

Lemma altered_null nl k sel e e' : complete e -> altered (rule_pick e k) sel e e' ->
  (forall i r, r_reader (get_rule e i) = Some r -> eps nl r = true -> nl i = true) -> forall j q, r_reader (get_rule e' j) = Some q -> eps nl q = true -> nl j = true.
Proof.
  intros Co Al H j q Q X. destruct (r_reader (get_rule e j)) as [r|] eqn:Er.
  - destruct (sel j) eqn:C.
    + rewrite (altered_yes k sel e e' j r Al C Er) in Q. injection Q as <-. apply (H j r Er X).
    + rewrite (altered_no _ _ _ _ j r Al C Er) in Q. injection Q as <-. apply (H j r Er X).
  - destruct Al as [Ln Gt]. destruct (Nat.lt_ge_cases j (length e)) as [K|K]; [exfalso; apply (Co j K Er)|].
    rewrite rule_beyond in Q by (rewrite Ln; exact K). discriminate.
Qed.
Section Hyps.
Context {L : GoLib} (k : nat) (ids : list nat) (Nd : NoDup ids) (Sub : incl ids stack_ids).
Notation E2 := (pick_rules k ids json_env).
Lemma demo_complete : complete json_env.
Proof. apply complete_check. vm_compute. reflexivity. Qed.
Lemma demo_pickless : eall (pickless (chosen leaf_ids)) json_env.
Proof. apply eall_check. vm_compute. reflexivity. Qed.
Lemma demo_restores : restores json_env.
Proof. apply restores_check. vm_compute. reflexivity. Qed.
Lemma demo_unpicked : unpicked_rules k (chosen leaf_ids) E2.
Proof.
  apply (pick_unpicked json_env E2 k (chosen ids) (chosen leaf_ids) (stack_altered k ids Nd Sub)).
  - apply leaf_not_picked. auto.
  - intros i r H Q. apply existsb_exists in H as (j & J & X). apply Nat.eqb_eq in X. subst j. cbn in J.
    repeat destruct J as [<-|J]; try contradiction; vm_compute in Q; injection Q as <-; reflexivity.
Qed.
Lemma demo_covered : eall covered E2.
Proof.
  intros i r Q. assert (A : eallP (fun y => covered y = true) E2).
  { apply (pick_all _ k (chosen ids) json_env E2 demo_complete (stack_altered k ids Nd Sub)); [|reflexivity].
    intros j q H. apply rallP_rall. eapply json_covered. eauto. }
  apply rallP_rall. exact (A i r Q).
Qed.
Lemma demo_flat : eallP (flat_body k (chosen leaf_ids)) E2.
Proof.
  apply (pick_all _ k (chosen ids) json_env E2 demo_complete (stack_altered k ids Nd Sub)); [|intros; exact Logic.I].
  assert (H : eall (fun y => match y with RBody _ _ | RBodyTail _ _ => false | _ => true end) json_env) by (apply eall_check; vm_compute; reflexivity).
  intros j q Q. specialize (H j q Q). apply rallP_rall in H. revert H. apply rallP_impl. intros []; cbn; auto; discriminate.
Qed.
Lemma stack_fed i r : In i stack_ids -> r_reader (get_rule json_env i) = Some r -> eps (chosen json_null_rules) r = false.
Proof. intros I Q. cbn in I. repeat destruct I as [<-|I]; try contradiction; vm_compute in Q; injection Q as <-; vm_compute; reflexivity. Qed.
Lemma demo_fed : eallP (fed k (chosen json_null_rules)) E2.
Proof.
  apply (pick_all _ k (chosen ids) json_env E2 demo_complete (stack_altered k ids Nd Sub)).
  - assert (H : eall (fun y => match y with RPick _ _ _ => false | _ => true end) json_env) by (apply eall_check; vm_compute; reflexivity).
    intros j q Q. specialize (H j q Q). apply rallP_rall in H. revert H. apply rallP_impl. intros []; cbn; auto; discriminate.
  - intros i r C Q _. apply existsb_exists in C as (j & J & X). apply Nat.eqb_eq in X. subst j. apply (stack_fed i r); auto.
Qed.
Lemma demo_null j q : r_reader (get_rule E2 j) = Some q -> eps (chosen json_null_rules) q = true -> chosen json_null_rules j = true.
Proof.
  assert (H : forall i r, r_reader (get_rule json_env i) = Some r -> eps (chosen json_null_rules) r = true -> chosen json_null_rules i = true).
  { pose proof (parses_ok 0 [] json_null_rules json_env ltac:(vm_compute; reflexivity)) as P. apply P. }
  apply (altered_null (chosen json_null_rules) k (chosen ids) json_env E2 demo_complete (stack_altered k ids Nd Sub) H).
Qed.
Lemma json_itself : rall covered json = true /\ rallP (flat_body k (chosen leaf_ids)) json /\ rallP (fed k (chosen json_null_rules)) json.
Proof. repeat split. Qed.
Lemma demo_basket s a b x s' : at_split s a b -> reads E2 json (new_basket k s) x s' -> exists c' b', pos (sc s') = slen (a ++ b) - slen b' /\
  (forall ok2 c2 b2 l2, gathers E2 k (chosen leaf_ids) (slen (a ++ b)) (IR json) (h_cells (hp s)) b ok2 c2 b2 l2 -> l2 = get_basket k (hp s')) /\
  gathers E2 k (chosen leaf_ids) (slen (a ++ b)) (IR json) (h_cells (hp s)) b (okx x) c' b' (get_basket k (hp s')).
Proof.
  intros Sp Rd. destruct json_itself as (A & B & C).
  destruct (C102_basket_is_the_parse E2 k (chosen leaf_ids) (chosen json_null_rules) json (new_basket k s) a b x s' demo_unpicked demo_covered demo_flat demo_fed demo_null A B C) as (c' & b' & P & G & U); auto.
  { apply get_put_basket. }
  exists c', b'. split; [exact P|]. split; [exact U|exact G].
Qed.
Lemma demo_gathers n b b' l : yields k ids n (IR (RRule jElement)) b true b' l -> forall c, gathers E2 k (chosen leaf_ids) n (IR json) c b true c b' l.
Proof.
  intros Y c. specialize (Y c). unfold json. inversion Y; subst; [discriminate|]. eapply g_grammar; eauto.
Qed.
End Hyps.

(** C108.  [Use] of JSON() with a Basket for any of the rules Key, Object, Array, String, Number, Bool and Null: what was
    read is a JSON text, and the Basket contains the picked parts of that text, children before parents. *)
Theorem C108_basket_of_json {L : GoLib} k ids s a b s' : NoDup ids -> incl ids stack_ids -> at_split s a b ->
  uses (pick_rules k ids json_env) json (new_basket k s) None s' ->
  exists w rest kids, b = w ++ rest /\ json_text Element w /\ json_nodes (named json_env ids) Element (slen a) w kids /\
    at_split s' (a ++ w) rest /\ get_basket k (hp s') = flat_map post kids.
Proof.
  intros Nd Sub Sp U. pose proof (in_text_split _ _ _ Sp) as I. apply uses_reads in U as (s1 & Rd & Q); [|apply I]. cbn in Q. subst s1.
  destruct (pick_same json_env _ k (chosen ids) (chosen leaf_ids) demo_complete demo_pickless demo_restores (stack_altered k ids Nd Sub) json s None s' eq_refl I Rd) as (t & Rt & Ft & Pt).
  destruct (demo_basket k ids Nd Sub s a b None s' Sp Rd) as (c' & b1 & P & Un & G).
  destruct (json_reads_eats a b s None t Sp Rt) as (c2 & b2 & S1 & D).
  destruct (top_tree k ids Nd Sub (slen (a ++ b)) b) as [(w & kids & b' & -> & T & Y)|[O|C]].
  - exists w, b', kids. split; auto. split; [eapply tree_text; eauto|]. replace (slen (a ++ w ++ b') - slen (w ++ b')) with (slen a) in T by (rewrite !slen_app; lia).
    split; auto. pose proof (demo_gathers k ids _ _ _ _ Y (h_cells (hp s))) as G2. split; [|symmetry; eapply Un; exact G2].
    destruct (eats_det _ _ _ _ _ _ _ (gathers_eats _ _ _ _ _ _ _ _ _ _ _ G2) _ _ _ (gathers_eats _ _ _ _ _ _ _ _ _ _ _ G)) as (_ & _ & <-).
    destruct S1 as (F1 & _). destruct Sp as (Fs & Ps & Ls). split; [rewrite <- app_assoc; congruence|]. split; [rewrite P, !slen_app; lia|rewrite <- app_assoc; auto].
  - exfalso. assert (O' : out json_env (IR json) b false b) by (intros c; apply json_eats, O). destruct (out_eats _ _ _ _ _ _ _ _ _ O' D) as [X _]. discriminate.
  - exfalso. exact (json_stuck b C _ _ _ _ D).
Qed.
Print Assumptions C108_basket_of_json.
(** And every JSON text with its parts is read in this way, if what follows does not continue it. *)
Theorem C108_every_json_text {L : GoLib} k ids s a w rest kids : NoDup ids -> incl ids stack_ids -> at_split s a (w ++ rest) ->
  json_nodes (named json_env ids) Element (slen a) w kids -> stops rest ->
  exists s', uses (pick_rules k ids json_env) json (new_basket k s) None s' /\ at_split s' (a ++ w) rest /\ get_basket k (hp s') = flat_map post kids.
Proof.
  intros Nd Sub Sp T St. pose proof (in_text_split _ _ _ Sp) as I.
  destruct (C62_json_complete_in_text s a w rest Sp (tree_text _ _ _ _ _ T) St) as (t & U & At). apply uses_reads in U as (t1 & Rt & Q); [|apply I]. cbn in Q. subst t1.
  pose proof (stack_altered k ids Nd Sub) as Al.
  destruct (pick_back json_env _ k (chosen ids) (chosen leaf_ids) demo_complete demo_pickless demo_restores Al json s None t eq_refl I Rt) as (s' & Rd).
  destruct (pick_same json_env _ k (chosen ids) (chosen leaf_ids) demo_complete demo_pickless demo_restores Al json s None s' eq_refl I Rd) as (t2 & Rt2 & Ft & Pt).
  destruct (reads_fun _ _ _ _ _ _ _ Rt2 Rt) as [_ ->].
  exists s'. split; [apply uses_reads; [apply I|]; exists s'; auto|]. split; [unfold at_split in *; rewrite <- Ft, <- Pt; auto|].
  destruct (demo_basket k ids Nd Sub s a _ None s' Sp Rd) as (c' & b1 & P & Un & _). symmetry. eapply Un.
  apply demo_gathers. apply (nodes_read k ids Nd Sub _ Element (slen a) w kids T rest); [rewrite !slen_app; lia|apply stops_follow; exact St].
Qed.
Print Assumptions C108_every_json_text.

(** A JSON text has only one tree. *)
Lemma nodes_ext on on' s p w kids : (forall name, In name [lit "key"; lit "object"; lit "array"; lit "string"; lit "number"; lit "bool"; lit "null"] -> on name = on' name) ->
  json_nodes on s p w kids -> json_nodes on' s p w kids.
Proof.
  intros H T. assert (X : forall name p w k, In name [lit "key"; lit "object"; lit "array"; lit "string"; lit "number"; lit "bool"; lit "null"] -> shown on name p w k = shown on' name p w k).
  { intros name q v k I. unfold shown. rewrite (H name I). auto. }
  induction T; rewrite ?X by (cbn; tauto); eauto using json_nodes.
Qed.
Definition on_ids {L : GoLib} (on : bytes -> bool) : list nat := filter (fun i => on (r_name (get_rule json_env i))) stack_ids.
Lemma on_ids_ok {L : GoLib} on : NoDup (on_ids on) /\ incl (on_ids on) stack_ids /\
  forall name, In name [lit "key"; lit "object"; lit "array"; lit "string"; lit "number"; lit "bool"; lit "null"] -> on name = named json_env (on_ids on) name.
Proof.
  split; [apply NoDup_filter; unfold stack_ids; repeat constructor; cbn; intuition discriminate|]. split; [intros i I; apply filter_In in I; tauto|].
  intros name I. assert (X : exists i, In i stack_ids /\ r_name (get_rule json_env i) = name).
  { cbn in I. repeat destruct I as [<-|I]; try contradiction.
    - exists jKey. split; [cbn; tauto|vm_compute; reflexivity].
    - exists jObject. split; [cbn; tauto|vm_compute; reflexivity].
    - exists jArray. split; [cbn; tauto|vm_compute; reflexivity].
    - exists jString. split; [cbn; tauto|vm_compute; reflexivity].
    - exists jNumber. split; [cbn; tauto|vm_compute; reflexivity].
    - exists jBool. split; [cbn; tauto|vm_compute; reflexivity].
    - exists jNull. split; [cbn; tauto|vm_compute; reflexivity]. }
  destruct X as (i & J & Nm). rewrite (on_is (on_ids on)) with (i := i); auto; [|intros j Hj; apply filter_In in Hj; tauto].
  unfold chosen. destruct (on name) eqn:O.
  - symmetry. apply existsb_exists. exists i. split; [apply filter_In; rewrite Nm; auto|apply Nat.eqb_refl].
  - symmetry. apply not_true_iff_false. intros Q. apply existsb_exists in Q as (j & Hj & Q). apply Nat.eqb_eq in Q. subst j. apply filter_In in Hj as [_ Hj]. rewrite Nm in Hj. congruence.
Qed.
Theorem C108_tree_is_unique {L : GoLib} on p w k1 k2 : json_nodes on Element p w k1 -> json_nodes on Element p w k2 -> k1 = k2.
Proof.
  intros T1 T2. destruct (on_ids_ok on) as (Nd & Sub & X). apply (nodes_ext on (named json_env (on_ids on))) in T1; auto. apply (nodes_ext on (named json_env (on_ids on))) in T2; auto.
  assert (F : follow []) by (repeat split).
  pose proof (nodes_read 0 _ Nd Sub (p + slen w) Element p w k1 T1 [] ltac:(rewrite app_nil_r; lia) F) as Y1.
  pose proof (nodes_read 0 _ Nd Sub (p + slen w) Element p w k2 T2 [] ltac:(rewrite app_nil_r; lia) F) as Y2.
  pose proof (gathers_det _ _ _ _ _ _ _ _ _ _ _ (Y1 []) _ _ _ _ (Y2 [])) as Q.
  pose proof (build_tidy [] _ _ _ _ (trees_tidy _ _ _ _ _ T1) (posts_flats k1)) as B1. pose proof (build_tidy [] _ _ _ _ (trees_tidy _ _ _ _ _ T2) (posts_flats k2)) as B2.
  rewrite Q in B1. rewrite B1 in B2. injection B2 as _ B2. exact B2.
Qed.
Print Assumptions C108_tree_is_unique.

(* ------------------------------------------------------------------ C109 *)

(** C109.  The demo json-stack: the graph it builds is the tree of the JSON text that was read, and it prints one line
    for every part of it. *)
Lemma one_value on p w kids : (forall name, on name = true) -> json_nodes on Element p w kids -> exists v, kids = [v].
Proof.
  intros H T. inversion T as [| | | | | | | | | | | |p0 w1 v w2 k0 W1 V W2| |]; subst. inversion V; subst; unfold shown; rewrite H; eauto.
Qed.
Theorem C109_json_stack_shows_the_tree {L : GoLib} name t s' : slen t < 2 ^ 63 ->
  uses (pick_rules 0 stack_ids json_env) json (new_basket 0 (init_st t)) None s' ->
  exists w rest v, t = w ++ rest /\ json_text Element w /\ json_nodes (fun _ => true) Element 0 w [v] /\
    build_graph name (get_basket 0 (hp s')) = Some (Node (mkSeg name (n_tok v)) [v]) /\
    flame_stack (Node (mkSeg name (n_tok v)) [v]) = flat_map flame_line (paths 1 (Node (mkSeg name (n_tok v)) [v])).
Proof.
  intros Lt U. assert (Sp : at_split (init_st t) [] t) by (repeat split; auto).
  destruct (C108_basket_of_json 0 stack_ids _ _ _ _ ltac:(unfold stack_ids; repeat constructor; cbn; intuition discriminate) (incl_refl _) Sp U) as (w & rest & kids & -> & J & T & _ & B).
  apply (nodes_ext _ (fun _ => true)) in T.
  2:{ intros nm I. cbn in I. repeat destruct I as [<-|I]; try contradiction; vm_compute; reflexivity. }
  destruct (one_value _ _ _ _ (fun _ => eq_refl) T) as [v ->]. exists w, rest, v. split; [auto|]. split; [auto|]. split; [exact T|]. split; [|apply flame_stack_lines].
  rewrite B, (build_tidy name _ _ _ _ (trees_tidy _ _ _ _ _ T) (posts_flats [v])). cbn [extent last]. destruct (n_tok v). reflexivity.
Qed.
Print Assumptions C109_json_stack_shows_the_tree.
Theorem C109_json_stack_takes_every_json_file {L : GoLib} t : slen t < 2 ^ 63 -> json_text Element t ->
  exists s', uses (pick_rules 0 stack_ids json_env) json (new_basket 0 (init_st t)) None s' /\ pos (sc s') = slen t.
Proof.
  intros Lt J. assert (Sp : at_split (init_st t) [] (t ++ [])) by (rewrite app_nil_r; repeat split; auto).
  destruct (tree_total (named json_env stack_ids) _ _ J 0) as [kids T].
  destruct (C108_every_json_text 0 stack_ids _ _ _ _ kids ltac:(unfold stack_ids; repeat constructor; cbn; intuition discriminate) (incl_refl _) Sp T) as (s' & U & (_ & P & _) & _); [left; reflexivity|].
  exists s'. auto.
Qed.
Print Assumptions C109_json_stack_takes_every_json_file.

(** A file and what is printed for it. *)
Definition demo_text : bytes := lit "{""a"": [1, true]}".
Definition demo_tree : node :=
  Node (mkSeg (lit "object") (mkTok 0 16)) [Node (mkSeg (lit "key") (mkTok 1 4)) []; Node (mkSeg (lit "array") (mkTok 6 15))
    [Node (mkSeg (lit "number") (mkTok 7 8)) []; Node (mkSeg (lit "bool") (mkTok 10 14)) []]].
Example C107_case : tidy 0 16 [demo_tree].
Proof. repeat (constructor; cbn; try lia). Qed.
Example C109_case {L : GoLib} : exists s', uses (pick_rules 0 stack_ids json_env) json (new_basket 0 (init_st demo_text)) None s' /\
  get_basket 0 (hp s') = post demo_tree /\
  build_graph (lit "f") (get_basket 0 (hp s')) = Some (Node (mkSeg (lit "f") (mkTok 0 16)) [demo_tree]).
Proof. eexists. split; [exists 60%nat; vm_compute; reflexivity|]. split; vm_compute; reflexivity. Qed.
Example C109_printed : flame_stack (Node (mkSeg (lit "f") (mkTok 0 16)) [demo_tree]) =
  lit "1.f[0-16) 16" ++ [x0a] ++
  lit "1.f[0-16);1.object[0-16) 16" ++ [x0a] ++
  lit "1.f[0-16);1.object[0-16);1.key[1-4) 3" ++ [x0a] ++
  lit "1.f[0-16);1.object[0-16);2.array[6-15) 9" ++ [x0a] ++
  lit "1.f[0-16);1.object[0-16);2.array[6-15);1.number[7-8) 1" ++ [x0a] ++
  lit "1.f[0-16);1.object[0-16);2.array[6-15);2.bool[10-14) 4" ++ [x0a].
Proof. vm_compute. reflexivity. Qed.
(** Only arrays and numbers are picked, and the text goes on behind the value. *)
Example C108_case {L : GoLib} : NoDup [jArray; jNumber] /\ incl [jArray; jNumber] stack_ids /\
  exists s', uses (pick_rules 3 [jArray; jNumber] json_env) json (new_basket 3 (mkSt (mkSc (lit "x[1, ""2""] y") 1 None) heap0)) None s' /\ pos (sc s') = 10 /\
    get_basket 3 (hp s') = [mkSeg (lit "number") (mkTok 2 3); mkSeg (lit "array") (mkTok 1 9)].
Proof.
  split; [repeat constructor; cbn; intuition discriminate|]. split; [intros i [<-|[<-|[]]]; cbn; tauto|].
  eexists. split; [exists 60%nat; vm_compute; reflexivity|]. split; vm_compute; reflexivity.
Qed.
