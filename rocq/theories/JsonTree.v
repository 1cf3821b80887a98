(** JsonTree.v - what JSON() with picked rules puts into the basket, and the graph of it. *)
From Verif Require Export JsonFacts Gather SpecTree TrackFacts.
From Coq Require Import Lia ZifyBool Sorted Permutation.
From Verif Require Import GraphFacts SegFacts TokenFacts SortFacts.

(* ----------------------------------------------------------- forests *)

Lemma tidy_wide p q k : tidy p q k -> forall p' q', p' <= p -> q <= q' -> tidy p' q' k.
Proof. induction 1; intros p' q' A B; constructor; auto; try lia. apply IHtidy2; lia. Qed.
Lemma tidy_app p q q' r k1 k2 : tidy p q k1 -> tidy q' r k2 -> q <= q' -> q <= r -> p <= q -> tidy p r (k1 ++ k2).
Proof.
  intros H1 H2 A B C. revert H2 A B C. induction H1; intros H2 A B C; cbn [app].
  - eapply tidy_wide; eauto; lia.
  - constructor; try lia; auto with zarith.
Qed.
Lemma tidy_ind2 (P : Z -> Z -> list node -> Prop) : (forall p q, P p q []) ->
  (forall p q s c k, p <= t_from (s_tok s) -> t_from (s_tok s) < t_to (s_tok s) -> t_to (s_tok s) <= q ->
    P (t_from (s_tok s) + 1) (t_to (s_tok s) - 1) c -> P (t_to (s_tok s)) q k -> P p q (Node s c :: k)) ->
  forall p q k, tidy p q k -> P p q k.
Proof. intros A B p q k H. induction H; auto. Qed.
Lemma tidy_in p q k : tidy p q k -> forall x, In x (flat_map flat k) -> p <= t_from (s_tok x) /\ t_from (s_tok x) < t_to (s_tok x) /\ t_to (s_tok x) <= q.
Proof.
  intros H. induction H; intros x I; cbn [flat_map flat] in I; [destruct I|].
  destruct I as [<-|I]; [auto|]. apply in_app_or in I as [I|I]; [specialize (IHtidy1 x I)|specialize (IHtidy2 x I)]; lia.
Qed.
Lemma tidy_top p q k : tidy p q k -> forall n, In n k -> In (n_seg n) (flat_map flat k).
Proof. intros _ n I. apply in_flat_map. exists n. split; auto. rewrite flat_split. left. auto. Qed.
Lemma NoDup_app_intro {A} (l m : list A) : NoDup l -> NoDup m -> (forall x, In x l -> In x m -> False) -> NoDup (l ++ m).
Proof.
  induction 1 as [|x l N D IH]; intros M Z; cbn [app]; auto. constructor; [|apply IH; auto; intros y Y; apply Z; right; auto].
  intros I. apply in_app_or in I as [I|I]; [auto|]. apply (Z x); [left|]; auto.
Qed.
Lemma tidy_nodup p q k : tidy p q k -> NoDup (map s_tok (flat_map flat k)).
Proof.
  intros H. induction H; cbn [flat_map flat map app]; [constructor|]. rewrite map_app. constructor.
  - intros I. apply in_app_or in I as [I|I]; apply in_map_iff in I as (x & E & I);
      [apply (tidy_in _ _ _ H2) in I|apply (tidy_in _ _ _ H3) in I]; rewrite E in I; lia.
  - apply NoDup_app_intro; auto. intros t I J. apply in_map_iff in I as (x & E & I). apply in_map_iff in J as (y & E' & J).
    apply (tidy_in _ _ _ H2) in I. apply (tidy_in _ _ _ H3) in J. rewrite E in I. rewrite E' in J. lia.
Qed.
Lemma tidy_nested p q k : tidy p q k -> (forall n, In n k -> nested n) /\ StronglySorted lnode k.
Proof.
  intros H. induction H.
  - split; [intros n []|constructor].
  - destruct IHtidy1 as [A1 A2], IHtidy2 as [B1 B2]. split.
    + intros n [<-|I]; [|auto]. constructor; auto; [unfold ordered; lia|].
      intros d I. pose proof (tidy_in _ _ _ H2 _ (tidy_top _ _ _ H2 d I)). unfold n_tok. tk. lia.
    + constructor; auto. apply Forall_forall. intros d I. pose proof (tidy_in _ _ _ H3 _ (tidy_top _ _ _ H3 d I)).
      unfold lnode, left_of, n_tok in *. cbn [n_seg]. tk. lia.
Qed.
Lemma last_in {A} (k : list A) d : k <> [] -> In (last k d) k.
Proof. induction k as [|x [|y k] IH]; intros N; [congruence|left; auto|right; apply IH; discriminate]. Qed.
Lemma last_app_one {A} (k : list A) x d : last (k ++ [x]) d = x.
Proof. induction k as [|y [|z k] IH]; auto. Qed.
Lemma tidy_extent p q k : tidy p q k -> k <> [] -> tidy (t_from (extent k)) (t_to (extent k)) k.
Proof.
  intros H. induction H; intros N; [congruence|]. destruct k as [|n k].
  - cbn [extent last t_from t_to n_tok n_seg]. apply tidy_cons; auto using tidy_nil; unfold n_tok; cbn [n_seg]; lia.
  - specialize (IHtidy2 ltac:(discriminate)). cbn [extent t_from t_to] in *. 
    assert (X : last (Node s c :: n :: k) (Node s c) = last (n :: k) n).
    { cbn [last]. clear. destruct k; auto. revert n0. induction k; intros; cbn; auto. apply IHk. }
    assert (Y : t_to (s_tok s) <= t_from (n_tok n) /\ t_from (n_tok n) <= t_to (n_tok (last (n :: k) n))).
    { pose proof (tidy_in _ _ _ H3 _ (tidy_top _ _ _ H3 n ltac:(left; auto))).
      pose proof (tidy_in _ _ _ IHtidy2 _ (tidy_top _ _ _ IHtidy2 n ltac:(left; auto))). unfold n_tok in *. lia. }
    rewrite X. cbn [n_tok n_seg] in *. unfold n_tok at 1. cbn [n_seg]. constructor; auto; try lia. eapply tidy_wide; [exact IHtidy2| |]; lia.
Qed.
Lemma tidy_hull p q k : tidy p q k -> k <> [] -> hull (extent k) (flat_map flat k) /\ ordered (extent k).
Proof.
  intros H N. pose proof (tidy_extent _ _ _ H N) as T. destruct k as [|n k]; [congruence|].
  assert (F : In (n_seg n) (flat_map flat (n :: k))) by (apply (tidy_top _ _ _ T); left; auto).
  assert (La : In (n_seg (last (n :: k) n)) (flat_map flat (n :: k))) by (apply (tidy_top _ _ _ T); apply last_in; discriminate).
  split; [split|].
  - intros x I. pose proof (tidy_in _ _ _ T x I). tk. lia.
  - intros u U. pose proof (U _ F). pose proof (U _ La). cbn [extent] in *. unfold n_tok in *. tk. lia.
  - pose proof (tidy_in _ _ _ T _ F). unfold ordered. cbn [extent t_from t_to] in *. lia.
Qed.
Lemma sorted_comparable {A} (R : A -> A -> Prop) l : StronglySorted R l -> forall x y, In x l -> In y l -> x = y \/ R x y \/ R y x.
Proof.
  induction 1 as [|a l S IH F]; intros x y []; intros []; subst; auto; rewrite Forall_forall in F; auto.
Qed.
Lemma post_flat : forall n, Permutation (post n) (flat n).
Proof.
  refine (node_ind' _ _). intros s k IH. cbn [post flat]. eapply Permutation_trans; [apply Permutation_app_comm|]. cbn [app]. constructor.
  induction k as [|c k IHk]; cbn [flat_map]; auto. apply Permutation_app; [apply IH; left; auto|apply IHk; intros; apply IH; right; auto].
Qed.
Lemma posts_flats k : Permutation (flat_map post k) (flat_map flat k).
Proof. induction k; cbn [flat_map]; auto. apply Permutation_app; auto. apply post_flat. Qed.

(** Two trees of the same segments. *)
Lemma nested_unique s k k' : nested (Node s k) -> nested (Node s k') -> Permutation (flat_map flat k) (flat_map flat k') ->
  (forall x, In x (flat_map flat k) -> nonempty (s_tok x)) -> NoDup (map s_tok (flat_map flat k)) -> k = k'.
Proof.
  intros N N' P NE ND. pose proof (nested_inv _ _ N) as (O & Nk & Ck & Sk). pose proof (nested_inv _ _ N') as (O' & Nk' & Ck' & Sk').
  assert (EF : flat_map flat k = flat_map flat k').
  { apply (sorted_unique pre_strict pre_strict_asym); auto.
    - apply strict_sorted; auto. pose proof (nested_preorder _ N) as Q. inversion Q; auto.
    - apply strict_sorted; auto.
      + intros x J. apply NE. eapply Permutation_in; [|exact J]. apply Permutation_sym; auto.
      + eapply Permutation_NoDup; [|exact ND]. apply Permutation_map; auto.
      + pose proof (nested_preorder _ N') as Q. inversion Q; auto. }
  eapply forest_unique; eauto.
Qed.
Lemma tidy_root name p q k : tidy p q k -> nested (Node (mkSeg name (extent k)) k).
Proof.
  intros H. destruct k as [|n k]; [constructor; try (intros c []); [unfold ordered; cbn; lia|constructor]|].
  destruct (tidy_nested _ _ _ H) as [A B]. destruct (tidy_hull _ _ _ H ltac:(discriminate)) as [[C _] D].
  constructor; auto. intros c I. apply C. apply (tidy_top _ _ _ H). auto.
Qed.
Lemma build_tidy name p q k segs : tidy p q k -> Permutation segs (flat_map flat k) -> build_graph name segs = Some (Node (mkSeg name (extent k)) k).
Proof.
  intros T P. pose proof (tidy_root name _ _ _ T) as N.
  assert (I : forall x, In x segs -> In x (flat_map flat k)) by (intros x; apply Permutation_in; auto).
  destruct (append_all_history name segs [] (new_graph name)) as (g & acc & E & H & _ & A); [constructor| |].
  { intros x J. pose proof (tidy_in _ _ _ T x (I x J)). unfold ordered. lia. }
  unfold build_graph. rewrite E. f_equal. cbn [app] in *. rewrite A in H.
  2:{ intros x y X Y. pose proof (nested_preorder _ N) as Q. inversion Q as [|? ? Q1 _]; subst.
      pose proof (tidy_in _ _ _ T _ (I x X)). pose proof (tidy_in _ _ _ T _ (I y Y)).
      destruct (sorted_comparable _ _ Q1 x y (I x X) (I y Y)) as [->|[Z|Z]]; unfold covers_or_before in *; tk; lia. }
  destruct (history_facts _ _ _ H) as (Ng & Ig & PB & Z & HU & _). destruct g as [[i t] kg]. cbn [n_seg s_info] in Ig. subst i. unfold below in PB. cbn [n_kids] in PB.
  assert (Et : t = extent k).
  { destruct k as [|n k].
    - apply Permutation_sym, Permutation_nil in P. subst segs. specialize (Z eq_refl). unfold new_graph in Z. injection Z as -> _. reflexivity.
    - destruct (tidy_hull _ _ _ T ltac:(discriminate)) as [C D]. eapply hull_unique; [|exact D|exact P|apply HU|exact C].
      + apply nested_inv in Ng. apply Ng.
      + intros ->. apply Permutation_nil in P. destruct n. discriminate. }
  subst t. f_equal. eapply nested_unique; [exact Ng|exact N|eapply Permutation_trans; eauto| |].
  - intros x J. pose proof (tidy_in _ _ _ T x (I x (Permutation_in _ PB J))). unfold nonempty. lia.
  - eapply Permutation_NoDup; [|apply (tidy_nodup _ _ _ T)]. apply Permutation_map, Permutation_sym. eapply Permutation_trans; eauto.
Qed.

(* ------------------------------------------------- what is not picked *)

Section Plain.
Context (e e' : env) (k : nat) (R : nat -> bool) (N : Z).
(** No Pick, no Map, no Body, only rules of [R]. *)
Definition bland (r : reader) : Prop := match r with RRule i | RGrammar _ _ i => R i = true | RPick _ _ _ | RMap _ _ | RBody _ _ | RBodyTail _ _ => False | _ => True end.
Context (Re : forall i r, R i = true -> r_reader (get_rule e i) = Some r -> r_reader (get_rule e' i) = Some r /\ rallP bland r).
Lemma bland_gathers i c b ok c' b' : eats e i c b ok c' b' -> iallP bland i -> gathers e' k R N i c b ok c' b' [].
Proof.
  induction 1; intros Hi; cbn [iallP rallP bland] in Hi;
  repeat match goal with
  | X : _ /\ _ |- _ => destruct X
  | X : True |- _ => clear X
  | X : False |- _ => destruct X
  | X : Forall _ (_ :: _) |- _ => inversion_clear X
  | X : fold_right _ True ?l0 |- _ => apply all_Forall in X
  end;
  repeat match goal with
  | X : R ?i = true, Y : r_reader (get_rule e ?i) = Some ?r |- _ => let A := fresh in let B := fresh in destruct (Re _ _ X Y) as [A B]; clear Y
  end;
  repeat match goal with
  | IH : ?P -> gathers _ _ _ _ _ _ _ _ _ _ _ |- _ => let Z := fresh in assert (Z : P) by (cbn [iallP rallP bland]; eauto using all_interleave); specialize (IH Z); clear Z
  end.
  all: try solve [econstructor; eauto].
  all: try match goal with |- gathers _ _ _ _ _ _ _ ?ok _ _ [] => change (@nil segment) with (won ok []) end.
  all: try solve [replace (@nil segment) with (won ok (@nil segment)) by (destruct ok; reflexivity); econstructor; eauto].
  all: try solve [change (@nil segment) with (@nil segment ++ []); econstructor; eauto].
Qed.
End Plain.

(* ------------------------------------------------- JSON with picked rules *)

(** The rules that are never picked and only use each other. *)
Definition leaf_ids : list nat := [jCharacters; jCharacter; jEscape; jHex; jInteger; jFraction; jExponent; jOneNine; jDigit; jDigits; jSign; jWS].
(** The names of the rules [ids] of a grammar. *)
Definition named (e : env) (ids : list nat) (name : bytes) : bool := existsb (fun i => bytes_eqb (r_name (get_rule e i)) name) ids.

Lemma altered_no f sel e e' i r : altered f sel e e' -> sel i = false -> r_reader (get_rule e i) = Some r -> r_reader (get_rule e' i) = Some r.
Proof.
  intros [Ln Gt] H Q. destruct (Nat.lt_ge_cases i (length e)) as [K|K]; [|rewrite rule_beyond in Q by lia; discriminate].
  rewrite Gt, H by auto. auto.
Qed.
Lemma altered_yes k sel e e' i r : altered (rule_pick e k) sel e e' -> sel i = true -> r_reader (get_rule e i) = Some r ->
  r_reader (get_rule e' i) = Some (RPick (r_name (get_rule e i)) k r).
Proof.
  intros [Ln Gt] H Q. destruct (Nat.lt_ge_cases i (length e)) as [K|K]; [|rewrite rule_beyond in Q by lia; discriminate].
  rewrite Gt, H by auto. unfold rule_pick, rule_sub. cbn. rewrite Q. auto.
Qed.
Section Stack.
Context {L : GoLib} (k : nat) (ids : list nat) (Nd : NoDup ids) (Sub : incl ids stack_ids) (N : Z).
Notation E := json_env.
Notation E2 := (pick_rules k ids json_env).
Notation on := (named json_env ids).
Notation R := (chosen leaf_ids).
Notation stops_at p b := (p = N - slen b).
Definition yields (i : item) (b : bytes) (ok : bool) (b' : bytes) (l : list segment) : Prop := forall c, gathers E2 k R N i c b ok c b' l.

Lemma stack_altered : altered (rule_pick E k) (chosen ids) E E2.
Proof. apply pick_altered; auto. intros i H. apply Sub in H. cbn in H. repeat destruct H as [<-|H]; try contradiction; vm_compute; lia. Qed.
Lemma not_picked i r : chosen ids i = false -> r_reader (get_rule E i) = Some r -> r_reader (get_rule E2 i) = Some r.
Proof. apply altered_no with (f := rule_pick E k). exact stack_altered. Qed.
Lemma picked_rule i r : chosen ids i = true -> r_reader (get_rule E i) = Some r -> r_reader (get_rule E2 i) = Some (RPick (r_name (get_rule E i)) k r).
Proof. apply altered_yes with (e := E). exact stack_altered. Qed.
Lemma leaf_not_picked i : chosen leaf_ids i = true -> chosen ids i = false.
Proof.
  intros H. apply not_true_iff_false. intros Q. apply existsb_exists in Q as (j & J & X). apply Nat.eqb_eq in X. subst j. apply Sub in J.
  cbn in J. repeat destruct J as [<-|J]; try contradiction; vm_compute in H; discriminate.
Qed.
Lemma leaves_bland i r : R i = true -> r_reader (get_rule E i) = Some r -> r_reader (get_rule E2 i) = Some r /\ rallP (bland R) r.
Proof.
  intros H Q. split; [apply not_picked; auto using leaf_not_picked|].
  apply existsb_exists in H as (j & J & X). apply Nat.eqb_eq in X. subst j. cbn in J.
  repeat destruct J as [<-|J]; try contradiction; vm_compute in Q; injection Q as <-; cbn; repeat split.
Qed.
Lemma y_plain i b ok b' : out E i b ok b' -> iallP (bland R) i -> yields i b ok b' [].
Proof. intros O H c. eapply bland_gathers; eauto using leaves_bland. Qed.

(** The lemmas of PegBytes.v with segments. *)
Lemma y_rule i r b ok b' l : chosen ids i = false -> r_reader (get_rule E i) = Some r -> yields (IR r) b ok b' l -> yields (IR (RRule i)) b ok b' l.
Proof. intros H Q Y c. eapply g_rule; [apply not_picked; eauto|apply Y]. Qed.
Lemma y_any rs b b' l : yields (IAny rs) b true b' l -> yields (IR (RAny rs)) b true b' l.
Proof. intros Y c. apply (g_any E2 k R N rs c b true c b' l (Y c)). Qed.
Lemma y_any_no rs b b' l : yields (IAny rs) b false b' l -> yields (IR (RAny rs)) b false b [].
Proof. intros Y c. apply (g_any E2 k R N rs c b false c b' l (Y c)). Qed.
Lemma y_seq rs b b' l : yields (ISeq rs) b true b' l -> yields (IR (RSeq rs)) b true b' l.
Proof. intros Y c. apply (g_seq E2 k R N rs c b true c b' l (Y c)). Qed.
Lemma y_seq_no rs b b' l : yields (ISeq rs) b false b' l -> yields (IR (RSeq rs)) b false b [].
Proof. intros Y c. apply (g_seq E2 k R N rs c b false c b' l (Y c)). Qed.
Lemma ya_hit r rs b b' l : yields (IR r) b true b' l -> yields (IAny (r :: rs)) b true b' l.
Proof. intros Y c. apply gi_any_hit. apply Y. Qed.
Lemma ya_next r rs b ok b' l : yields (IR r) b false b [] -> yields (IAny rs) b ok b' l -> yields (IAny (r :: rs)) b ok b' l.
Proof. intros Y Z c. apply (gi_any_next E2 k R N r rs c b c b []); [apply Y|apply Z]. Qed.
Lemma ya_nil b : yields (IAny []) b false b [].
Proof. intros c. constructor. Qed.
Lemma ys_nil b : yields (ISeq []) b true b [].
Proof. intros c. constructor. Qed.
Lemma ys_stop r rs b b' l : yields (IR r) b false b' l -> yields (ISeq (r :: rs)) b false b' l.
Proof. intros Y c. apply gi_seq_stop. apply Y. Qed.
Lemma ys_next r rs b b1 l1 ok b' l : yields (IR r) b true b1 l1 -> yields (ISeq rs) b1 ok b' l -> yields (ISeq (r :: rs)) b ok b' (l1 ++ l).
Proof. intros Y Z c. eapply gi_seq_next; [apply Y|apply Z]. Qed.
Lemma ys_skip r rs b b1 ok b' l : yields (IR r) b true b1 [] -> yields (ISeq rs) b1 ok b' l -> yields (ISeq (r :: rs)) b ok b' l.
Proof. intros Y Z. apply (ys_next r rs b b1 [] ok b' l Y Z). Qed.
Lemma yr_stop r b b' l : yields (IR r) b false b' l -> yields (IRep r) b true b' l.
Proof. intros Y c. apply gi_rep_stop. apply Y. Qed.
Lemma yr_next r b b1 l1 b' l : yields (IR r) b true b1 l1 -> yields (IRep r) b1 true b' l -> yields (IRep r) b true b' (l1 ++ l).
Proof. intros Y Z c. eapply gi_rep_next; [apply Y|apply Z]. Qed.
Lemma y_zom r b b' l : yields (IRep r) b true b' l -> yields (IR (RZom r)) b true b' l.
Proof. intros Y c. apply g_zom. apply Y. Qed.
Lemma y_rune_yes n x b : 0 <= n < 128 -> is n x = true -> yields (IR (RRune n)) (x :: b) true b [].
Proof. intros H X. apply y_plain; [eapply o_takes_yes; [apply t_rune; auto|auto]|repeat split]. Qed.
Lemma y_rune_no n b : 0 <= n < 128 -> first (is n) b = false -> yields (IR (RRune n)) b false b [].
Proof. intros H X. apply y_plain; [eapply o_takes_no; [apply t_rune; auto|auto]|repeat split]. Qed.
Lemma y_ws w b : j_ws w -> first b_ws b = false -> yields (IR (RRule jWS)) (w ++ b) true b [].
Proof. intros H X. apply y_plain; [apply o_ws; auto|repeat split]. Qed.

(** A rule that may be picked. *)
Lemma y_node i name r w b kids : r_reader (get_rule E i) = Some r -> r_name (get_rule E i) = name -> In i stack_ids -> on name = chosen ids i ->
  yields (IR r) (w ++ b) true b (flat_map post kids) ->
  yields (IR (RRule i)) (w ++ b) true b (flat_map post (shown on name (N - slen (w ++ b)) w kids)).
Proof.
  intros Q Nm In On Y c. unfold shown. rewrite On. destruct (chosen ids i) eqn:H.
  - eapply g_rule; [apply picked_rule; eauto|]. pose proof (g_pick E2 k R N (r_name (get_rule E i)) k r c (w ++ b) true c b _ (Y c)) as G.
    unfold own in G. rewrite Nat.eqb_refl in G. cbn [flat_map post]. rewrite app_nil_r, Nm in *.
    replace (N - slen (w ++ b) + slen w) with (N - slen b); [exact G|]. unfold slen. rewrite app_length. lia.
  - eapply g_rule; [apply not_picked; eauto|]. apply Y.
Qed.
Lemma y_no i r b : r_reader (get_rule E i) = Some r -> yields (IR r) b false b [] -> yields (IR (RRule i)) b false b [].
Proof.
  intros Q Y c. destruct (chosen ids i) eqn:H.
  - eapply g_rule; [apply picked_rule; eauto|]. apply (g_pick E2 k R N (r_name (get_rule E i)) k r c b false c b [] (Y c)).
  - eapply g_rule; [apply not_picked; eauto|]. apply Y.
Qed.
Lemma on_is i name : In i stack_ids -> r_name (get_rule E i) = name -> on name = chosen ids i.
Proof.
  intros I <-. unfold named, chosen. assert (X : forall j, In j stack_ids -> bytes_eqb (r_name (get_rule E j)) (r_name (get_rule E i)) = Nat.eqb i j).
  { intros j J. cbn in I, J. repeat destruct I as [<-|I]; try contradiction; repeat destruct J as [<-|J]; try contradiction; vm_compute; reflexivity. }
  revert Sub. clear - X. induction ids as [|j l IH]; intros Sub; cbn [existsb]; auto. rewrite X by (apply Sub; left; auto). f_equal. apply IH. intros x Hx. apply Sub. right. auto.
Qed.
Lemma stack_name i name : In i stack_ids -> r_name (get_rule E i) = name -> r_name (get_rule E i) = name /\ In i stack_ids /\ on name = chosen ids i.
Proof. auto using on_is. Qed.
Ltac in_stack := cbn; tauto.
Ltac node i name env := apply (y_node i name _ _ _ _ env); [vm_compute; reflexivity|in_stack|apply (on_is i); [in_stack|vm_compute; reflexivity]|].
Lemma y_object w b kids : yields (IR (RAny [RRule jMembers; RRule jWS])) (w ++ x7d :: b) true (x7d :: b) (flat_map post kids) ->
  yields (IR (RRule jObject)) ((lit "{" ++ w ++ lit "}") ++ b) true b (flat_map post (shown on (lit "object") (N - slen ((lit "{" ++ w ++ lit "}") ++ b)) (lit "{" ++ w ++ lit "}") kids)).
Proof.
  intros Y. node jObject (lit "object") env_object. rewrite bracketed. apply y_seq. cbn [app lit]. apply ys_skip with (b1 := w ++ x7d :: b); [apply y_rune_yes; [lia|reflexivity]|].
  rewrite <- (app_nil_r (flat_map post kids)). eapply ys_next; [exact Y|]. eapply ys_skip; [apply y_rune_yes; [lia|reflexivity]|apply ys_nil].
Qed.
Lemma y_array w b kids : yields (IR (RAny [RRule jElements; RRule jWS])) (w ++ x5d :: b) true (x5d :: b) (flat_map post kids) ->
  yields (IR (RRule jArray)) ((lit "[" ++ w ++ lit "]") ++ b) true b (flat_map post (shown on (lit "array") (N - slen ((lit "[" ++ w ++ lit "]") ++ b)) (lit "[" ++ w ++ lit "]") kids)).
Proof.
  intros Y. node jArray (lit "array") env_array. rewrite bracketed. apply y_seq. cbn [app lit]. apply ys_skip with (b1 := w ++ x5d :: b); [apply y_rune_yes; [lia|reflexivity]|].
  rewrite <- (app_nil_r (flat_map post kids)). eapply ys_next; [exact Y|]. eapply ys_skip; [apply y_rune_yes; [lia|reflexivity]|apply ys_nil].
Qed.
Lemma y_object_no b : first (is 0x7B) b = false -> yields (IR (RRule jObject)) b false b [].
Proof. intros F. eapply y_no; [apply env_object|]. eapply y_seq_no, ys_stop, y_rune_no; [lia|auto]. Qed.
Lemma y_array_no b : first (is 0x5B) b = false -> yields (IR (RRule jArray)) b false b [].
Proof. intros F. eapply y_no; [apply env_array|]. eapply y_seq_no, ys_stop, y_rune_no; [lia|auto]. Qed.
Lemma y_string_no i b : r_reader (get_rule E i) = Some rd_string -> first (is 0x22) b = false -> yields (IR (RRule i)) b false b [].
Proof. intros Q F. eapply y_no; [exact Q|]. eapply y_seq_no, ys_stop, y_rune_no; [lia|auto]. Qed.
Lemma out_rule_inv i r b ok b' : r_reader (get_rule E i) = Some r -> out E (IR (RRule i)) b ok b' -> out E (IR r) b ok b'.
Proof. intros Q O c. specialize (O c). inversion O; subst; [discriminate|]. rewrite Q in *. congruence. Qed.
Lemma y_number_no b : first (is 0x2D) b = false -> first b_dig b = false -> yields (IR (RRule jNumber)) b false b [].
Proof.
  intros F1 F2. eapply y_no; [apply env_number|]. apply y_plain; [|repeat split]. eapply out_rule_inv; [apply env_number|]. apply o_number_no; auto.
Qed.
Lemma y_bool_no b : first (is 0x74) b = false -> first (is 0x66) b = false -> yields (IR (RRule jBool)) b false b [].
Proof.
  intros F1 F2. eapply y_no; [apply env_bool|]. apply y_plain; [|repeat split]. eapply out_rule_inv; [apply env_bool|]. apply o_bool_no; auto.
Qed.
Lemma y_null_no b : first (is 0x6E) b = false -> yields (IR (RRule jNull)) b false b [].
Proof.
  intros F1. eapply y_no; [apply env_null|]. apply y_plain; [|repeat split]. eapply out_rule_inv; [apply env_null|]. apply o_null_no; auto.
Qed.
Lemma yes_rule i : chosen ids i = false <-> ~ In i ids.
Proof. unfold chosen. split; intros H. - intros I. apply not_true_iff_false in H. apply H, existsb_exists. exists i. split; auto. apply Nat.eqb_refl.
  - apply not_true_iff_false. intros Q. apply existsb_exists in Q as (j & J & X). apply Nat.eqb_eq in X. subst j. auto. Qed.
Lemma inner_not_picked i : In i [jValue; jMembers; jMember; jElements; jElement] -> chosen ids i = false.
Proof. intros I. apply yes_rule. intros J. apply Sub in J. cbn in I, J. repeat destruct I as [<-|I]; try contradiction; repeat destruct J as [J|J]; try discriminate J; contradiction. Qed.
Ltac inner env := eapply y_rule; [apply inner_not_picked; cbn; tauto|apply env|].
Lemma y_value_close x b : x = x5d \/ x = x7d -> yields (IR (RRule jValue)) (x :: b) false (x :: b) [].
Proof.
  intros X. inner env_value. eapply y_any_no.
  apply ya_next; [apply y_object_no; destruct X as [->| ->]; reflexivity|]. apply ya_next; [apply y_array_no; destruct X as [->| ->]; reflexivity|].
  apply ya_next; [apply y_string_no; [apply env_string|destruct X as [->| ->]; reflexivity]|]. apply ya_next; [apply y_number_no; destruct X as [->| ->]; reflexivity|].
  apply ya_next; [apply y_bool_no; destruct X as [->| ->]; reflexivity|]. apply ya_next; [apply y_null_no; destruct X as [->| ->]; reflexivity|apply ya_nil].
Qed.
Lemma y_more_stop i b : first (is 0x2C) b = false -> yields (IRep (rd_more i)) b true b [].
Proof. intros F. eapply yr_stop, y_seq_no, ys_stop, y_rune_no; [lia|auto]. Qed.

Definition yields_as (s : jsort) (w : bytes) (p : Z) (kids : list node) : Prop :=
  match s with
  | Value => forall b, p = N - slen (w ++ b) -> (j_number w -> no_frac b) -> yields (IR (RRule jValue)) (w ++ b) true b (flat_map post kids)
  | Element => forall b, p = N - slen (w ++ b) -> follow b -> yields (IR (RRule jElement)) (w ++ b) true b (flat_map post kids)
  | Member => forall b, p = N - slen (w ++ b) -> follow b -> yields (IR (RRule jMember)) (w ++ b) true b (flat_map post kids)
  | Elements => forall b, p = N - slen (w ++ b) -> ends b -> exists b1 l1 l2, yields (IR (RRule jElement)) (w ++ b) true b1 l1 /\ yields (IRep (rd_more jElement)) b1 true b l2 /\ flat_map post kids = l1 ++ l2
  | Members => forall b, p = N - slen (w ++ b) -> ends b -> exists b1 l1 l2, yields (IR (RRule jMember)) (w ++ b) true b1 l1 /\ yields (IRep (rd_more jMember)) b1 true b l2 /\ flat_map post kids = l1 ++ l2
  end.
Lemma nodes_text s p w kids : json_nodes on s p w kids -> json_text s w.
Proof. induction 1; eauto using json_text. Qed.
Ltac at_pos := match goal with Hp : _ = N - slen _ |- _ => revert Hp; clear; rewrite !slen_app; change (slen (lit "{")) with 1; change (slen (lit "[")) with 1; change (slen (lit "}")) with 1;
  change (slen (lit "]")) with 1; change (slen (lit ":")) with 1; change (slen (lit ",")) with 1; rewrite ?slen_cons; lia end.
Ltac two := apply ya_next; [apply y_object_no; reflexivity|]; apply ya_next; [apply y_array_no; reflexivity|].
Ltac four := two; apply ya_next; [apply y_string_no; [apply env_string|reflexivity]|]; apply ya_next; [apply y_number_no; reflexivity|].
Lemma nodes_read s p w kids : json_nodes on s p w kids -> yields_as s w p kids.
Proof.
  induction 1 as [p w W|p m kids H IH|p w W|p l kids H IH|p w Sw|p w Nw|p|p|p|p w1 q w2 x kids W1 Sk W2 H IH|p m kids H IH|p m l k1 k2 H1 IH1 H2 IH2|p w1 v w2 kids W1 H IH W2|p x kids H IH|p x l k1 k2 H1 IH1 H2 IH2]; cbn [yields_as] in *; intros b Hp Fb.
  - inner env_value. apply y_any, ya_hit. rewrite Hp. apply y_object. cbn [flat_map]. apply y_any, ya_next; [|apply ya_hit, y_ws; [exact W|reflexivity]].
    inner env_members. eapply y_seq_no, ys_stop. inner env_member. eapply y_seq_no, ys_skip; [apply y_ws; [exact W|reflexivity]|]. eapply ys_stop, y_string_no; [apply env_key|reflexivity].
  - inner env_value. apply y_any, ya_hit. rewrite Hp. apply y_object. apply y_any, ya_hit. inner env_members.
    destruct (IH (x7d :: b)) as (b1 & l1 & l2 & Y1 & Y2 & ->); [at_pos|apply ends_close; auto|]. apply y_seq. eapply ys_next; [exact Y1|].
    rewrite <- (app_nil_r l2). eapply ys_next; [apply y_zom; exact Y2|apply ys_nil].
  - inner env_value. apply y_any, ya_next; [apply y_object_no; reflexivity|]. apply ya_hit. rewrite Hp. apply y_array. cbn [flat_map]. apply y_any, ya_next; [|apply ya_hit, y_ws; [exact W|reflexivity]].
    inner env_elements. eapply y_seq_no, ys_stop. inner env_element. eapply y_seq_no, ys_skip; [apply y_ws; [exact W|reflexivity]|]. apply ys_stop, y_value_close. auto.
  - inner env_value. apply y_any, ya_next; [apply y_object_no; reflexivity|]. apply ya_hit. rewrite Hp. apply y_array. apply y_any, ya_hit. inner env_elements.
    destruct (IH (x5d :: b)) as (b1 & l1 & l2 & Y1 & Y2 & ->); [at_pos|apply ends_close; auto|]. apply y_seq. eapply ys_next; [exact Y1|].
    rewrite <- (app_nil_r l2). eapply ys_next; [apply y_zom; exact Y2|apply ys_nil].
  - pose proof (o_string w b Sw) as O. rewrite Hp. inner env_value. pose proof Sw as Sw0. apply string_first in Sw0 as [t Et]. apply y_any. apply ya_next; [rewrite Et; apply y_object_no; reflexivity|]. apply ya_next; [rewrite Et; apply y_array_no; reflexivity|].
    apply ya_hit. node jString (lit "string") env_string. apply y_plain; [exact O|repeat split].
  - pose proof (o_number w b Nw (Fb Nw)) as O. rewrite Hp. inner env_value. pose proof Nw as Nw0. apply number_first in Nw0 as (x & t & Et & X).
    assert (Nx : forall n, n = 0x7B \/ n = 0x5B \/ n = 0x22 -> first (is n) (w ++ b) = false).
    { intros n Hn. rewrite Et. cbn [app first]. destruct X as [->|X]; [destruct Hn as [->|[->| ->]]; reflexivity|]. unfold is, dig in *. lia. }
    apply y_any. apply ya_next; [apply y_object_no, Nx; auto|]. apply ya_next; [apply y_array_no, Nx; auto|]. apply ya_next; [apply y_string_no; [apply env_string|apply Nx; auto]|].
    apply ya_hit. node jNumber (lit "number") env_number. apply y_plain; [|repeat split]. eapply out_rule_inv; [apply env_number|exact O].
  - rewrite Hp. inner env_value. apply y_any. four. apply ya_hit. node jBool (lit "bool") env_bool. apply y_plain; [apply o_any, oa_hit, o_lit|repeat split].
  - rewrite Hp. inner env_value. apply y_any. four. apply ya_hit. node jBool (lit "bool") env_bool.
    apply y_plain; [eapply o_any, oa_next; [apply o_lit_no; intros t; discriminate|]; apply oa_hit, o_lit|repeat split].
  - rewrite Hp. inner env_value. apply y_any. four. apply ya_next; [apply y_bool_no; reflexivity|]. apply ya_hit. node jNull (lit "null") env_null. apply y_plain; [apply o_lit|repeat split].
  - inner env_member. apply y_seq. rewrite <- !app_assoc. eapply ys_skip; [apply y_ws; auto; apply string_first in Sk as [t ->]; reflexivity|].
    rewrite flat_map_app. eapply ys_next.
    { replace (p + slen w1) with (N - slen (q ++ w2 ++ (lit ":" ++ x) ++ b)) by at_pos. node jKey (lit "key") env_key. apply y_plain; [apply o_string; auto|repeat split]. }
    eapply ys_skip; [apply y_ws; [exact W2|reflexivity]|]. eapply ys_skip; [apply y_rune_yes; [lia|reflexivity]|]. rewrite <- (app_nil_r (flat_map post kids)).
    eapply ys_next; [apply IH; [at_pos|auto]|apply ys_nil].
  - exists b, (flat_map post kids), []. split; [apply IH; [auto|apply Fb]|]. split; [apply y_more_stop; apply Fb|rewrite app_nil_r; auto].
  - destruct (IH2 b) as (b1 & l1 & l2 & Y1 & Y2 & Q); [at_pos|auto|]. exists (x2c :: l ++ b), (flat_map post k1), (l1 ++ l2). rewrite <- !app_assoc in *.
    split; [apply IH1; [exact Hp|apply follow_comma]|]. split; [|rewrite flat_map_app; congruence]. eapply yr_next; [|exact Y2]. apply y_seq.
    eapply ys_skip; [apply y_rune_yes; [lia|reflexivity]|]. rewrite <- (app_nil_r l1). eapply ys_next; [exact Y1|apply ys_nil].
  - inner env_element. apply y_seq. rewrite <- !app_assoc. eapply ys_skip; [apply y_ws; [exact W1|apply value_first; eapply nodes_text; eauto]|].
    rewrite <- (app_nil_r (flat_map post kids)). eapply ys_next; [apply IH; [at_pos|intros _; apply follow_ws; auto]|]. eapply ys_skip; [apply y_ws; [exact W2|apply Fb]|apply ys_nil].
  - exists b, (flat_map post kids), []. split; [apply IH; [auto|apply Fb]|]. split; [apply y_more_stop; apply Fb|rewrite app_nil_r; auto].
  - destruct (IH2 b) as (b1 & l1 & l2 & Y1 & Y2 & Q); [at_pos|auto|]. exists (x2c :: l ++ b), (flat_map post k1), (l1 ++ l2). rewrite <- !app_assoc in *.
    split; [apply IH1; [exact Hp|apply follow_comma]|]. split; [|rewrite flat_map_app; congruence]. eapply yr_next; [|exact Y2]. apply y_seq.
    eapply ys_skip; [apply y_rune_yes; [lia|reflexivity]|]. rewrite <- (app_nil_r l1). eapply ys_next; [exact Y1|apply ys_nil].
Qed.
End Stack.

(* ------------------------------------------------- the tree of a JSON text *)

Section Trees.
Context (on : bytes -> bool).
Lemma tree_text s p w kids : json_nodes on s p w kids -> json_text s w.
Proof. induction 1; eauto using json_text. Qed.
(** Every JSON text has a tree. *)
Lemma tree_total s w : json_text s w -> forall p, exists kids, json_nodes on s p w kids.
Proof.
  induction 1 as [w W|m H IH|w W|l H IH|w Sw|w Nw| | | |w1 q w2 x W1 Sk W2 H IH|m H IH|m l H1 IH1 H2 IH2|w1 v w2 W1 H IH W2|x H IH|x l H1 IH1 H2 IH2]; intros p.
  - eexists. apply jn_object0. auto.
  - destruct (IH (p + 1)) as [kids K]. eexists. apply jn_object. eauto.
  - eexists. apply jn_array0. auto.
  - destruct (IH (p + 1)) as [kids K]. eexists. apply jn_array. eauto.
  - eexists. apply jn_string. auto.
  - eexists. apply jn_number. auto.
  - eexists. apply jn_true.
  - eexists. apply jn_false.
  - eexists. apply jn_null.
  - destruct (IH (p + slen (w1 ++ q ++ w2) + 1)) as [kids K]. eexists. apply jn_member; eauto.
  - destruct (IH p) as [kids K]. eexists. apply jn_members1. eauto.
  - destruct (IH1 p) as [k1 K1]. destruct (IH2 (p + slen m + 1)) as [k2 K2]. eexists. apply jn_members; eauto.
  - destruct (IH (p + slen w1)) as [kids K]. eexists. apply jn_element; eauto.
  - destruct (IH p) as [kids K]. eexists. apply jn_elements1. eauto.
  - destruct (IH1 p) as [k1 K1]. destruct (IH2 (p + slen x + 1)) as [k2 K2]. eexists. apply jn_elements; eauto.
Qed.
Lemma shown_tidy name p w kids q : 0 < slen w -> q = p + slen w -> tidy (p + 1) (q - 1) kids -> tidy p q (shown on name p w kids).
Proof.
  intros H -> T. unfold shown. destruct (on name); [constructor; cbn; auto; try lia; constructor|]. eapply tidy_wide; [exact T| |]; lia.
Qed.
Lemma string_len w : j_string w -> 0 < slen w.
Proof. intros (u & -> & _). rewrite slen_cons. pose proof (slen_nonneg (u ++ [x22])). lia. Qed.
Lemma number_len w : j_number w -> 0 < slen w.
Proof. intros H. apply number_first in H as (x & t & -> & _). rewrite slen_cons. pose proof (slen_nonneg t). lia. Qed.
Ltac brackets := rewrite ?slen_app; change (slen (lit "{")) with 1 in *; change (slen (lit "[")) with 1 in *; change (slen (lit "}")) with 1 in *;
  change (slen (lit "]")) with 1 in *; change (slen (lit ":")) with 1 in *; change (slen (lit ",")) with 1 in *; lia.
Lemma trees_tidy s p w kids : json_nodes on s p w kids -> tidy p (p + slen w) kids.
Proof.
  induction 1 as [p w W|p m kids H IH|p w W|p l kids H IH|p w Sw|p w Nw|p|p|p|p w1 q w2 x kids W1 Sk W2 H IH|p m kids H IH|p m l k1 k2 H1 IH1 H2 IH2|p w1 v w2 kids W1 H IH W2|p x kids H IH|p x l k1 k2 H1 IH1 H2 IH2].
  - pose proof (slen_nonneg w). apply shown_tidy; [brackets|auto|constructor].
  - pose proof (slen_nonneg m). apply shown_tidy; [brackets|auto|]. eapply tidy_wide; [exact IH| |]; brackets.
  - pose proof (slen_nonneg w). apply shown_tidy; [brackets|auto|constructor].
  - pose proof (slen_nonneg l). apply shown_tidy; [brackets|auto|]. eapply tidy_wide; [exact IH| |]; brackets.
  - apply shown_tidy; [auto using string_len|auto|constructor].
  - apply shown_tidy; [auto using number_len|auto|constructor].
  - apply shown_tidy; [reflexivity|reflexivity|constructor].
  - apply shown_tidy; [reflexivity|reflexivity|constructor].
  - apply shown_tidy; [reflexivity|reflexivity|constructor].
  - pose proof (slen_nonneg w1). pose proof (slen_nonneg w2). pose proof (slen_nonneg x). pose proof (string_len q Sk).
    apply tidy_app with (q := p + slen w1 + slen q) (q' := p + slen (w1 ++ q ++ w2) + 1); try brackets.
    + apply tidy_wide with (p := p + slen w1) (q := p + slen w1 + slen q); try lia. apply shown_tidy; [auto|auto|constructor].
    + eapply tidy_wide; [exact IH| |]; brackets.
  - exact IH.
  - pose proof (slen_nonneg m). pose proof (slen_nonneg l).
    apply tidy_app with (q := p + slen m) (q' := p + slen m + 1); [exact IH1|eapply tidy_wide; [exact IH2| |]| | |]; brackets.
  - pose proof (slen_nonneg w1). pose proof (slen_nonneg w2). eapply tidy_wide; [exact IH| |]; brackets.
  - exact IH.
  - pose proof (slen_nonneg x). pose proof (slen_nonneg l).
    apply tidy_app with (q := p + slen x) (q' := p + slen x + 1); [exact IH1|eapply tidy_wide; [exact IH2| |]| | |]; brackets.
Qed.
End Trees.

(* ------------------------------------------------- what is read at the top *)

Lemma not_number x t : x <> x2d -> ~ dig x -> ~ j_number (x :: t).
Proof. intros A B H. apply number_first in H as (y & u & Q & [X|X]); injection Q as Q _; congruence. Qed.
Lemma value_kind v : json_text Value v -> j_number v \/ ~ j_number v.
Proof.
  intros H. inversion H; subst; auto; right; try (apply not_number; [discriminate|unfold dig; vm_compute; intuition discriminate]).
  match goal with S : j_string _ |- _ => apply string_first in S as [u ->] end. apply not_number; [discriminate|unfold dig; vm_compute; intuition discriminate].
Qed.
Section Top.
Context {L : GoLib} (k : nat) (ids : list nat) (Nd : NoDup ids) (Sub : incl ids stack_ids) (N : Z).
Notation E := json_env.
Notation on := (named json_env ids).
Notation yields := (yields k ids N).
(** Either a JSON text with its tree, or failure, or a cut string. *)
Lemma top_tree b : (exists w kids b', b = w ++ b' /\ json_nodes on Element (N - slen b) w kids /\ yields (IR (RRule jElement)) b true b' (flat_map post kids)) \/
  out E (IR (RRule jElement)) b false b \/ SpecJson.cut Element b.
Proof.
  destruct (element_runs (S (length b)) b (le_n _)) as [(w & b0 & -> & J & _)|[O|C]]; auto.
  inversion J as [| | | | | | | | | | | |w1 v w2 W1 V W2| |]; subst. clear J. rewrite <- !app_assoc. set (r := w2 ++ b0). clearbody r. clear b0 w2 W2.
  assert (Y1 : yields (IR (RRule jWS)) (w1 ++ v ++ r) true (v ++ r) []) by (apply y_ws; auto; apply value_first; auto).
  assert (O1 : out E (IR (RRule jWS)) (w1 ++ v ++ r) true (v ++ r)) by (apply o_ws; auto; apply value_first; auto).
  assert (F : forall n kids b2, v ++ r = n ++ b2 -> json_nodes on Value (N - slen (n ++ b2)) n kids -> yields (IR (RRule jValue)) (v ++ r) true b2 (flat_map post kids) ->
     exists w kids b', w1 ++ v ++ r = w ++ b' /\ json_nodes on Element (N - slen (w1 ++ v ++ r)) w kids /\ yields (IR (RRule jElement)) (w1 ++ v ++ r) true b' (flat_map post kids)).
  { intros n kids b2 Q T Y2. destruct (ws_run b2) as (w2 & b3 & -> & W2 & F2 & O2). exists (w1 ++ n ++ w2), kids, b3.
    split; [rewrite Q, <- !app_assoc; auto|]. split.
    - apply jn_element; auto. replace (N - slen (w1 ++ v ++ r) + slen w1) with (N - slen (n ++ w2 ++ b3)); auto. rewrite Q, (slen_app w1). lia.
    - eapply y_rule; auto; [apply inner_not_picked; auto; cbn; tauto|apply env_element|]. apply y_seq; auto. eapply ys_skip; [exact Y1|].
      rewrite <- (app_nil_r (flat_map post kids)). eapply ys_next; [exact Y2|]. eapply ys_skip; [apply y_ws; auto|apply ys_nil]. }
  destruct (value_kind v V) as [Nv|Nv].
  - pose proof Nv as Nv0. apply number_first in Nv0 as (x & t & -> & X).
    assert (Nx : forall n, n = 0x7B \/ n = 0x5B \/ n = 0x22 \/ n = 0x74 \/ n = 0x66 \/ n = 0x6E -> first (is n) ((x :: t) ++ r) = false).
    { intros n Hn. cbn [app first]. destruct X as [->|X]; [repeat destruct Hn as [->|Hn]; try reflexivity; subst; reflexivity|]. unfold is, dig in *. lia. }
    destruct (number_run ((x :: t) ++ r)) as [(n & b2 & Q & Jn & O)|O].
    + left. apply (F n (shown on (lit "number") (N - slen (n ++ b2)) n []) b2 Q); [apply jn_number; auto|]. rewrite Q in *.
      eapply y_rule; auto; [apply inner_not_picked; auto; cbn; tauto|apply env_value|]. apply y_any. apply ya_next; [apply y_object_no; auto|]. apply ya_next; [apply y_array_no; auto|].
      apply ya_next; [apply y_string_no; auto; apply env_string|]. apply ya_hit. apply (y_node k ids Nd Sub N jNumber (lit "number") _ _ _ _ env_number); [vm_compute; reflexivity|cbn; tauto|apply (on_is ids Sub jNumber); [cbn; tauto|vm_compute; reflexivity]|].
      apply y_plain; auto; [|repeat split]. eapply out_rule_inv; [apply env_number|exact O].
    + right. left. eapply o_rule; [apply env_element|]. eapply o_seq_no, os_next; [exact O1|]. eapply os_stop. eapply o_rule; [apply env_value|]. eapply o_any_no.
      eapply oa_next; [apply o_object_no; apply Nx; tauto|]. eapply oa_next; [apply o_array_no; apply Nx; tauto|]. eapply oa_next; [apply o_string_no; [apply env_string|apply Nx; tauto]|]. eapply oa_next; [exact O|].
      eapply oa_next; [apply o_bool_no; apply Nx; tauto|]. eapply oa_next; [apply o_null_no; apply Nx; tauto|apply oa_nil].
  - left. destruct (tree_total on Value v V (N - slen (v ++ r))) as [kids T]. apply (F v kids r eq_refl T).
    apply (nodes_read k ids Nd Sub N Value (N - slen (v ++ r)) v kids T r eq_refl). tauto.
Qed.
End Top.
