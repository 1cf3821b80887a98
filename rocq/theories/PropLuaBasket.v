(** PropLuaBasket.v - C116 to C118: what a Basket for a grammar holds, and the demo full-lua-stack. *)
From Verif Require Import PickFrom PropCfg PropLuaSyntax PropTrack LuaSyntax UseFacts ExKit PropMxtText HearFacts PropBasket PropGraph GraphFacts.
From Coq Require Import Lia Permutation.
Import SpecLuaSyntax.

(* ------------------------------------------------------------------ C116 *)

(** C116.  Every Segment in a Basket for rules of a grammar is a part of the text that is in the language of the rule
    of that name (SpecCfg.v). *)
Theorem C116_basket_holds_words {L : GoLib} R e k ids r s a b x s' g : may_pick R ids e -> eall covered e -> eall steadyb e ->
  rall (pickless R) r = true -> rall covered r = true -> rall steadyb r = true -> at_split s a b ->
  reads (pick_rules k ids e) r (new_basket k s) x s' -> In g (get_basket k (hp s')) ->
  exists j u v z, In j ids /\ s_info g = r_name (get_rule e j) /\ a ++ b = u ++ v ++ z /\ s_tok g = mkTok (slen u) (slen (u ++ v)) /\
    language e (RRule j) v.
Proof.
  intros M Ce Se Hp Hc Hs Sp Rd Ig. pose proof M as (_ & _ & Re & _).
  destruct (basket_from e k ids R M Ce (fun _ _ => True) steady (fun _ => True)) with (r := r) (s := s) (a := a) (b := b) (x := x) (s' := s') (g := g)
    as (j & q & u & v & z & c & c' & _ & A1 & A2 & A3 & A4 & A5 & _ & D); auto.
  { intros [] _; auto. }
  { intros i q _ E. apply steady_check. exact (Se i q E). }
  { apply steady_check. auto. }
  exists j, u, v, z. split; [auto|]. split; [auto|]. split; [auto|]. split; [auto|].
  intros I Cl. apply (Cl j q v A3). apply (glang_lang (fun _ _ => True)).
  refine (eats_lang (fun _ _ => True) I e Re (fun _ _ => True) steady _ _ _ _ _ _ _ (IR q) _ _ true _ _ D eq_refl _ _ _ v eq_refl); auto.
  - intros i y E. apply steady_check. exact (Se i y E).
  - intros i y c0 y0 d z0 u0 E _ _ _ G. apply (Cl i y); auto. apply (glang_lang (fun _ _ => True)). exact G.
  - exact Logic.I.
  - apply steady_check. exact (Se j q A3).
  - split; exact Logic.I.
Qed.
Print Assumptions C116_basket_holds_words.
(** Case: the brackets of C112_here, all picked. *)
Example C116_here {L : GoLib} : may_pick (chosen []) [0%nat] nest /\ exists s', reads (pick_rules 1 [0%nat] nest) (RRule 0) (new_basket 1 (init_st (lit "((x))y"))) None s' /\
  get_basket 1 (hp s') = [mkSeg (lit "A") (mkTok 2 3); mkSeg (lit "A") (mkTok 1 4); mkSeg (lit "A") (mkTok 0 5)].
Proof. split; [apply may_check; [repeat constructor; cbn; tauto|vm_compute; reflexivity]|]. eexists. split; [run 60%nat|vm_compute; reflexivity]. Qed.

(* ------------------------------------------------------------------ C117 *)

(** C117.  Each Segment in a Basket for Lua() is a part of the text that is a phrase of the rule of that name. *)
Theorem C117_basket_of_lua {L : GoLib} k ids r s a b x s' g : NoDup ids -> (forall i, In i ids -> (i < 44)%nat) ->
  r = lua \/ (exists i, r = RRule i /\ (i < 44)%nat) -> at_split s a b -> wf_text b -> (forall j, wf_text (get [] (h_cells (hp s)) j)) ->
  reads (pick_rules k ids lua_env) r (new_basket k s) x s' -> In g (get_basket k (hp s')) ->
  exists j u v z, In j ids /\ s_info g = r_name (get_rule lua_env j) /\ a ++ b = u ++ v ++ z /\ s_tok g = mkTok (slen u) (slen (u ++ v)) /\ lua_text j v.
Proof.
  intros Nd Hi Hr Sp W C Rd Ig.
  assert (M : may_pick (chosen []) ids lua_env).
  { destruct (lua_may_pick (L := L)) as (M1 & M2 & M3 & _ & _ & M6). split; [auto|]. split; [auto|]. split; [auto|]. split; [auto|]. split; [|auto].
    intros i I. split; [|reflexivity]. apply Hi in I. exact I. }
  assert (Ar : rallP apt r).
  { destruct Hr as [->|(i & -> & H)]; [|apply apt_rule; auto]. split; [split; [exact Logic.I|vm_compute; reflexivity]|exact Logic.I]. }
  destruct (basket_from lua_env k ids (chosen []) M lua_covered texts apt (fun _ => True)) with (r := r) (s := s) (a := a) (b := b) (x := x) (s' := s') (g := g)
    as (j & q & u & v & z & c & c' & _ & A1 & A2 & A3 & A4 & A5 & Wt & D); auto.
  - intros [] _; auto.
  - intros i y _ E. apply apt_all; [exact (lua_steady i y E)|exact (lua_good i y E)].
  - intros d y [H1 H2]. split; auto. apply wf_step. auto.
  - intros y d z ok d' z'. apply texts_after.
  - destruct Hr as [->|(i & -> & _)]; reflexivity.
  - destruct Hr as [->|(i & -> & _)]; reflexivity.
  - split; auto.
  - exists j, u, v, z. split; [auto|]. split; [auto|]. split; [auto|]. split; [auto|].
    exact (lua_eats (RRule j) _ _ _ _ v (apt_rule j (Hi j A1)) Wt (e_rule _ _ _ _ _ _ _ _ A3 D) eq_refl).
Qed.
Print Assumptions C117_basket_of_lua.

(* ------------------------------------------------------------------ C118 *)

(** Readers that do not fail *)
Definition sure (e : env) (r : reader) : Prop := forall c b ok c' b', eats e (IR r) c b ok c' b' -> ok = true.
Lemma sure_zom e r : sure e (RZom r).
Proof. intros c b ok c' b' D. inversion D; subst; [discriminate|reflexivity]. Qed.
Lemma sure_opt e r : sure e (ROpt r).
Proof. intros c b ok c' b' D. inversion D; subst; [discriminate|reflexivity]. Qed.
Lemma sure_seq e rs : Forall (sure e) rs -> forall c b ok c' b', eats e (ISeq rs) c b ok c' b' -> ok = true.
Proof.
  induction 1 as [|r rs Hr _ IH]; intros c b ok c' b' D; inversion D; subst; auto.
  - match goal with H : eats e (IR r) _ _ false _ _ |- _ => apply Hr in H; discriminate end.
  - eapply IH; eauto.
Qed.
Lemma sure_skip e sk rs : sure e sk -> Forall (sure e) rs -> sure e (RSkipSeq sk rs).
Proof.
  intros Hk Hr c b ok c' b' D. inversion D; subst; [discriminate|]. match goal with H : eats e (ISeq _) _ _ _ _ _ |- _ => eapply (sure_seq e _); [|exact H] end.
  clear - Hk Hr. induction Hr; cbn; auto.
Qed.
Lemma sure_rule e i r : r_reader (get_rule e i) = Some r -> sure e r -> sure e (RRule i).
Proof. intros E H c b ok c' b' D. inversion D; subst; [discriminate|]. eapply H. replace r with r0 by congruence. eauto. Qed.
Lemma sure_grammar e w p i r : r_reader (get_rule e i) = Some r -> sure e r -> sure e (RGrammar w p i).
Proof. intros E H c b ok c' b' D. inversion D; subst; [discriminate|]. eapply H. replace r with r0 by congruence. eauto. Qed.
Lemma lua_sure {L : GoLib} : sure lua_env lua.
Proof.
  apply (sure_grammar _ _ _ _ (RRule lBlock)); [rewrite lua_rule; reflexivity|]. apply (sure_rule _ _ lua_Block_r); [rewrite lua_rule; reflexivity|].
  apply (sure_skip lua_env lua_skiper [RZom (RRule lStat); ROpt (RRule lRetStat)]); [apply sure_zom|]. constructor; [apply sure_zom|]. constructor; [apply sure_opt|constructor].
Qed.

(** C118.  [Use] of Lua() has no error. *)
Theorem C118_lua_never_fails {L : GoLib} s x s' : in_text s -> uses lua_env lua s x s' -> x = None.
Proof.
  intros I U. apply uses_reads in U as (s1 & R & _); [|apply I]. destruct (text_split s I) as (a & b & Sp).
  destruct (reads_eats lua_env lua _ _ _ _ _ _ lua_covered eq_refl (stands_split _ _ _ Sp) R) as (c' & rest & _ & D). apply lua_sure in D. destruct x; [discriminate|auto].
Qed.
Print Assumptions C118_lua_never_fails.
Definition lua_ids : list nat := seq 0 44.
(** The demo full-lua-stack: no file is invalid, all that is picked is in the graph, each node of the graph is a phrase
    of the rule of its name, and a line is printed for every node. *)
Theorem C118_full_lua_stack {L : GoLib} name t x s' : slen t < 2 ^ 63 -> wf_text t ->
  uses (pick_rules 0 lua_ids lua_env) lua (new_basket 0 (init_st t)) x s' ->
  x = None /\ exists g, build_graph name (get_basket 0 (hp s')) = Some g /\ Permutation (below g) (get_basket 0 (hp s')) /\
    (forall n, In n (below g) -> exists j u v z, (j < 44)%nat /\ s_info n = r_name (get_rule lua_env j) /\ t = u ++ v ++ z /\ s_tok n = mkTok (slen u) (slen (u ++ v)) /\ lua_text j v) /\
    flame_stack g = flat_map flame_line (paths 1 g).
Proof.
  intros Lt W U. assert (Sp : at_split (init_st t) [] t) by (repeat split; auto). pose proof (in_text_split _ _ _ Sp) as I.
  apply uses_reads in U as (s1 & Rd & Q); [|apply I].
  pose proof (lua_may_pick (L := L)) as M. change (seq 0 (length lua_env)) with lua_ids in M. destruct (may_altered _ _ _ 0%nat M) as [Al Ru]. pose proof M as (C & P & Re & N & B & Rb).
  destruct (pick_same lua_env _ 0%nat _ _ C P Re Al lua (init_st t) x s1 eq_refl I Rd) as (t1 & Rt & _).
  assert (x = None) as ->.
  { destruct (reads_eats lua_env lua _ _ _ _ _ _ lua_covered eq_refl (stands_split _ _ _ Sp) Rt) as (c' & rest & _ & D). apply lua_sure in D. destruct x; [discriminate|auto]. }
  subst s'. split; auto.
  assert (Pe : eall (pickable 0 (chosen []) any_reader) (pick_rules 0 lua_ids lua_env)).
  { intros i q E. apply rallP_rall. pose proof (pick_allowed lua_env _ 0%nat _ (chosen []) C P Al i q E) as F. revert F. apply rallP_impl.
    intros y (Y1 & _ & Y2). apply pickable_P. split; auto. }
  destruct (C51_picked_segments_are_consistent _ lua 0%nat (chosen []) (new_basket 0 (init_st t)) None s1 name (pick_unpicked lua_env _ 0%nat _ _ Al Ru Rb) Pe eq_refl I eq_refl (get_put_basket _ _ _) Rd) as (_ & _ & _ & g & G & H).
  destruct (C34_graph_is_faithful_nesting name _ g H) as (_ & _ & Pm & _). exists g. split; [auto|]. split; [auto|]. split; [|apply flame_stack_lines].
  intros n In_. apply (Permutation_in _ Pm) in In_.
  destruct (C117_basket_of_lua 0 lua_ids lua (init_st t) [] t None s1 n N) as (j & u & v & z & A1 & A2 & A3 & A4 & A5); auto.
  - intros i Hi. apply in_seq in Hi. lia.
  - intros [|j]; apply wf_nil.
  - exists j, u, v, z. apply in_seq in A1. split; [lia|]. auto.
Qed.
Print Assumptions C118_full_lua_stack.
(** Case: what is picked of a small file. *)
Example C118_here {L : GoLib} : exists s', uses (pick_rules 0 lua_ids lua_env) lua (new_basket 0 (init_st (lit "x=1"))) None s' /\
  get_basket 0 (hp s') = [mkSeg (lit "Name") (mkTok 0 1); mkSeg (lit "var") (mkTok 0 1); mkSeg (lit "varlist") (mkTok 0 1);
    mkSeg (lit "finalexp") (mkTok 2 3); mkSeg (lit "exp") (mkTok 2 3); mkSeg (lit "explist") (mkTok 2 3); mkSeg (lit "stat") (mkTok 0 3);
    mkSeg (lit "block") (mkTok 0 3); mkSeg (lit "chunk") (mkTok 0 3)].
Proof. eexists. split; [exists 200%nat; vm_compute; reflexivity|vm_compute; reflexivity]. Qed.

(* ------------------------------------------------------------------ C119 *)

(** C119 (refuted: no file is rejected).  Lua(), and so the demo full-lua-stack, has an error for a file that does not
    begin with a chunk other than the empty one. *)
Theorem C119_lua_rejects_refuted {L : GoLib} : ~ forall t, slen t < 2 ^ 63 -> wf_text t ->
  (forall w rest, t = w ++ rest -> phrase (N chunk) w -> w = []) -> exists x s', uses lua_env lua (init_st t) (Some x) s'.
Proof.
  intros H. destruct (H (lit "=")) as (x & s' & U); [reflexivity|apply valid_wf; vm_compute; reflexivity| |].
  - intros w rest E Ph. destruct w as [|y w]; auto. destruct w; [|discriminate]. injection E as <- <-. destruct (C113_no_chunk Ph).
  - apply C118_lua_never_fails in U; [discriminate|]. split; vm_compute; intuition discriminate.
Qed.
Print Assumptions C119_lua_rejects_refuted.

(* ------------------------------------------------------------------ C120 *)

(** C120 (refuted: FinalExp does not use the rule Numeral).  If a Basket for Lua() holds an expression that is a
    numeral, it holds the numeral as well. *)
Theorem C120_numerals_are_picked_refuted {L : GoLib} : ~ forall t s' g, slen t < 2 ^ 63 -> wf_text t ->
  uses (pick_rules 0 lua_ids lua_env) lua (new_basket 0 (init_st t)) None s' -> In g (get_basket 0 (hp s')) ->
  s_info g = lit "finalexp" -> (exists u v z, t = u ++ v ++ z /\ s_tok g = mkTok (slen u) (slen (u ++ v)) /\ l_numeral v) ->
  In (mkSeg (lit "Numeral") (s_tok g)) (get_basket 0 (hp s')).
Proof.
  intros H. destruct C118_here as (s' & U & E). assert (X := H (lit "x=1") s' (mkSeg (lit "finalexp") (mkTok 2 3)) eq_refl ltac:(apply valid_wf; vm_compute; reflexivity) U). clear U. rewrite E in X.
  cbn [In s_info s_tok] in X. destruct X as [X|X]; auto 9.
  - exists (lit "x="), (lit "1"), []. split; [reflexivity|]. split; [reflexivity|]. apply digit_numeral. unfold l_digit. cbn. lia.
  - discriminate X.
  - repeat destruct X as [X|X]; try discriminate X. destruct X.
Qed.
Print Assumptions C120_numerals_are_picked_refuted.
(** What holds: whatever rules are picked, Lua() gives no segments of SheBang, Numeral and Script, which Chunk does not
    use. *)
Definition unused (i : nat) : bool := existsb (Nat.eqb i) [lSheBang; lNumeral; lScript].
Theorem C120_unused_rules_exact {L : GoLib} k ids s a b x s' g : NoDup ids -> (forall i, In i ids -> (i < 44)%nat) -> at_split s a b ->
  reads (pick_rules k ids lua_env) lua (new_basket k s) x s' -> In g (get_basket k (hp s')) ->
  exists j, In j ids /\ unused j = false /\ s_info g = r_name (get_rule lua_env j) /\ ~ In (s_info g) [lit "SheBang"; lit "Numeral"; lit "Script"].
Proof.
  intros Nd Hi Sp Rd Ig.
  assert (M : may_pick (chosen []) ids lua_env).
  { destruct (lua_may_pick (L := L)) as (M1 & M2 & M3 & _ & _ & M6). split; [auto|]. split; [auto|]. split; [auto|]. split; [auto|]. split; [|auto].
    intros i I. split; [|reflexivity]. apply Hi in I. exact I. }
  set (ok := fun r => match r with RRule i | RGrammar _ _ i => negb (unused i) | _ => true end).
  assert (Ok : forall i q, unused i = false -> r_reader (get_rule lua_env i) = Some q -> rall ok q = true).
  { assert (Chk : forallb (fun i => unused i || match nth_error lua_readers i with Some q => rall ok q | None => true end) (seq 0 44) = true) by (vm_compute; reflexivity).
    intros i q U E. rewrite lua_rule in E. rewrite forallb_forall in Chk. assert (Li : (i < 44)%nat) by (apply (nth_error_Some lua_readers i); congruence).
    specialize (Chk i ltac:(apply in_seq; lia)). rewrite U, E in Chk. exact Chk. }
  destruct (basket_from lua_env k ids (chosen []) M lua_covered (fun _ _ => True) (fun r => ok r = true) (fun i => unused i = false)) with (r := lua) (s := s) (a := a) (b := b) (x := x) (s' := s') (g := g)
    as (j & q & u & v & z & c & c' & Vj & A1 & A2 & _); auto.
  - intros r H. destruct r; auto; cbn in H; apply negb_true_iff in H; exact H.
  - intros i q U E. apply rallP_rall. eapply Ok; eauto.
  - split; [reflexivity|exact Logic.I].
  - exists j. split; [auto|]. split; [auto|]. split; [auto|]. rewrite A2. specialize (Hi j A1). clear - Vj Hi.
    do 44 (destruct j as [|j]; [vm_compute in Vj |- *; intuition discriminate|]). lia.
Qed.
Print Assumptions C120_unused_rules_exact.
