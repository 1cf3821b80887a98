(** PropGraph.v - C32 to C36: graphs (graph.go).  The vocabulary is in SpecSeg.v, the
    proofs in GraphFacts.v. *)
From Verif Require Import GraphFacts ExKit.
From Coq Require Import Lia ZifyBool Sorted Permutation.

Definition sg (i : bytes) (a b : Z) : segment := mkSeg i (mkTok a b).

(* -------------------------------------------------------------- C32, C33 *)

(** C32. In particular Append always terminates ([Some]). *)
Theorem C32_append_accepts_iff_no_clash name acc g x : history name acc g -> ordered (s_tok x) ->
  exists g' ok, graph_append g x = Some (g', ok) /\
    (ok = true <-> forall y, In y acc -> tok_clashes (s_tok y) (s_tok x) = false).
Proof.
  intros H O. destruct (history_append name acc g x H O) as (g' & ok & E & T & _). eauto.
Qed.
Print Assumptions C32_append_accepts_iff_no_clash.

(** C33. *)
Theorem C33_refused_append_changes_nothing name acc g x g' : history name acc g -> ordered (s_tok x) ->
  graph_append g x = Some (g', false) -> g' = g.
Proof.
  intros H O E. destruct (history_append name acc g x H O) as (g1 & ok & E1 & _ & F).
  rewrite E in E1. injection E1 as <- <-. auto.
Qed.
Print Assumptions C33_refused_append_changes_nothing.

(** A history with an accepted, a nested and a refused segment. *)
Definition g1 : node := Node (sg (lit "g") 2 6) [Node (sg (lit "a") 2 6) []].
Definition g2 : node := Node (sg (lit "g") 0 6) [Node (sg (lit "b") 0 1) []; Node (sg (lit "a") 2 6) []].
Definition g3 : node := Node (sg (lit "g") 0 9)
  [Node (sg (lit "b") 0 1) []; Node (sg (lit "c") 1 9) [Node (sg (lit "a") 2 6) []]].
Lemma g3_history : history (lit "g") [sg (lit "a") 2 6; sg (lit "b") 0 1; sg (lit "c") 1 9] g3.
Proof.
  refine (hi_no _ _ g3 (sg (lit "d") 5 12) _ _ _ _); [|unfold ordered; cbn; lia|vm_compute; reflexivity].
  refine (hi_yes _ [_; _] g2 (sg (lit "c") 1 9) _ _ _ _); [|unfold ordered; cbn; lia|vm_compute; reflexivity].
  refine (hi_yes _ [_] g1 (sg (lit "b") 0 1) _ _ _ _); [|unfold ordered; cbn; lia|vm_compute; reflexivity].
  refine (hi_yes _ [] (new_graph (lit "g")) (sg (lit "a") 2 6) _ _ _ _); [constructor|unfold ordered; cbn; lia|vm_compute; reflexivity].
Qed.
Example C32_case :
  graph_append g3 (sg (lit "d") 5 12) = Some (g3, false) /\
  tok_clashes (mkTok 2 6) (mkTok 5 12) = true.
Proof. split; vm_compute; reflexivity. Qed.

(* ------------------------------------------------------------------- C34 *)

(** C34. *)
Theorem C34_graph_is_faithful_nesting name acc g : history name acc g ->
  nested g /\ s_info (n_seg g) = name /\ Permutation (below g) acc /\
  (acc = [] -> g = new_graph name) /\ (acc <> [] -> hull (n_tok g) acc).
Proof. intros H. pose proof (history_facts name acc g H). tauto. Qed.
Print Assumptions C34_graph_is_faithful_nesting.

(** BuildGraph is such a history and accepts everything if nothing clashes. *)
Theorem C34_build_graph name segs : (forall x, In x segs -> ordered (s_tok x)) ->
  exists g acc, build_graph name segs = Some g /\ history name acc g /\ incl acc segs /\
    ((forall x y, In x segs -> In y segs -> tok_clashes (s_tok x) (s_tok y) = false) -> acc = segs).
Proof.
  intros O. destruct (append_all_history name segs [] (new_graph name)) as (g & acc & E & H & S & A); auto.
  { constructor. }
  exists g, acc. auto.
Qed.
Print Assumptions C34_build_graph.

Example C34_case : history (lit "g") [sg (lit "a") 2 6; sg (lit "b") 0 1; sg (lit "c") 1 9] g3 /\
  below g3 = [sg (lit "b") 0 1; sg (lit "c") 1 9; sg (lit "a") 2 6] /\
  build_graph (lit "g") [sg (lit "a") 2 6; sg (lit "b") 0 1; sg (lit "c") 1 9; sg (lit "d") 5 12] = Some g3.
Proof. split; [exact g3_history|]. split; vm_compute; reflexivity. Qed.

(* ------------------------------------------------------------------- C35 *)

(** C35. *)
Theorem C35_shape_independent_of_order name acc acc' g g' :
  history name acc g -> history name acc' g' -> Permutation acc acc' ->
  (forall x, In x acc -> nonempty (s_tok x)) -> NoDup (map s_tok acc) -> g = g'.
Proof. exact (shape_unique name acc acc' g g'). Qed.
Print Assumptions C35_shape_independent_of_order.

Theorem C35_build_graph_independent_of_order name segs segs' : Permutation segs segs' ->
  (forall x, In x segs -> nonempty (s_tok x)) -> NoDup (map s_tok segs) ->
  (forall x y, In x segs -> In y segs -> tok_clashes (s_tok x) (s_tok y) = false) ->
  exists g, build_graph name segs = Some g /\ build_graph name segs' = Some g.
Proof.
  intros P NE ND C.
  assert (I : forall x, In x segs' -> In x segs) by (intros x; apply Permutation_in, Permutation_sym; exact P).
  destruct (C34_build_graph name segs) as (g & acc & E & H & _ & A).
  { intros x J. specialize (NE x J). unfold nonempty, ordered in *. lia. }
  destruct (C34_build_graph name segs') as (g' & acc' & E' & H' & _ & A').
  { intros x J. specialize (NE x (I x J)). unfold nonempty, ordered in *. lia. }
  rewrite A in H by auto. rewrite A' in H' by auto.
  exists g. split; [exact E|]. rewrite E'. f_equal. symmetry. eapply shape_unique; eauto.
Qed.
Print Assumptions C35_build_graph_independent_of_order.

(** The hypotheses are needed: with equal tokens the later segment is the outer one. *)
Theorem C35_equal_tokens_depend_on_order :
  build_graph [] [sg (lit "a") 0 1; sg (lit "b") 0 1] <> build_graph [] [sg (lit "b") 0 1; sg (lit "a") 0 1].
Proof. vm_compute. discriminate. Qed.
Print Assumptions C35_equal_tokens_depend_on_order.
(** Likewise with empty segments on a border of two others. *)
Theorem C35_empty_tokens_depend_on_order :
  build_graph [] [sg (lit "a") 0 1; sg (lit "b") 1 2; sg (lit "e") 1 1] <>
  build_graph [] [sg (lit "b") 1 2; sg (lit "e") 1 1; sg (lit "a") 0 1].
Proof. vm_compute. discriminate. Qed.
Print Assumptions C35_empty_tokens_depend_on_order.

Example C35_case :
  build_graph (lit "g") [sg (lit "a") 2 6; sg (lit "b") 0 1; sg (lit "c") 1 9] =
  build_graph (lit "g") [sg (lit "c") 1 9; sg (lit "b") 0 1; sg (lit "a") 2 6].
Proof. vm_compute. reflexivity. Qed.

(* ------------------------------------------------------------------- C36 *)

(** C36. *)
Theorem C36_leafs n : leafs n = map n_seg (filter childless (nodes n)).
Proof. exact (leafs_nodes n). Qed.
Print Assumptions C36_leafs.
Theorem C36_leafs_sorted name acc g : history name acc g ->
  StronglySorted (fun x y => tok_before (s_tok x) (s_tok y) = true) (leafs g).
Proof. intros H. apply leafs_sorted. apply (history_facts name acc g H). Qed.
Print Assumptions C36_leafs_sorted.
Theorem C36_equal_is_equality n m : node_equal n m = true <-> n = m.
Proof. exact (node_equal_eq n m). Qed.
Print Assumptions C36_equal_is_equality.
(** [paths 1 n]: one path per node, depth first, ending in that node. *)
Theorem C36_flame_stack n :
  flame_stack n = concat (map flame_line (paths 1 n)) /\
  map (fun p => snd (last p (0, mkSeg [] (mkTok 0 0)))) (paths 1 n) = map n_seg (nodes n).
Proof.
  rewrite flame_stack_lines, flat_map_concat_map, paths_nodes, nodes_flat. auto.
Qed.
Print Assumptions C36_flame_stack.

Example C36_case : leafs g3 = [sg (lit "b") 0 1; sg (lit "a") 2 6] /\ node_equal g3 g2 = false /\
  flame_stack g3 = lit "1.g[0-9) 9" ++ [x0a] ++ lit "1.g[0-9);1.b[0-1) 1" ++ [x0a] ++
    lit "1.g[0-9);2.c[1-9) 8" ++ [x0a] ++ lit "1.g[0-9);2.c[1-9);1.a[2-6) 4" ++ [x0a].
Proof. split; [|split]; vm_compute; reflexivity. Qed.
