(** Graph.v - graph.go.  A graph is a tree of nodes without sharing. *)
From Verif Require Export Segment.

(** graph.go:13-16 (type Node) *)
Inductive node := Node (seg : segment) (kids : list node).
Definition n_seg (n : node) : segment := match n with Node s _ => s end.
Definition n_kids (n : node) : list node := match n with Node _ k => k end.
Definition n_tok (n : node) : token := s_tok (n_seg n).

Definition seg_eqb (a b : segment) : bool :=
  bytes_eqb (s_info a) (s_info b) && tok_eqb (s_tok a) (s_tok b).

(** graph.go:19-32 (Equal) *)
Fixpoint node_equal (n oth : node) {struct n} : bool :=
  match n, oth with
  | Node s k, Node s' k' =>
    seg_eqb s s' &&
    (fix kids (k k' : list node) {struct k} : bool :=
       match k, k' with
       | [], [] => true
       | x :: k1, y :: k1' => node_equal x y && kids k1 k1'
       | _, _ => false
       end) k k'
  end.

(** graph.go:40-42 (nodeByPos.Less) *)
Definition node_less (a b : node) : bool := tok_before (n_tok a) (n_tok b).

Fixpoint node_size (n : node) : nat :=
  match n with Node _ k => S (fold_right (fun c acc => (node_size c + acc)%nat) 0%nat k) end.

(** graph.go:55-82 (rankNodes).  Both nodes are mutated by the Go code, so the
    result is (ok, a after, b after).  In the loop over a.Nodes, [seen] are the
    elements already visited (as they are now), [nodes] the local slice.  [n] is
    recursion fuel ([None] = exhausted). *)
Fixpoint rank (n : nat) (a b : node) {struct n} : option (bool * node * node) :=
  match n with
  | O => None
  | S n' =>
    if tok_clashes (n_tok a) (n_tok b) then Some (false, a, b)
    else
      (fix loop (rest seen nodes : list node) (b : node) {struct rest}
         : option (bool * node * node) :=
         match rest with
         | [] => Some (true, Node (n_seg a) (go_stable node_less (nodes ++ [b])), b)
         | c :: rest' =>
           if tok_covers (n_tok b) (n_tok c) then
             match rank n' b c with
             | None => None
             | Some (false, b', c') => Some (false, Node (n_seg a) (seen ++ c' :: rest'), b')
             | Some (true, b', c') => loop rest' (seen ++ [c']) nodes b'
             end
           else if tok_clashes (n_tok b) (n_tok c) then
             Some (false, Node (n_seg a) (seen ++ c :: rest'), b)
           else if tok_covers (n_tok c) (n_tok b) then
             match rank n' c b with
             | None => None
             | Some (ok, c', b') => Some (ok, Node (n_seg a) (seen ++ c' :: rest'), b')
             end
           else loop rest' (seen ++ [c]) (nodes ++ [c]) b
         end) (n_kids a) [] [] b
  end.

Definition set_tok (t : token) (n : node) : node :=
  Node (mkSeg (s_info (n_seg n)) t) (n_kids n).

(** graph.go:85-100 (Append); a graph is its root node.  The recursion bound is
    the number of nodes. *)
Definition graph_append (root : node) (seg : segment) : option (node * bool) :=
  let n := Node seg [] in
  let bkp := n_tok root in
  let root1 :=
    if negb (tok_covers (n_tok root) (n_tok n)) then
      match n_kids root with
      | _ :: _ => set_tok (tok_merge (n_tok root) (s_tok seg)) root
      | [] => set_tok (s_tok seg) root
      end
    else root in
  match rank (node_size root1 + node_size n) root1 n with
  | None => None
  | Some (ok, root2, _) => Some (if ok then root2 else set_tok bkp root2, ok)
  end.

(** graph.go:153-157 (NewGraph) *)
Definition new_graph (name : bytes) : node := Node (mkSeg name (mkTok 0 0)) [].
(** graph.go:144-150 (BuildGraph): the results of Append are ignored. *)
Fixpoint append_all (root : node) (segs : list segment) : option node :=
  match segs with
  | [] => Some root
  | s :: t => match graph_append root s with
              | None => None
              | Some (root', _) => append_all root' t
              end
  end.
Definition build_graph (name : bytes) (segs : list segment) : option node :=
  append_all (new_graph name) segs.

(** graph.go:107-123 (makeStackLines, FlameStack) *)
Fixpoint stack_lines (prefix : bytes) (i : Z) (n : node) {struct n} : bytes :=
  match n with
  | Node s k =>
    let prefix := prefix ++ itoa i ++ lit "." ++ seg_string s in
    prefix ++ lit " " ++ itoa (tok_len (s_tok s)) ++ [x0a] ++
    (fix kids (j : Z) (k : list node) {struct k} : bytes :=
       match k with
       | [] => []
       | c :: k' => stack_lines (prefix ++ lit ";") j c ++ kids (j + 1) k'
       end) 1 k
  end.
Definition flame_stack (root : node) : bytes := stack_lines [] 1 root.

(** graph.go:125-140 (appendLeafs, Leafs) *)
Fixpoint leafs (n : node) : list segment :=
  match n with
  | Node s [] => [s]
  | Node s k => flat_map leafs k
  end.
