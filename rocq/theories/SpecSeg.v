(** SpecSeg.v - what tokens, segments and graphs should be, independent of the code. *)
From Verif Require Export Spec.
From Verif Require Import Graph.
From Coq Require Import Sorted Permutation.

(** ** Tokens are intervals *)

Definition ordered (t : token) : Prop := t_from t <= t_to t.
Definition nonempty (t : token) : Prop := t_from t < t_to t.
(** Position [p] belongs to the token. *)
Definition inside (t : token) (p : Z) : Prop := t_from t <= p < t_to t.

(** Every way to get hold of a Token from outside the package. *)
Inductive obtained : token -> Prop :=
| ob_make a b : obtained (make_token a b)
| ob_merge t u : obtained t -> obtained u -> obtained (tok_merge t u)
| ob_split_l t u : obtained t -> obtained u -> obtained (fst (tok_split t u))
| ob_split_r t u : obtained t -> obtained u -> obtained (snd (tok_split t u))
| ob_tokenize f s r s' : tokenize f s = Ok (r, s') -> obtained (fst r)
| ob_tokenize_use f s r s' : tokenize_use f s = Ok (r, s') -> obtained (fst r).

(** ** Segmentate *)

(** The segments lie one after the other between [f] and [t]. *)
Fixpoint placed (f t : Z) (segs : list segment) : Prop :=
  match segs with
  | [] => f <= t
  | x :: r => f <= t_from (s_tok x) /\ ordered (s_tok x) /\ placed (t_to (s_tok x)) t r
  end.
(** The segments follow each other without gap from [f] to [t]. *)
Fixpoint tiles (f t : Z) (segs : list segment) : Prop :=
  match segs with
  | [] => f = t
  | x :: r => t_from (s_tok x) = f /\ ordered (s_tok x) /\ tiles (t_to (s_tok x)) t r
  end.
(** [res] are the [segs] with the gaps between [f] and [t] filled. *)
Inductive filled (info : bytes) (t : Z) : Z -> list segment -> list segment -> Prop :=
| fl_end : filled info t t [] []
| fl_rest f : f < t -> filled info t f [] [mkSeg info (mkTok f t)]
| fl_seg f x segs res : t_from (s_tok x) = f -> filled info t (t_to (s_tok x)) segs res ->
    filled info t f (x :: segs) (x :: res)
| fl_gap f x segs res : f < t_from (s_tok x) -> filled info t (t_to (s_tok x)) segs res ->
    filled info t f (x :: segs) (mkSeg info (mkTok f (t_from (s_tok x))) :: x :: res).

(** ** Sorting *)

(** Pairwise without clash and non-empty. *)
Definition laminar (l : list segment) : Prop :=
  (forall x, In x l -> nonempty (s_tok x)) /\
  (forall x y, In x l -> In y l -> tok_clashes (s_tok x) (s_tok y) = false).
Definition covers_or_before (x y : segment) : Prop :=
  tok_covers (s_tok x) (s_tok y) = true \/ tok_before (s_tok x) (s_tok y) = true.

(** The place of an info in the order list, -1 if it is not there. *)
Fixpoint place (order : list bytes) (i : Z) (info : bytes) : Z :=
  match order with
  | [] => -1
  | x :: t => if bytes_eqb info x then i else place t (i + 1) info
  end.
Definition key (order : list bytes) (x : segment) : Z := place order 0 (s_info x).
Definition by_order (order : list bytes) (x y : segment) : Prop :=
  covers_or_before x y /\ (s_tok x = s_tok y -> key order x <= key order y).
Definition same_tok (t : token) (x : segment) : bool := tok_eqb t (s_tok x).

(** ** Graphs *)

(** The segments of a node and below, parents first, left to right. *)
Fixpoint flat (n : node) : list segment :=
  match n with Node s k => s :: flat_map flat k end.
(** The segments below a node. *)
Definition below (n : node) : list segment := flat_map flat (n_kids n).

(** [a] lies left of [b] and neither contains the other. *)
Definition left_of (a b : token) : Prop :=
  tok_before a b = true /\ tok_covers a b = false /\ tok_covers b a = false.
(** Every node covers its children; children are sorted and disjoint. *)
Inductive nested : node -> Prop :=
| nested_node s k : ordered (s_tok s) -> (forall c, In c k -> nested c) ->
    (forall c, In c k -> tok_covers (s_tok s) (n_tok c) = true) ->
    StronglySorted (fun a b => left_of (n_tok a) (n_tok b)) k -> nested (Node s k).

(** [t] is the smallest token that covers all of [l]. *)
Definition hull (t : token) (l : list segment) : Prop :=
  (forall x, In x l -> tok_covers t (s_tok x) = true) /\
  (forall u, (forall x, In x l -> tok_covers u (s_tok x) = true) -> tok_covers u t = true).

(** [g] is what is left of [NewGraph(name)] after some Append calls; [acc] are the
    segments for which Append returned true, in call order. *)
Inductive history (name : bytes) : list segment -> node -> Prop :=
| hi_new : history name [] (new_graph name)
| hi_yes acc g x g' : history name acc g -> ordered (s_tok x) ->
    graph_append g x = Some (g', true) -> history name (acc ++ [x]) g'
| hi_no acc g x g' : history name acc g -> ordered (s_tok x) ->
    graph_append g x = Some (g', false) -> history name acc g'.

(** The nodes of a tree, parents first, left to right. *)
Fixpoint nodes (n : node) : list node :=
  match n with Node s k => n :: flat_map nodes k end.

(** A node without children. *)
Definition childless (n : node) : bool := match n_kids n with [] => true | _ => false end.

(** The paths from the root to every node: child numbers and segments. *)
Fixpoint paths (i : Z) (n : node) : list (list (Z * segment)) :=
  match n with
  | Node s k => [(i, s)] ::
      map (fun p => (i, s) :: p)
        ((fix kids (j : Z) (k : list node) : list (list (Z * segment)) :=
            match k with [] => [] | c :: t => paths j c ++ kids (j + 1) t end) 1 k)
  end.
(** A flame stack line: the path, the length of the last segment. *)
Fixpoint joined (p : list (Z * segment)) : bytes :=
  match p with
  | [] => []
  | [(i, s)] => itoa i ++ lit "." ++ seg_string s
  | (i, s) :: t => itoa i ++ lit "." ++ seg_string s ++ lit ";" ++ joined t
  end.
Definition flame_line (p : list (Z * segment)) : bytes :=
  joined p ++ lit " " ++
  itoa (tok_len (s_tok (snd (last p (0, mkSeg [] (mkTok 0 0)))))) ++ [x0a].
