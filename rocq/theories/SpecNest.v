(** SpecNest.v - how deeply the values of a JSON text lie inside each other; nothing here refers to the readers. *)
From Verif Require Export SpecJson.

(** [nests s n w]: [w] is a JSON text of sort [s] with [n] values inside each other, where an empty array counts as if something
    that is not a value were in it.  (The reader looks for a value behind every opening bracket, but for a key behind an opening brace.) *)
Inductive nests : jsort -> nat -> bytes -> Prop :=
| ne_object0 w : j_ws w -> nests Value 1 (lit "{" ++ w ++ lit "}")
| ne_object n m : nests Members n m -> nests Value (S n) (lit "{" ++ m ++ lit "}")
| ne_array0 w : j_ws w -> nests Value 2 (lit "[" ++ w ++ lit "]")
| ne_array n l : nests Elements n l -> nests Value (S n) (lit "[" ++ l ++ lit "]")
| ne_string w : j_string w -> nests Value 1 w
| ne_number w : j_number w -> nests Value 1 w
| ne_true : nests Value 1 (lit "true")
| ne_false : nests Value 1 (lit "false")
| ne_null : nests Value 1 (lit "null")
| ne_member w1 k w2 n x : j_ws w1 -> j_string k -> j_ws w2 -> nests Element n x -> nests Member n (w1 ++ k ++ w2 ++ lit ":" ++ x)
| ne_members1 n m : nests Member n m -> nests Members n m
| ne_members n1 m n2 l : nests Member n1 m -> nests Members n2 l -> nests Members (Nat.max n1 n2) (m ++ lit "," ++ l)
| ne_element w1 n v w2 : j_ws w1 -> nests Value n v -> j_ws w2 -> nests Element n (w1 ++ v ++ w2)
| ne_elements1 n x : nests Element n x -> nests Elements n x
| ne_elements n1 x n2 l : nests Element n1 x -> nests Elements n2 l -> nests Elements (Nat.max n1 n2) (x ++ lit "," ++ l).
Lemma nests_text s n w : nests s n w -> json_text s w.
Proof. induction 1; solve [econstructor; solve [eauto]]. Qed.
Lemma text_nests s w : json_text s w -> exists n, nests s n w.
Proof. induction 1; repeat match goal with X : exists n, nests _ n _ |- _ => destruct X as [? X] end; eexists; solve [econstructor; solve [eauto]]. Qed.
