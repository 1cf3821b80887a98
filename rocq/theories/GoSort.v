(** GoSort.v - Go's sort.Stable (sort/sort.go of Go 1.16: insertionSort on blocks
    of 20, then symMerge), used by segment.go:57, segment.go:83 and graph.go:80.
    It is library code, not part of /repo, but it has to be modelled as the
    algorithm it is, because SortSegments calls it with a reflexive Less, for which
    the documented contract of sort says nothing.

    The library works on index ranges [a,b) of one array; here a range is the list
    of its elements and indices are relative to its start (all index computations
    of the library are translation invariant). *)
From Coq Require Import Lia.
From Verif Require Export Base.

Section Sort.
Context {A : Type} (less : A -> A -> bool).

(** insertionSort: element x is moved left while Less(x, left neighbour).  The
    sorted part to the left is kept in reverse, so that the left neighbour is the
    head of the list. *)
Fixpoint sift (x : A) (rl : list A) : list A :=
  match rl with
  | [] => [x]
  | y :: t => if less x y then y :: sift x t else x :: rl
  end.
Fixpoint insertion_rev (l : list A) (rl : list A) : list A :=
  match l with
  | [] => rl
  | x :: t => insertion_rev t (sift x rl)
  end.
Definition insertion_sort (l : list A) : list A := rev (insertion_rev l []).

(** The three binary searches of symMerge: for i < j, h = (i+j)/2,
    if p(h) then i = h+1 else j = h.  [k] bounds the number of rounds. *)
Fixpoint bsearch (k : nat) (p : nat -> bool) (i j : nat) : nat :=
  match k with
  | O => i
  | S k' =>
    if Nat.ltb i j then
      let h := Nat.div2 (i + j) in
      if p h then bsearch k' p (S h) j else bsearch k' p i h
    else i
  end.

(** Less(i,j) on the range u++v; out of range indices never occur. *)
Definition less_at (l : list A) (i j : nat) : bool :=
  match nth_error l i, nth_error l j with
  | Some x, Some y => less x y
  | _, _ => false
  end.

(** symMerge(data, a, m, b) with u = data[a:m], v = data[m:b].  rotate(start,m,end)
    exchanges the neighbouring blocks data[start:m] and data[m:end]. *)
Fixpoint sym_merge (k : nat) (u v : list A) : list A :=
  match k with
  | O => u ++ v
  | S k' =>
    let d := u ++ v in
    let m := length u in
    let b := length d in
    if Nat.eqb m 1 then
      (* insert the single element of u into v *)
      let i := bsearch b (fun h => less_at d h 0) m b in
      firstn (i - m) v ++ u ++ skipn (i - m) v
    else if Nat.eqb (b - m) 1 then
      (* insert the single element of v into u *)
      let i := bsearch b (fun h => negb (less_at d m h)) 0 m in
      firstn i u ++ v ++ skipn i u
    else
      let mid := Nat.div2 b in
      let n := (mid + m)%nat in
      let '(start0, r0) := if Nat.ltb mid m then ((n - b)%nat, mid) else (0%nat, m) in
      let p := (n - 1)%nat in
      let start := bsearch b (fun c => negb (less_at d (p - c) c)) start0 r0 in
      let en := (n - start)%nat in
      let u1 := firstn start u in
      let u2 := skipn start u in
      let v1 := firstn (en - m) v in
      let v2 := skipn (en - m) v in
      (* after rotate: u1 ++ v1 | u2 ++ v2, split at mid *)
      let left := if Nat.ltb 0 start && Nat.ltb start mid
                  then sym_merge k' u1 v1 else u1 ++ v1 in
      let right := if Nat.ltb mid en && Nat.ltb en b
                   then sym_merge k' u2 v2 else u2 ++ v2 in
      left ++ right
  end.

(** The blocks of insertion sort: [k] bounds the recursion. *)
Fixpoint blocks (k bs : nat) (l : list A) : list (list A) :=
  match k with
  | O => [l]
  | S k' =>
    if Nat.ltb (length l) bs then [l]
    else firstn bs l :: blocks k' bs (skipn bs l)
  end.
(** One merge pass: neighbouring blocks of size blockSize are merged pairwise; a
    last single block stays.  (Library: for b <= n { symMerge(a, a+bs, b) };
    if m := a+bs; m < n { symMerge(a, m, n) }.) *)
Fixpoint merge_pass (bl : list (list A)) : list (list A) :=
  match bl with
  | x :: y :: t =>
    (match y with [] => x | _ => sym_merge (S (length x + length y)) x y end) :: merge_pass t
  | _ => bl
  end.
Fixpoint merge_all (k : nat) (bl : list (list A)) : list A :=
  match k with
  | O => concat bl
  | S k' =>
    match bl with
    | [] => []
    | [x] => x
    | _ => merge_all k' (merge_pass bl)
    end
  end.
Definition go_stable (l : list A) : list A :=
  merge_all (length l) (map insertion_sort (blocks (length l) 20 l)).

End Sort.
