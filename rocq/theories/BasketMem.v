(** BasketMem.v - tracker.go:30-54 with Go's slice semantics: the slice that Picked() returns shares its array with
    the Basket. *)
From Verif Require Export State Segment.

(** A []Segment that begins at the beginning of its array: array, length, capacity. *)
Record sref := mkRef { sl_arr : nat; sl_len : nat; sl_cap : nat }.
(** All arrays ever allocated (the elements written so far), and the field Basket.segments (tracker.go:32). *)
Record bmem := mkMem { m_arrs : list (list segment); m_segs : sref }.
(** What one sees through a slice. *)
Definition view (m : bmem) (p : sref) : list segment := firstn (sl_len p) (nth (sl_arr p) (m_arrs m) []).
(** Writing to one element of an array. *)
Definition poke (arr : list segment) (i : nat) (g : segment) : list segment := firstn i arr ++ g :: skipn (S i) arr.

(** tracker.go:14,22: a Basket with a nil slice *)
Definition mem0 : bmem := mkMem [] (mkRef 0 0 0).
(** tracker.go:36-38 (Add): append writes behind the last element while there is capacity, otherwise to a copy. *)
Definition mem_add {L : GoLib} (g : segment) (m : bmem) : bmem :=
  let p := m_segs m in
  if Nat.ltb (sl_len p) (sl_cap p) then
    mkMem (put [] (m_arrs m) (sl_arr p) (poke (nth (sl_arr p) (m_arrs m) []) (sl_len p) g)) (mkRef (sl_arr p) (S (sl_len p)) (sl_cap p))
  else
    mkMem (m_arrs m ++ [view m p ++ [g]]) (mkRef (length (m_arrs m)) (S (sl_len p)) (Nat.max (S (sl_len p)) (lib_grow (sl_cap p)))).
(** tracker.go:41-47: the loop; the length of the slice that is kept, if one is *)
Fixpoint keep (mk : Z) (l : list segment) (i : nat) : option nat :=
  match i with
  | O => None
  | S j => match nth_error l j with
           | Some g => if t_to (s_tok g) <=? mk then Some i else keep mk l j
           | None => None
           end
  end.
(** tracker.go:40-49 (Update) *)
Definition mem_update (mk : Z) (m : bmem) : bmem :=
  let p := m_segs m in
  match keep mk (view m p) (sl_len p) with
  | Some i => mkMem (m_arrs m) (mkRef (sl_arr p) i (sl_cap p))
  | None => mkMem (m_arrs m ++ [[]]) (mkRef (length (m_arrs m)) 0 0)
  end.
(** tracker.go:52-54 (Picked) *)
Definition mem_picked (m : bmem) : sref := m_segs m.
(** The caller writes to an element of a slice ... *)
Definition mem_write (p : sref) (i : nat) (g : segment) (m : bmem) : bmem :=
  if Nat.ltb i (sl_len p) then mkMem (put [] (m_arrs m) (sl_arr p) (poke (nth (sl_arr p) (m_arrs m) []) i g)) (m_segs m) else m.
(** ... or sorts it in place (segment.go:50-58). *)
Definition mem_sort (p : sref) (m : bmem) : bmem :=
  mkMem (put [] (m_arrs m) (sl_arr p) (sort_segments (view m p) ++ skipn (sl_len p) (nth (sl_arr p) (m_arrs m) []))) (m_segs m).

(** What happens to a Basket. *)
Inductive bop := OAdd (g : segment) | OUpdate (mk : Z).
Definition mem_op {L : GoLib} (o : bop) (m : bmem) : bmem := match o with OAdd g => mem_add g m | OUpdate mk => mem_update mk m end.
Definition mem_run {L : GoLib} (os : list bop) (m : bmem) : bmem := fold_left (fun m o => mem_op o m) os m.
