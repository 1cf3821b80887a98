(** State.v - Token, Segment, errors, Log memory, Basket, and the state that a
    Scanner call can touch. *)
From Verif Require Export GoStr.

(** token.go:8-11 (type Token) *)
Record token := mkTok { t_from : Z; t_to : Z }.
(** segment.go:10-13 (type Segment) *)
Record segment := mkSeg { s_info : bytes; s_tok : token }.

(** error.go:6-9 (type ReadError) and every other error value (fmt.Errorf). *)
Inductive err :=
| EReadError (m : Z) (what : bytes)
| EOther (msg : bytes).

(** monitor.go:9-15 (type LogEntry) *)
Record entry := mkEntry {
  e_enter : Z; e_info : bytes; e_level : Z; e_exit : Z; e_err : option err }.
(** monitor.go:21-24 (type Log).  The slice Entries is modelled with its backing
    arrays: [l_arrs] are all arrays ever allocated, [l_cur] the one that Entries
    points to, [l_len]/[l_cap] its length and capacity. *)
Record log := mkLog {
  l_arrs : list (list entry); l_cur : nat; l_len : nat; l_cap : nat; l_level : Z }.
Definition log0 : log := mkLog [] 0 0 0 0.
(** What a reader of l.Entries sees. *)
Definition log_entries (l : log) : list entry := firstn (l_len l) (nth (l_cur l) (l_arrs l) []).

(** Values stored by BoolReader/IntReader/UintReader (reader.go:384,468,950). *)
Inductive value := VNone | VBool (b : bool) | VInt (z : Z) | VUint (z : Z).

(** scanner.go:8-12 (type Scanner); the only Tracker in /repo is Basket, [trk]
    is the identity of the coupled one. *)
Record scanner := mkSc { full : bytes; pos : Z; trk : option nat }.

(** Objects that Readers hold pointers to: Baskets (tracker.go:31), the string a
    Janus end reader expects (reader.go:513), calls made to Map functions
    (reader.go:632), stored values, Logs. *)
Record heap := mkHeap {
  h_baskets : list (list segment);
  h_cells : list bytes;
  h_events : list (nat * token);
  h_vals : list value;
  h_logs : list log }.
Definition heap0 : heap := mkHeap [] [] [] [] [].

Record st := mkSt { sc : scanner; hp : heap }.

Definition with_pos (p : Z) (s : st) : st :=
  mkSt (mkSc (full (sc s)) p (trk (sc s))) (hp s).
Definition with_heap (h : heap) (s : st) : st := mkSt (sc s) h.

Definition set_baskets (b : list (list segment)) (h : heap) : heap :=
  mkHeap b (h_cells h) (h_events h) (h_vals h) (h_logs h).
Definition set_cells (c : list bytes) (h : heap) : heap :=
  mkHeap (h_baskets h) c (h_events h) (h_vals h) (h_logs h).
Definition set_events (e : list (nat * token)) (h : heap) : heap :=
  mkHeap (h_baskets h) (h_cells h) e (h_vals h) (h_logs h).
Definition set_vals (v : list value) (h : heap) : heap :=
  mkHeap (h_baskets h) (h_cells h) (h_events h) v (h_logs h).
Definition set_logs (l : list log) (h : heap) : heap :=
  mkHeap (h_baskets h) (h_cells h) (h_events h) (h_vals h) l.

(** State monad with panics and fuel. *)
Definition M (A : Type) : Type := st -> res (A * st).
Definition ret {A} (a : A) : M A := fun s => Ok (a, s).
Definition panic {A} : M A := fun _ => Panic.
Definition out_of_fuel {A} : M A := fun _ => Fuel.
Definition bind {A B} (m : M A) (k : A -> M B) : M B :=
  fun s => match m s with
           | Ok (a, s') => k a s'
           | Panic => Panic
           | Fuel => Fuel
           end.
Notation "'let*' x ':=' m 'in' k" := (bind m (fun x => k))
  (at level 200, x name, m at level 100, k at level 200, right associativity).
Notation "m ';;' k" := (bind m (fun _ => k)) (at level 100, right associativity).
Definition gets {A} (f : st -> A) : M A := fun s => Ok (f s, s).
Definition modify (f : st -> st) : M unit := fun s => Ok (tt, f s).

(** tracker.go:40-49 (Basket.Update): drops from the end of the list all segments
    that end behind [m]. *)
Fixpoint drop_behind (m : Z) (rl : list segment) : list segment :=
  match rl with
  | [] => []
  | seg :: t => if t_to (s_tok seg) <=? m then rl else drop_behind m t
  end.
Definition basket_update (m : Z) (segs : list segment) : list segment :=
  rev (drop_behind m (rev segs)).

Definition get_basket (b : nat) (h : heap) : list segment := get [] (h_baskets h) b.
Definition put_basket (b : nat) (segs : list segment) (h : heap) : heap :=
  set_baskets (put [] (h_baskets h) b segs) h.

(** The common tail of Move and ToMarker (scanner.go:326-329, 377-380):
    set the position and tell the tracker. *)
Definition track (t : option nat) (p : Z) (h : heap) : heap :=
  match t with
  | None => h
  | Some b => put_basket b (basket_update p (get_basket b h)) h
  end.
Definition moveto (p : Z) (s : st) : st :=
  mkSt (mkSc (full (sc s)) p (trk (sc s))) (track (trk (sc s)) p (hp s)).

(** scanner.go:15-20 (NewScanner) *)
Definition new_scanner (str : bytes) : scanner := mkSc str 0 None.
Definition init_st (str : bytes) : st := mkSt (new_scanner str) heap0.
