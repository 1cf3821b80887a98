(** Segment.v - segment.go. *)
From Verif Require Export Scanner GoSort.

(** segment.go:16-18 (Known) *)
Definition seg_known (s : segment) : bool := negb (bytes_eqb (s_info s) []).
(** segment.go:21-24 (Split) *)
Definition seg_split (v sep : segment) : segment * segment :=
  let '(l, r) := tok_split (s_tok v) (s_tok sep) in
  (mkSeg (s_info v) l, mkSeg (s_info v) r).
(** segment.go:27-29 (String) *)
Definition seg_string (v : segment) : bytes := s_info v ++ tok_string (s_tok v).

(** segment.go:53-55: the cmpFunc of SortSegments *)
Definition seg_less (a b : segment) : bool :=
  tok_covers (s_tok a) (s_tok b) || tok_before (s_tok a) (s_tok b).
(** segment.go:50-58 (SortSegments); the slice is updated in place. *)
Definition sort_segments (values : list segment) : list segment := go_stable seg_less values.

Definition tok_eqb (a b : token) : bool :=
  (t_from a =? t_from b) && (t_to a =? t_to b).

(** segment.go:69-78: the index loop of SortSegmentsByOrder's cmpFunc. *)
Fixpoint order_loop (ainfo binfo : bytes) (order : list bytes) (i ai bi : Z) : Z * Z :=
  match order with
  | [] => (ai, bi)
  | info :: t =>
    if bytes_eqb ainfo info then order_loop ainfo binfo t (i + 1) i bi
    else if bytes_eqb binfo info then order_loop ainfo binfo t (i + 1) ai i
    else if negb (ai =? -1) && negb (bi =? -1) then (ai, bi)
    else order_loop ainfo binfo t (i + 1) ai bi
  end.
(** segment.go:65-81: cmpFunc of SortSegmentsByOrder *)
Definition seg_less_order (order : list bytes) (a b : segment) : bool :=
  if negb (tok_eqb (s_tok a) (s_tok b)) then
    tok_covers (s_tok a) (s_tok b) || tok_before (s_tok a) (s_tok b)
  else
    let '(ai, bi) := order_loop (s_info a) (s_info b) order 0 (-1) (-1) in
    ai <? bi.
(** segment.go:62-84 (SortSegmentsByOrder) *)
Definition sort_segments_by_order (values : list segment) (order : list bytes) : list segment :=
  go_stable (seg_less_order order) values.

(** segment.go:89-107 (Segment.Segmentate): the pieces so far and the remaining
    segment; result slice and error. *)
Fixpoint segmentate_loop (segments : list segment) (res : list segment) (rest : segment)
  : list segment * option err :=
  match segments with
  | [] => ((if 0 <? tok_len (s_tok rest) then res ++ [rest] else res), None)
  | seg :: t =>
    if negb (tok_covers (s_tok rest) (s_tok seg)) then
      (res, Some (EOther (lit "invalid token " ++ seg_string seg)))
    else
      let '(lft, rest') := seg_split rest seg in
      let res := if 0 <? tok_len (s_tok lft) then res ++ [lft] else res in
      segmentate_loop t (res ++ [seg]) rest'
  end.
Definition seg_segmentate (s : segment) (segments : list segment) : list segment * option err :=
  segmentate_loop segments [] s.
(** segment.go:110-113 (Scanner.Segmentate) *)
Definition segmentate (s : scanner) (segments : list segment) : list segment * option err :=
  seg_segmentate (mkSeg [] (make_token 0 (slen (full s)))) segments.
