(** Model of the sweep machinery: /repo/clipping/core/event.py,
    events_queue.py and sweep_line.py.  Events are mutable and reference each
    other in the code; here they live in two append-only stores and are
    referenced by their positions.  One record carries the fields of all
    kinds of left events; a kind which lacks a field never reads it. *)
From Verif Require Import QcTac Geom.

(** The first five are the exceptions of the code; the other two are not
    outcomes of the code: [OutOfFuel] is divergence, [Unordered] is a queue
    without a least event. *)
Inductive error := ValueError | AssertionError | IndexError | TypeError | AttributeError | OutOfFuel | Unordered.
Inductive res (A : Type) := Ok (a : A) | Err (e : error).
Arguments Ok {A} _.
Arguments Err {A} _.

(** The four kinds of events and of events queues. *)
Inductive kind := Linear | Mixed | Nary | Shaped.

(** enums.py 5-9: OverlapKind *)
Inductive overlap_kind := NONE | SAME_ORIENTATION | DIFFERENT_ORIENTATION.

(** event.py 63-91 (LeftNaryEvent), 103-131 (LeftBinaryEvent), 147-199
    (LeftMixedEvent), 219-314 (LeftHolelessEvent), 317-430 (LeftHoleyEvent).
    [l_result] is from_result / from_shaped_result, [l_below] is
    below_event_from_shaped_result; identifiers used only by the tracing of
    contours are modelled there. *)
Record left_event := LeftEvent {
  l_start : point;
  l_right : nat;
  l_first : bool;
  l_interior : bool;
  l_other : bool;
  l_is_overlap : bool;
  l_kind : overlap_kind;
  l_result : bool;
  l_below : option nat
}.
(** event.py 94-100, 134-144, 202-216, 436-462: right events. *)
Record right_event := RightEvent { r_start : point; r_left : nat }.

Inductive event := EL (i : nat) | ER (r : nat).
Definition event_eqb (a b : event) : bool :=
  match a, b with
  | EL i, EL j | ER i, ER j => Nat.eqb i j
  | _, _ => false
  end.

(** Stores of events, events queue (in no particular order) and sweep line
    (the values of the tree in order). *)
Record state := State {
  lefts : list left_event;
  rights : list right_event;
  queue : list event;
  line : list nat
}.

(** Values for positions out of range, which never occur. *)
Definition no_left : left_event := LeftEvent (Pt 0 0) 0 false false false false NONE false None.
Definition no_right : right_event := RightEvent (Pt 0 0) 0.
Definition lft (s : state) (i : nat) : left_event := nth i (lefts s) no_left.
Definition rgt (s : state) (r : nat) : right_event := nth r (rights s) no_right.

Fixpoint update {A} (l : list A) (i : nat) (f : A -> A) : list A :=
  match l, i with
  | [], _ => []
  | x :: r, O => f x :: r
  | x :: r, S j => x :: update r j f
  end.
Definition set_right (r : nat) (e : left_event) : left_event :=
  LeftEvent (l_start e) r (l_first e) (l_interior e) (l_other e) (l_is_overlap e) (l_kind e) (l_result e) (l_below e).
Definition set_left (i : nat) (e : right_event) : right_event := RightEvent (r_start e) i.

(** event.py 24-36, 39-60: is_left, start, opposite, end; 115-146 and others: from_first_operand *)
Definition is_left (e : event) : bool := match e with EL _ => true | ER _ => false end.
Definition left_of (s : state) (e : event) : nat :=
  match e with EL i => i | ER r => r_left (rgt s r) end.
Definition end_of (s : state) (i : nat) : point := r_start (rgt s (l_right (lft s i))).
Definition ev_start (s : state) (e : event) : point :=
  match e with EL i => l_start (lft s i) | ER r => r_start (rgt s r) end.
Definition ev_end (s : state) (e : event) : point :=
  match e with EL i => end_of s i | ER r => l_start (lft s (r_left (rgt s r))) end.
Definition ev_first (s : state) (e : event) : bool := l_first (lft s (left_of s e)).
Definition seg_of (s : state) (i : nat) : segment := Seg (l_start (lft s i)) (end_of s i).
(** utils.py 108-109: to_endpoints *)
Definition ev_segment (s : state) (e : event) : segment := Seg (ev_start s e) (ev_end s e).

(** events_queue.py 36-72: BinaryEventsQueueKey.__lt__ *)
Definition binary_key_ltb (s : state) (ev other : event) : bool :=
  let start := ev_start s ev in
  let other_start := ev_start s other in
  if negb (Qc_eqb (px start) (px other_start)) then Qc_ltb (px start) (px other_start)
  else if negb (Qc_eqb (py start) (py other_start)) then Qc_ltb (py start) (py other_start)
  else if negb (Bool.eqb (is_left ev) (is_left other)) then negb (is_left ev)
  else
    match orient start (ev_end s ev) (ev_end s other) with
    | COLLINEAR => ev_first s other
    | o => orientation_eqb o (if is_left ev then COUNTERCLOCKWISE else CLOCKWISE)
    end.
(** events_queue.py 75-106: NaryEventsQueueKey.__lt__ *)
Definition nary_key_ltb (s : state) (ev other : event) : bool :=
  let start := ev_start s ev in
  let other_start := ev_start s other in
  if negb (Qc_eqb (px start) (px other_start)) then Qc_ltb (px start) (px other_start)
  else if negb (Qc_eqb (py start) (py other_start)) then Qc_ltb (py start) (py other_start)
  else if negb (Bool.eqb (is_left ev) (is_left other)) then negb (is_left ev)
  else orientation_eqb (orient start (ev_end s ev) (ev_end s other))
                       (if is_left ev then COUNTERCLOCKWISE else CLOCKWISE).
Definition key_ltb (k : kind) : state -> event -> event -> bool :=
  match k with Nary => nary_key_ltb | _ => binary_key_ltb end.

(** sweep_line.py 132-146 and 186-200: comparison of collinear segments by
    their endpoints, common to both orders. *)
Definition collinear_ltb (start end_ other_start other_end : point) : bool :=
  if Qc_eqb (px start) (px other_start)
  then (if negb (Qc_eqb (py start) (py other_start)) then Qc_ltb (py start) (py other_start)
        else if negb (Qc_eqb (py end_) (py other_end)) then Qc_ltb (py end_) (py other_end)
        else Qc_ltb (px end_) (px other_end))
  else if negb (Qc_eqb (py start) (py other_start)) then Qc_ltb (py start) (py other_start)
  else Qc_ltb (px start) (px other_start).
(** sweep_line.py 147-158 and 201-212: comparison of non-collinear segments,
    common to both orders. *)
Definition crossing_ltb (start end_ other_start other_end : point) : bool :=
  let other_start_orientation := orient start end_ other_start in
  let other_end_orientation := orient start end_ other_end in
  let start_orientation := orient other_start other_end start in
  let end_orientation := orient other_start other_end end_ in
  if orientation_eqb start_orientation end_orientation then orientation_eqb start_orientation CLOCKWISE
  else if orientation_eqb other_start_orientation COLLINEAR then orientation_eqb other_end_orientation COUNTERCLOCKWISE
  else if orientation_eqb start_orientation COLLINEAR then orientation_eqb end_orientation CLOCKWISE
  else if orientation_eqb end_orientation COLLINEAR then orientation_eqb start_orientation CLOCKWISE
  else orientation_eqb other_start_orientation COUNTERCLOCKWISE.

(** sweep_line.py 112-158: BinarySweepLineKey.__lt__ *)
Definition binary_line_ltb (s : state) (ev other : nat) : bool :=
  if Nat.eqb ev other then false
  else
    let start := l_start (lft s ev) in let end_ := end_of s ev in
    let other_start := l_start (lft s other) in let other_end := end_of s other in
    let other_start_orientation := orient start end_ other_start in
    let other_end_orientation := orient start end_ other_end in
    if orientation_eqb other_start_orientation other_end_orientation
    then (if negb (orientation_eqb other_start_orientation COLLINEAR)
          then orientation_eqb other_start_orientation COUNTERCLOCKWISE
          else if negb (Bool.eqb (l_first (lft s ev)) (l_first (lft s other))) then l_first (lft s ev)
          else collinear_ltb start end_ other_start other_end)
    else crossing_ltb start end_ other_start other_end.
(** sweep_line.py 169-212: NarySweepLineKey.__lt__ *)
Definition nary_line_ltb (s : state) (ev other : nat) : bool :=
  if Nat.eqb ev other then false
  else
    let start := l_start (lft s ev) in let end_ := end_of s ev in
    let other_start := l_start (lft s other) in let other_end := end_of s other in
    let other_start_orientation := orient start end_ other_start in
    let other_end_orientation := orient start end_ other_end in
    if orientation_eqb other_start_orientation other_end_orientation
    then (if negb (orientation_eqb other_start_orientation COLLINEAR)
          then orientation_eqb other_start_orientation COUNTERCLOCKWISE
          else collinear_ltb start end_ other_start other_end)
    else crossing_ltb start end_ other_start other_end.
Definition line_ltb (k : kind) : state -> nat -> nat -> bool :=
  match k with Nary => nary_line_ltb | _ => binary_line_ltb end.

(** What is left open about the external containers: which of the least
    elements the priority queue (package prioq) yields, and the shape of the
    red-black tree (package dendroid) at every moment, given as the position
    of the root of the subtree holding the given values. *)
Record oracle := Oracle {
  o_pick : nat -> list event -> nat;
  o_shape : nat -> list nat -> nat
}.

(** PriorityQueue.pop: one of the events with no event less than it. *)
Definition least (ltb : event -> event -> bool) (q : list event) : list event :=
  filter (fun e => forallb (fun e' => event_eqb e' e || negb (ltb e' e)) q) q.
Definition pop (k : kind) (pick : list event -> nat) (s : state) : res (event * state) :=
  match least (key_ltb k s) (queue s) with
  | [] => Err Unordered
  | e0 :: l =>
      let e := nth (pick (e0 :: l) mod length (e0 :: l)) (e0 :: l) e0 in
      Ok (e, State (lefts s) (rights s) (filter (fun e' => negb (event_eqb e' e)) (queue s)) (line s))
  end.

(** Search in the tree: whether the value is found, and its place in order. *)
Fixpoint locate (ltb : nat -> nat -> bool) (shape : list nat -> nat) (fuel : nat) (l : list nat) (x : nat) : bool * nat :=
  match fuel, l with
  | S f, y0 :: _ =>
      let n := (shape l mod length l)%nat in
      let y := nth n l y0 in
      if ltb x y then locate ltb shape f (firstn n l) x
      else if ltb y x
      then (let '(b, j) := locate ltb shape f (skipn (S n) l) x in (b, (S n + j)%nat))
      else (true, n)
  | _, _ => (false, 0%nat)
  end.
Definition search (k : kind) (shape : list nat -> nat) (s : state) (i : nat) : bool * nat :=
  locate (line_ltb k s) shape (length (line s)) (line s) i.

(** sweep_line.py 52-71 (and 82-101 for the n-ary one): __contains__, add, remove, above, below *)
Definition line_contains (k : kind) (shape : list nat -> nat) (s : state) (i : nat) : bool :=
  fst (search k shape s i).
Definition with_line (s : state) (l : list nat) : state := State (lefts s) (rights s) (queue s) l.
Definition line_add (k : kind) (shape : list nat -> nat) (i : nat) (s : state) : state :=
  let '(found, n) := search k shape s i in
  if found then s else with_line s (firstn n (line s) ++ i :: skipn n (line s)).
Definition line_remove (k : kind) (shape : list nat -> nat) (i : nat) (s : state) : res state :=
  let '(found, n) := search k shape s i in
  if found then Ok (with_line s (firstn n (line s) ++ skipn (S n) (line s))) else Err ValueError.
Definition line_above (k : kind) (shape : list nat -> nat) (s : state) (i : nat) : option nat :=
  let '(found, n) := search k shape s i in
  if found then nth_error (line s) (S n) else None.
Definition line_below (k : kind) (shape : list nat -> nat) (s : state) (i : nat) : option nat :=
  let '(found, n) := search k shape s i in
  if found then match n with O => None | S m => nth_error (line s) m end else None.

(** event.py 88-91, 127-131, 193-199, 308-314, 424-430: divide, and
    events_queue.py 187-190, 277-280, 355-358, 448-451: _divide_segment *)
Definition divide (i : nat) (p : point) (s : state) : state :=
  let e := lft s i in
  let tail := length (lefts s) in
  let mid := length (rights s) in
  State (update (lefts s) i (set_right mid)
         ++ [LeftEvent p (l_right e) (l_first e) (l_interior e) false false NONE false None])
        (update (rights s) (l_right e) (set_left tail) ++ [RightEvent p i])
        (ER mid :: EL tail :: queue s)
        (line s).

(** events_queue.py 231 (is_overlap of mixed events) *)
Definition mark_overlap (k : kind) (below ev : nat) (s : state) : state :=
  let mark e := LeftEvent (l_start e) (l_right e) (l_first e) (l_interior e) (l_other e) true (l_kind e) (l_result e) (l_below e) in
  match k with
  | Mixed => State (update (update (lefts s) below mark) ev mark) (rights s) (queue s) (line s)
  | _ => s
  end.
(** events_queue.py 414-418 (overlap_kind of shaped events) *)
Definition mark_kind (k : kind) (below ev : nat) (s : state) : state :=
  let o := if Bool.eqb (l_interior (lft s ev)) (l_interior (lft s below)) then SAME_ORIENTATION else DIFFERENT_ORIENTATION in
  let mark e := LeftEvent (l_start e) (l_right e) (l_first e) (l_interior e) (l_other e) (l_is_overlap e) o (l_result e) (l_below e) in
  match k with
  | Shaped => State (update (update (lefts s) below mark) ev mark) (rights s) (queue s) (line s)
  | _ => s
  end.

(** events_queue.py 126-172 (linear), 210-262 (mixed), 300-343 (n-ary),
    380-433 (shaped): detect_intersection.  The boolean is the value
    returned by the mixed and shaped ones. *)
Definition detect (k : kind) (below ev : nat) (s : state) : res (state * bool) :=
  let below_start := l_start (lft s below) in let below_end := end_of s below in
  let ev_start := l_start (lft s ev) in let ev_end := end_of s ev in
  match segments_relation (seg_of s below) (seg_of s ev) with
  | CROSS | TOUCH =>
      if negb (pt_eqb ev_start below_start) && negb (pt_eqb ev_end below_end)
      then
        let p := segments_intersection (seg_of s below) (seg_of s ev) in
        let s1 := if negb (pt_eqb p below_start) && negb (pt_eqb p below_end) then divide below p s else s in
        let s2 := if negb (pt_eqb p ev_start) && negb (pt_eqb p ev_end) then divide ev p s1 else s1 in
        Ok (s2, false)
      else Ok (s, false)
  | DISJOINT => Ok (s, false)
  | _ =>
      if match k with Nary => false | _ => Bool.eqb (l_first (lft s below)) (l_first (lft s ev)) end
      then Err ValueError
      else
        let s := mark_overlap k below ev s in
        let starts_equal := pt_eqb below_start ev_start in
        let '(start_min, start_max) :=
          if key_ltb k s (EL ev) (EL below) then (ev, below) else (below, ev) in
        let ends_equal := pt_eqb ev_end below_end in
        let '(end_min, end_max) :=
          if key_ltb k s (ER (l_right (lft s ev))) (ER (l_right (lft s below)))
          then (l_right (lft s ev), l_right (lft s below))
          else (l_right (lft s below), l_right (lft s ev)) in
        let end_min_start := r_start (rgt s end_min) in
        let end_max_left := r_left (rgt s end_max) in
        let start_max_start := l_start (lft s start_max) in
        if starts_equal
        then
          let s := mark_kind k below ev s in
          Ok (if ends_equal then s else divide end_max_left end_min_start s, true)
        else if ends_equal
        then Ok (divide start_min start_max_start s, false)
        else if Nat.eqb start_min end_max_left
        then Ok (divide start_min start_max_start (divide start_min end_min_start s), false)
        else Ok (divide start_min start_max_start (divide start_max end_min_start s), false)
  end.

(** event.py 64-73, 104-113, 148-159, 220-231, 318-329: from_segment_endpoints /
    from_endpoints, and events_queue.py 177-185, 267-275, 348-353, 438-446: register *)
Definition register_one (first : bool) (s : state) (seg : segment) : state :=
  let swap := pt_ltb (s_end seg) (s_start seg) in
  let i := length (lefts s) in
  let r := length (rights s) in
  State (lefts s ++ [LeftEvent (if swap then s_end seg else s_start seg) r first (negb swap) false false NONE false None])
        (rights s ++ [RightEvent (if swap then s_start seg else s_end seg) i])
        (ER r :: EL i :: queue s)
        (line s).
Definition register (first : bool) (segs : list segment) (s : state) : state :=
  fold_left (register_one first) segs s.
Definition empty_state : state := State [] [] [] [].

(** The loop shared by the sweeps: [while events_queue: event =
    events_queue.pop(); if stop: break; process; append to result].  [step]
    processes an event and gives what is appended to the result. *)
Fixpoint run (k : kind) (step : nat -> event -> state -> res (state * list event)) (stop : point -> bool)
    (o : oracle) (fuel : nat) (n : nat) (s : state) (acc : list event) : res (state * list event) :=
  match queue s with
  | [] => Ok (s, acc)
  | _ =>
    match fuel with
    | O => Err OutOfFuel
    | S f =>
      match pop k (o_pick o n) s with
      | Err e => Err e
      | Ok (ev, s1) =>
          if stop (ev_start s1 ev) then Ok (s1, acc)
          else match step n ev s1 with
               | Err e => Err e
               | Ok (s2, out) => run k step stop o f (S n) s2 (acc ++ out)
               end
      end
    end
  end.
Definition no_stop (p : point) : bool := false.
(** utils.py 76-77: to_segments_x_max, as the test [x_max < point.x]; the
    code fails on an empty sequence, where it is never called. *)
Definition segments_x_max (ss : list segment) : option Qc :=
  match ss with
  | [] => None
  | s :: r => Some (fold_left (fun m s' => Qc_max m (Qc_max (px (s_start s')) (px (s_end s')))) r
                              (Qc_max (px (s_start s)) (px (s_end s))))
  end.
Definition beyond (x_max : option Qc) (p : point) : bool :=
  match x_max with None => false | Some x => Qc_ltb x (px p) end.

(** Number of iterations that is always enough for [n] segments: every
    division is made at one of the at most [2 n + n * n] endpoints and common
    points of the segments, each lying inside of at most [n] pieces. *)
Definition enough (n : nat) : nat := (2 * n + 3 * (n * (2 * n + n * n)) + 1)%nat.
