(** Model of the sweep-based part of /repo/clipping/core/linear.py (lines
    42-329) and of the functions of planar.py delegating to it. *)
From Verif Require Import QcTac Geom Spec Pair Bounding Sweep.

(** Outcomes of [detect_intersection] where the returned value is ignored. *)
Definition detect_only (k : kind) (below ev : nat) (s : state) : res state :=
  match detect k below ev s with
  | Ok (s', _) => Ok s'
  | Err e => Err e
  end.
Definition detect_above (k : kind) (ev : nat) (above : option nat) (s : state) : res state :=
  match above with None => Ok s | Some a => detect_only k ev a s end.
Definition detect_below (k : kind) (ev : nat) (below : option nat) (s : state) : res state :=
  match below with None => Ok s | Some b => detect_only k b ev s end.

(** Body for a left event being added: linear.py 116-121 and 56-62 *)
Definition add_left (k : kind) (o : oracle) (n : nat) (i : nat) (s : state) : res state :=
  let s1 := line_add k (o_shape o (2 * n)) i s in
  let above := line_above k (o_shape o (2 * n + 1)) s1 i in
  let below := line_below k (o_shape o (2 * n + 1)) s1 i in
  match detect_above k i above s1 with
  | Err e => Err e
  | Ok s2 => detect_below k i below s2
  end.
(** Body for the left event of a right event found on the sweep line:
    linear.py 125-130, 66-70, mixed.py 96-101, holeless.py 138-143, holey.py 162-167 *)
Definition remove_left (k : kind) (o : oracle) (n : nat) (i : nat) (s : state) : res state :=
  let above := line_above k (o_shape o (2 * n)) s i in
  let below := line_below k (o_shape o (2 * n)) s i in
  match line_remove k (o_shape o (2 * n)) i s with
  | Err e => Err e
  | Ok s1 =>
      match above, below with
      | Some a, Some b => detect_only k b a s1
      | _, _ => Ok s1
      end
  end.

(** linear.py 111-130: Operation.process_event *)
Definition process_linear (o : oracle) (n : nat) (ev : event) (s : state) : res state :=
  match ev with
  | EL i => add_left Linear o n i s
  | ER r =>
      let i := r_left (rgt s r) in
      if line_contains Linear (o_shape o (2 * n)) s i then remove_left Linear o n i s else Ok s
  end.

(** Body of the loops of linear.py 137-141, 180-186, 223-229: what is
    appended is the left event, as found after processing *)
Definition step_lefts (o : oracle) (n : nat) (ev : event) (s : state) : res (state * list event) :=
  match process_linear o n ev s with
  | Err e => Err e
  | Ok s' => Ok (s', match ev with EL _ => [] | ER r => [EL (r_left (rgt s' r))] end)
  end.
(** linear.py 282-287: CompleteIntersection appends every event *)
Definition step_all (o : oracle) (n : nat) (ev : event) (s : state) : res (state * list event) :=
  match process_linear o n ev s with
  | Err e => Err e
  | Ok s' => Ok (s', [ev])
  end.

(** linear.py 103-109: Operation.fill_queue *)
Definition fill_linear (first second : list segment) : state :=
  register false second (register true first empty_state).

(** linear.py 132-142 (no stop), 174-187 (Difference), 216-230
    (Intersection): sweep *)
Definition sweep_lefts (o : oracle) (stop : point -> bool) (first second : list segment) : res (state * list event) :=
  run Linear (step_lefts o) stop o (enough (length first + length second)) 0 (fill_linear first second) [].
(** linear.py 275-288: CompleteIntersection.sweep *)
Definition sweep_all (o : oracle) (stop : point -> bool) (first second : list segment) : res (state * list event) :=
  run Linear (step_all o) stop o (enough (length first + length second)) 0 (fill_linear first second) [].

(** [min] of two maximal abscissas. *)
Definition x_max_min (a b : option Qc) : option Qc :=
  match a, b with
  | Some x, Some y => Some (Qc_min x y)
  | _, _ => None
  end.

(** itertools.groupby *)
Section Group.
  Context {A K : Type} (eqb : K -> K -> bool) (key : A -> K).
  Fixpoint group_by (l : list A) : list (K * list A) :=
    match l with
    | [] => []
    | x :: r =>
        match group_by r with
        | (k, g) :: t => if eqb (key x) k then (key x, x :: g) :: t else (key x, [x]) :: (k, g) :: t
        | [] => [(key x, [x])]
        end
    end.
End Group.
(** utils.py 21-23: all_equal, on booleans *)
Definition all_equal (l : list bool) : bool :=
  match group_by Bool.eqb (fun b => b) l with
  | _ :: _ :: _ => false
  | _ => true
  end.

(** Comparison of pairs of endpoints as tuples. *)
Definition seg_eqb (a b : segment) : bool := pt_eqb (s_start a) (s_start b) && pt_eqb (s_end a) (s_end b).
Definition seg_ltb (a b : segment) : bool :=
  pt_ltb (s_start a) (s_start b) || (pt_eqb (s_start a) (s_start b) && pt_ltb (s_end a) (s_end b)).

(** Groups of swept events with the same endpoints satisfying [test] on
    their operands, as a sorted list of segments: the common part of
    linear.py 158-166, 205-211, 303-309, 325-329 *)
Definition select (test : list bool -> bool) (swept : state * list event) : list segment :=
  let '(s, events) := swept in
  sort_by seg_ltb
    (map fst (filter (fun g => test (map (ev_first s) (snd g))) (group_by seg_eqb (ev_segment s) events))).
Definition forall_first (l : list bool) : bool := forallb (fun b => b) l.

Definition bind_res {A B} (r : res A) (f : A -> res B) : res B :=
  match r with Ok a => f a | Err e => Err e end.

(** Bounding boxes of both operands; the code raises ValueError for an empty one. *)
Definition with_boxes {A} (first second : list segment) (f : box -> box -> res A) : res A :=
  match segments_box first, segments_box second with
  | Some a, Some b => f a b
  | _, _ => Err ValueError
  end.

(** linear.py 145-172: Difference.compute; [value] is the first operand *)
Definition linear_difference (o : oracle) (value : geometry) (first second : list segment) : res geometry :=
  with_boxes first second (fun first_box second_box =>
    if disjoint_with first_box second_box then Ok value
    else
      let second := to_coupled_segments first_box second in
      match second with
      | [] => Ok value
      | _ =>
          bind_res (sweep_lefts o (beyond (segments_x_max first)) first second)
                   (fun swept => Ok (unpack_segments (select forall_first swept)))
      end).

(** linear.py 190-214: Intersection.compute *)
Definition linear_intersection (o : oracle) (first second : list segment) : res geometry :=
  with_boxes first second (fun first_box second_box =>
    if disjoint_with first_box second_box then Ok GEmpty
    else
      let first := to_coupled_segments second_box first in
      match first with
      | [] => Ok GEmpty
      | _ =>
          let second := to_coupled_segments first_box second in
          match second with
          | [] => Ok GEmpty
          | _ =>
              bind_res (sweep_lefts o (beyond (x_max_min (segments_x_max first) (segments_x_max second))) first second)
                       (fun swept => Ok (unpack_segments (select (fun l => negb (all_equal l)) swept)))
          end
      end).

(** linear.py 291-310: SymmetricDifference.compute *)
Definition linear_symmetric_difference (o : oracle) (first second : list segment) : res geometry :=
  with_boxes first second (fun first_box second_box =>
    if disjoint_with first_box second_box then Ok (GMultisegment (sort_by seg_ltb (first ++ second)))
    else bind_res (sweep_lefts o no_stop first second)
                  (fun swept => Ok (unpack_segments (select all_equal swept)))).

(** linear.py 313-329: Union.compute *)
Definition linear_union (o : oracle) (first second : list segment) : res geometry :=
  with_boxes first second (fun first_box second_box =>
    if disjoint_with first_box second_box then Ok (GMultisegment (sort_by seg_ltb (first ++ second)))
    else bind_res (sweep_lefts o no_stop first second)
                  (fun swept => Ok (GMultisegment (select (fun _ => true) swept)))).

(** linear.py 252-269: points and endpoints of segments among swept events;
    one group of events with the same start *)
Definition shared_endpoints (s : state) (group : list event) : list segment :=
  map (fun '(ev, _) => ev_segment s ev)
    (filter (fun '(ev, next) =>
               negb (Bool.eqb (ev_first s ev) (ev_first s next))
               && pt_eqb (ev_start s ev) (ev_start s next) && pt_eqb (ev_end s ev) (ev_end s next)
               && is_left ev)
            (combine group (tl group))).
Definition no_shared_segment (s : state) (group : list event) : bool :=
  forallb (fun '(ev, next) =>
             negb (negb (Bool.eqb (ev_first s ev) (ev_first s next))
                   && pt_eqb (ev_start s ev) (ev_start s next) && pt_eqb (ev_end s ev) (ev_end s next)))
          (combine group (tl group)).
Definition complete_parts (swept : state * list event) : list point * list segment :=
  let '(s, events) := swept in
  let groups := group_by pt_eqb (ev_start s) (sort_by (fun a b => seg_ltb (ev_segment s a) (ev_segment s b)) events) in
  let mixed := filter (fun g => negb (all_equal (map (ev_first s) (snd g)))) groups in
  (map fst (filter (fun g => no_shared_segment s (snd g)) mixed),
   flat_map (fun g => shared_endpoints s (snd g)) mixed).

(** linear.py 233-273: CompleteIntersection.compute *)
Definition linear_complete_intersection (o : oracle) (first second : list segment) : res geometry :=
  with_boxes first second (fun first_box second_box =>
    if disjoint_with first_box second_box then Ok GEmpty
    else
      let first := to_intersecting_segments second_box first in
      match first with
      | [] => Ok GEmpty
      | _ =>
          let second := to_intersecting_segments first_box second in
          match second with
          | [] => Ok GEmpty
          | _ =>
              bind_res (sweep_all o (beyond (x_max_min (segments_x_max first) (segments_x_max second))) first second)
                       (fun swept => let '(points, segments) := complete_parts swept in
                          Ok (unpack_linear_mix (unpack_points points) (unpack_segments segments)))
          end
      end).

(** linear.py 53-71: body of the loop of _merge_segments; what is appended
    are the endpoints of the event at that moment, i.e. a segment.  The
    event with its endpoints is carried along with the state. *)
Definition process_nary (o : oracle) (n : nat) (ev : event) (s : state) : res (state * list segment) :=
  match ev with
  | EL i =>
      if line_contains Nary (o_shape o (2 * n)) s i then Ok (s, [])
      else bind_res (add_left Nary o n i s) (fun s' => Ok (s', []))
  | ER r =>
      let i := r_left (rgt s r) in
      if line_contains Nary (o_shape o (2 * n)) s i
      then bind_res (remove_left Nary o n i s) (fun s' => Ok (s', [seg_of s' i]))
      else Ok (s, [])
  end.
(** linear.py 52-71 *)
Fixpoint run_nary (o : oracle) (fuel n : nat) (s : state) (acc : list segment) : res (list segment) :=
  match queue s with
  | [] => Ok acc
  | _ =>
    match fuel with
    | O => Err OutOfFuel
    | S f =>
        bind_res (pop Nary (o_pick o n) s) (fun '(ev, s1) =>
        bind_res (process_nary o n ev s1) (fun '(s2, out) =>
        run_nary o f (S n) s2 (acc ++ out)))
    end
  end.
(** linear.py 47-75: _merge_segments *)
Definition merge_list (o : oracle) (segments : list segment) : res (list segment) :=
  bind_res (run_nary o (enough (length segments)) 0 (register false segments empty_state) [])
           (fun endpoints => Ok (sort_by seg_ltb (map fst (group_by seg_eqb (fun x => x) endpoints)))).
(** linear.py 42-44: merge_segments *)
Definition merge_segments (o : oracle) (segments : list segment) : res geometry :=
  bind_res (merge_list o segments) (fun ss => Ok (unpack_segments ss)).

(** planar.py 1399-1438, 1650-1697, 1596-1647, 515-583, 1547-1593, 374-446, 1497-1544, 1441-1494, 237-308 *)
Definition segments_to_multisegment (o : oracle) (segments : list segment) := merge_segments o segments.
Definition unite_multisegments (o : oracle) (first second : list segment) := linear_union o first second.
Definition symmetric_subtract_multisegments (o : oracle) (first second : list segment) :=
  linear_symmetric_difference o first second.
Definition symmetric_subtract_multisegment_from_segment (o : oracle) (first : segment) (second : list segment) :=
  linear_symmetric_difference o [first] second.
Definition subtract_multisegments (o : oracle) (minuend subtrahend : list segment) :=
  linear_difference o (GMultisegment minuend) minuend subtrahend.
Definition subtract_multisegment_from_segment (o : oracle) (minuend : segment) (subtrahend : list segment) :=
  linear_difference o (GSegment minuend) [minuend] subtrahend.
Definition intersect_multisegments (o : oracle) (first second : list segment) := linear_intersection o first second.
Definition complete_intersect_multisegments (o : oracle) (first second : list segment) :=
  linear_complete_intersection o first second.
Definition complete_intersect_segment_with_multisegment (o : oracle) (first : segment) (multisegment : list segment) :=
  linear_complete_intersection o [first] multisegment.
