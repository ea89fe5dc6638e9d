(** Model of the two-segment and segment/multisegment functions of
    /repo/clipping/core/linear.py (lines 332-593) and of unpacking.py. *)
From Verif Require Import QcTac Geom Spec.

(** Python's tuple unpacking of [sorted([a, b, c, d])]; sorting keeps the
    number of elements, so the last branch is never taken. *)
Definition sorted4 (a b c d : point) : point * point * point * point :=
  match sorted_points [a; b; c; d] with
  | [w; x; y; z] => (w, x, y, z)
  | _ => (a, b, c, d)
  end.

Definition pt_min (a b : point) : point := if pt_ltb b a then b else a.
Definition pt_max (a b : point) : point := if pt_ltb a b then b else a.

(** unpacking.py 72-78: unpack_segments *)
Definition unpack_segments (ss : list segment) : geometry :=
  match ss with
  | [] => GEmpty
  | [s] => GSegment s
  | _ => GMultisegment ss
  end.

(** unpacking.py 47-49: unpack_points *)
Definition unpack_points (ps : list point) : geometry :=
  match ps with [] => GEmpty | _ => GMultipoint ps end.

(** [x is context.empty] *)
Definition is_empty (g : geometry) : bool := match g with GEmpty => true | _ => false end.

(** unpacking.py 19-27: unpack_linear_mix *)
Definition unpack_linear_mix (discrete linear : geometry) : geometry :=
  if is_empty discrete then linear
  else if is_empty linear then discrete
  else GMix discrete linear GEmpty.

(** unpacking.py 30-44: unpack_mix *)
Definition unpack_mix (discrete linear shaped : geometry) : geometry :=
  if is_empty discrete
  then (if is_empty linear then shaped
        else if is_empty shaped then linear
        else GMix discrete linear shaped)
  else (if is_empty shaped && is_empty linear then discrete
        else GMix discrete linear shaped).

(** unpacking.py 52-58: unpack_polygons *)
Definition unpack_polygons (ps : list polygon) : geometry :=
  match ps with
  | [] => GEmpty
  | [p] => GPolygon p
  | _ => GMultipolygon ps
  end.

(** unpacking.py 61-69: unpack_regions *)
Definition unpack_regions (rs : list contour) : geometry :=
  match rs with
  | [] => GEmpty
  | [r] => GPolygon (Polygon r [])
  | _ => GMultipolygon (map (fun r => Polygon r []) rs)
  end.

(** linear.py 588-593: _intersect_segments_overlap *)
Definition intersect_segments_overlap (first second : segment) : segment :=
  let '(_, start, end_, _) :=
    sorted4 (s_start first) (s_end first) (s_start second) (s_end second) in
  Seg start end_.

(** linear.py 501-520: _subtract_segments_composite (as the list of
    segments of the returned geometry: one for a Segment, two for a Multisegment) *)
Definition subtract_segments_composite (minuend subtrahend : segment) : list segment :=
  let '(left_start, left_end, right_start, right_end) :=
    sorted4 (s_start minuend) (s_end minuend) (s_start subtrahend) (s_end subtrahend) in
  let from_subtrahend p := pt_eqb p (s_start subtrahend) || pt_eqb p (s_end subtrahend) in
  if from_subtrahend left_start then [Seg right_start right_end]
  else if from_subtrahend left_end
  then (if from_subtrahend right_start
        then (if pt_eqb right_start right_end
              then [Seg left_start left_end]
              else [Seg left_start left_end; Seg right_start right_end])
        else [Seg left_start left_end])
  else [Seg left_start right_start].

(** linear.py 523-530: _subtract_segments_overlap *)
Definition subtract_segments_overlap (minuend subtrahend : segment) : segment :=
  let '(left_start, left_end, right_start, right_end) :=
    sorted4 (s_start minuend) (s_end minuend) (s_start subtrahend) (s_end subtrahend) in
  if pt_eqb left_start (s_start minuend) || pt_eqb left_start (s_end minuend)
  then Seg left_start left_end
  else Seg right_start right_end.

(** linear.py 533-540: _symmetric_subtract_segments_overlap *)
Definition symmetric_subtract_segments_overlap (minuend subtrahend : segment) : geometry :=
  let '(left_start, left_end, right_start, right_end) :=
    sorted4 (s_start minuend) (s_end minuend) (s_start subtrahend) (s_end subtrahend) in
  GMultisegment [Seg left_start left_end; Seg right_start right_end].

(** linear.py 543-551: _unite_segments_cross *)
Definition unite_segments_cross (first second : segment) : geometry :=
  let cross_point := segments_intersection first second in
  GMultisegment [Seg (s_start first) cross_point; Seg (s_start second) cross_point;
                 Seg cross_point (s_end first); Seg cross_point (s_end second)].

(** linear.py 554-559: _unite_segments_overlap *)
Definition unite_segments_overlap (first second : segment) : geometry :=
  let '(start, _, _, end_) :=
    sorted4 (s_start first) (s_end first) (s_start second) (s_end second) in
  GSegment (Seg start end_).

(** linear.py 562-585: _unite_segments_touch *)
Definition unite_segments_touch (first second : segment) : geometry :=
  let collinear a b c := orientation_eqb (orient a b c) COLLINEAR in
  if (negb (pt_eqb (s_start first) (s_start second))
      || negb (collinear (s_start first) (s_end first) (s_end second)))
     && (negb (pt_eqb (s_start first) (s_end second))
         || negb (collinear (s_start first) (s_end first) (s_start second)))
     && (negb (pt_eqb (s_end first) (s_start second))
         || negb (collinear (s_end first) (s_start first) (s_end second)))
     && (negb (pt_eqb (s_end first) (s_end second))
         || negb (collinear (s_end first) (s_start first) (s_start second)))
  then GMultisegment [first; second]
  else GSegment (Seg (pt_min (pt_min (pt_min (s_start first) (s_end first)) (s_start second)) (s_end second))
                     (pt_max (pt_max (pt_max (s_start first) (s_end first)) (s_start second)) (s_end second))).

(** linear.py 332-347: intersect_segments *)
Definition intersect_segments (first second : segment) : geometry :=
  match segments_relation first second with
  | DISJOINT => GEmpty
  | TOUCH | CROSS => GMultipoint [segments_intersection first second]
  | EQUAL | COMPONENT => GSegment first
  | COMPOSITE => GSegment second
  | _ => GSegment (intersect_segments_overlap first second)
  end.

(** linear.py 350-365: subtract_segments *)
Definition subtract_segments (minuend subtrahend : segment) : geometry :=
  match segments_relation minuend subtrahend with
  | COMPONENT | EQUAL => GEmpty
  | DISJOINT | TOUCH | CROSS => GSegment minuend
  | OVERLAP => GSegment (subtract_segments_overlap minuend subtrahend)
  | _ => unpack_segments (subtract_segments_composite minuend subtrahend)
  end.

(** linear.py 368-389: symmetric_subtract_segments *)
Definition symmetric_subtract_segments (first second : segment) : geometry :=
  match segments_relation first second with
  | DISJOINT => GMultisegment [first; second]
  | EQUAL => GEmpty
  | TOUCH => unite_segments_touch first second
  | CROSS => unite_segments_cross first second
  | OVERLAP => symmetric_subtract_segments_overlap first second
  | COMPOSITE => unpack_segments (subtract_segments_composite first second)
  | _ => unpack_segments (subtract_segments_composite second first)
  end.

(** linear.py 392-407: unite_segments *)
Definition unite_segments (first second : segment) : geometry :=
  match segments_relation first second with
  | DISJOINT => GMultisegment [first; second]
  | EQUAL | COMPOSITE => GSegment first
  | COMPONENT => GSegment second
  | TOUCH => unite_segments_touch first second
  | CROSS => unite_segments_cross first second
  | _ => unite_segments_overlap first second
  end.

(** linear.py 440-457: _intersect_segment_with_multisegment *)
Definition intersect_segment_with_multisegment_list (s : segment) (ms : list segment) : list segment :=
  flat_map (fun sub =>
    match segments_relation s sub with
    | DISJOINT | TOUCH | CROSS => []
    | EQUAL | COMPONENT => [s]
    | COMPOSITE => [sub]
    | _ => [intersect_segments_overlap s sub]
    end) ms.

(** linear.py 460-498: _subtract_segment_from_multisegment.  The COMPONENT
    branch repeats the code of _subtract_segments_composite with
    [minuend = sub_segment] and [subtrahend = segment]. *)
Fixpoint subtract_segment_from_multisegment_list (ms : list segment) (s : segment) : list segment :=
  match ms with
  | [] => []
  | sub :: rest =>
      match segments_relation s sub with
      | EQUAL => rest
      | COMPONENT => subtract_segments_composite sub s ++ rest
      | CROSS =>
          let cross_point := segments_intersection sub s in
          Seg (s_start sub) cross_point :: Seg cross_point (s_end sub)
            :: subtract_segment_from_multisegment_list rest s
      | OVERLAP => subtract_segments_overlap sub s :: subtract_segment_from_multisegment_list rest s
      | COMPOSITE => subtract_segment_from_multisegment_list rest s
      | _ => sub :: subtract_segment_from_multisegment_list rest s
      end
  end.

(** linear.py 410-417: intersect_segment_with_multisegment *)
Definition intersect_segment_with_multisegment (s : segment) (ms : list segment) : geometry :=
  unpack_segments (intersect_segment_with_multisegment_list s ms).

(** linear.py 420-427: subtract_segment_from_multisegment *)
Definition subtract_segment_from_multisegment (ms : list segment) (s : segment) : geometry :=
  unpack_segments (subtract_segment_from_multisegment_list ms s).

(** linear.py 430-437: unite_segment_with_multisegment *)
Definition unite_segment_with_multisegment (s : segment) (ms : list segment) : geometry :=
  unpack_segments (subtract_segment_from_multisegment_list ms s ++ [s]).
