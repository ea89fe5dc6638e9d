(** Properties C32 and C33: sweeps of operations on polygons.  Here [o] stands
    for any behaviour of the external priority queue and tree. *)
From Verif Require Import QcTac Geom Spec SpecShape SpecSides Pair Sweep Contour Filter Mixed Tracing Shaped ShapedProps Rectangle Examples.

(** The square [0, 4] x [0, 4] with the hole [1, 3] x [1, 3] and the square
    [2, 6] x [0, 4] with the hole [3, 5] x [1, 3]: some edges overlap, in both
    directions. *)
Definition ex_left : polygon := frame (z 0) (z 0) (z 4) (z 4) (z 1) (z 1) (z 3) (z 3).
Definition ex_right : polygon := frame (z 2) (z 0) (z 6) (z 4) (z 3) (z 1) (z 5) (z 3).
Lemma ex_frames_valid : valid_polygons [ex_left] /\ valid_polygons [ex_right].
Proof. split; apply single_polygon, frame_valid; repeat split. Qed.
Definition selected (r : res (state * list event * start_ids)) : list ((Q * Q) * (Q * Q)) :=
  match r with Ok (s, events, _) => map show_segment (result_edges s events) | Err _ => [] end.

(** C32: where a segment crosses edges of operands in a single point (no
    endpoint of segments the operands are cut into), the point is on a single
    segment of the result if the result's memberships on both sides differ, and
    on none otherwise. *)
Theorem C32_edge_classification : forall op first second,
  valid_polygons first -> valid_polygons second -> first <> [] -> second <> [] ->
  exists s events, (forall o, exists ids, op_sweep op o first second = Ok (s, events, ids))
  /\ forall p q1 q2, (forall sg, made_by s sg -> ~ endpoint p sg) -> inside_segment p (Seg q1 q2) ->
       (forall x, on_segment x (Seg q1 q2) -> on_segments x (flat_map polygon_edges (first ++ second)) -> x = p) ->
       (segments_through (result_edges s events) p = 1%nat
        /\ ~ (member op (in_polygons first q1) (in_polygons second q1) <-> member op (in_polygons first q2) (in_polygons second q2)))
       \/ (segments_through (result_edges s events) p = 0%nat
           /\ (member op (in_polygons first q1) (in_polygons second q1) <-> member op (in_polygons first q2) (in_polygons second q2))).
Proof. exact polygons_sides. Qed.
Print Assumptions C32_edge_classification.

(** C33 *)
Theorem C33_selected_boundary : forall op first second,
  valid_polygons first -> valid_polygons second -> first <> [] -> second <> [] ->
  exists s events, (forall o, exists ids, op_sweep op o first second = Ok (s, events, ids))
  /\ (forall p, on_segments p (result_edges s events) -> on_segments p (flat_map polygon_edges (first ++ second)))
  /\ forall p, ~ on_segments p (flat_map polygon_edges (first ++ second)) ->
       (inside (result_edges s events) p = true <-> member op (in_polygons first p) (in_polygons second p)).
Proof. exact polygons_selected. Qed.
Print Assumptions C33_selected_boundary.
(** ... and the regions traced by holeless.py. *)
Theorem C33_traced_regions : forall first second,
  valid_regions first -> valid_regions second -> first <> [] -> second <> [] ->
  exists s events rs, (forall o, sweep_regions in_intersection o first second = Ok (s, events))
  /\ events_to_regions s events = Ok rs
  /\ (forall p, on_segments p (flat_map (fun c => contour_edges (vertices c)) rs) ->
        on_segments p (flat_map (fun c => contour_edges (vertices c)) (first ++ second)))
  /\ (forall p, ~ on_segments p (flat_map (fun c => contour_edges (vertices c)) (first ++ second)) ->
        (inside (flat_map (fun c => contour_edges (vertices c)) rs) p = true <-> in_regions first p /\ in_regions second p))
  /\ Forall (fun c => never_folds (vertices c) /\ forall j, (j < length (vertices c))%nat -> ~ straight (vertices c) j) rs.
Proof. exact regions_bounded. Qed.
Print Assumptions C33_traced_regions.

Example C33_example : valid_polygons [ex_left] /\ valid_polygons [ex_right].
Proof. exact ex_frames_valid. Qed.
Example C33_example_intersection : selected (op_sweep Meet ex_oracle [ex_left] [ex_right]) =
    [
     (2, 0, (4, 0));(2, 0, (2, 1));(2, 1, (3, 1));(2, 3, (3, 3));(2, 3, (2, 4));(2, 4, (4, 4));(3, 1, (4, 1));(3, 3, (4, 3));(4, 0, (4, 1));(4, 3, (4, 4))]%Q.
Proof. vm_compute. reflexivity. Qed.
Example C33_example_difference : selected (op_sweep Minus ex_oracle [ex_left] [ex_right]) =
    [
     (0, 0, (2, 0));(0, 0, (0, 4));(0, 4, (2, 4));(1, 1, (2, 1));(1, 1, (1, 3));(1, 3, (2, 3));(2, 0, (2, 1));(2, 3, (2, 4));(3, 1, (4, 1));(3, 1, (3, 3));(3, 3, (4, 3));(4, 1, (4, 3))]%Q.
Proof. vm_compute. reflexivity. Qed.
Example C33_example_symmetric_difference : selected (op_sweep Differ ex_oracle [ex_left] [ex_right]) =
    [
     (0, 0, (2, 0));(0, 0, (0, 4));(0, 4, (2, 4));(1, 1, (2, 1));(1, 1, (1, 3));(1, 3, (2, 3));(2, 0, (2, 1));(2, 1, (3, 1));(2, 1, (2, 3));(2, 3, (3, 3));(2, 3, (2, 4));(3, 1, (4, 1));(3, 3, (4, 3));(4, 0, (6, 0));(4, 0, (4, 1));(4, 1, (5, 1));(4, 1, (4, 3));(4, 3, (5, 3));(4, 3, (4, 4));(4, 4, (6, 4));(5, 1, (5, 3));(6, 0, (6, 4))]%Q.
Proof. vm_compute. reflexivity. Qed.
Example C33_example_union : selected (op_sweep Join ex_oracle [ex_left] [ex_right]) =
    [
     (0, 0, (2, 0));(0, 0, (0, 4));(0, 4, (2, 4));(1, 1, (2, 1));(1, 1, (1, 3));(1, 3, (2, 3));(2, 0, (4, 0));(2, 1, (2, 3));(2, 4, (4, 4));(4, 0, (6, 0));(4, 1, (5, 1));(4, 1, (4, 3));(4, 3, (5, 3));(4, 4, (6, 4));(5, 1, (5, 3));(6, 0, (6, 4))]%Q.
Proof. vm_compute. reflexivity. Qed.
(** The vertical edge shared by both holes is crossed. *)
Definition through (op : operation) (p : point) : nat :=
  match op_sweep op ex_oracle [ex_left] [ex_right] with Ok (s, events, _) => segments_through (result_edges s events) p | Err _ => 2%nat end.
Example C32_example : map (fun op => through op (Pt (z 3) (z 2))) [Meet; Minus; Differ; Join] = [0; 1; 0; 0]%nat.
Proof. vm_compute. reflexivity. Qed.
(** Rectangles with edges overlapping. *)
Definition ex_slab : contour := rectangle (z 0) (z 0) (z 4) (z 2).
Definition ex_block : contour := rectangle (z 2) (z 0) (z 6) (z 3).
Example C33_regions_example : valid_regions [ex_slab] /\ valid_regions [ex_block].
Proof. split; apply single_region, rectangle_simple; reflexivity. Qed.
Definition traced_of_sweep (r : res (state * list event)) : list (list (Q * Q)) :=
  match r with
  | Ok (s, events) => match events_to_regions s events with Ok rs => map (fun c => map show_point (vertices c)) rs | Err _ => [] end
  | Err _ => []
  end.
Example C33_regions_example_result : traced_of_sweep (sweep_regions in_intersection ex_oracle [ex_slab] [ex_block])
  = [[(2, 0); (4, 0); (4, 2); (2, 2)]]%Q.
Proof. vm_compute. reflexivity. Qed.
