(** Properties C26 and C27: sweeps of mixed.py, holeless.py and holey.py (for
    ones of linear.py see PropLinear.v).  Here [o] stands for any behaviour of
    the external priority queue and tree. *)
From Verif Require Import QcTac Geom Spec SpecShape SpecSides Pair Sweep Linear Labelled Contour Filter Mixed Tracing Shaped SpecSweep SweepPieces Rectangle Examples PropMixed PropShaped.

(** C26 *)
Theorem C26_mixed_pieces : forall segments polygons x_max (wanted : bool),
  non_overlapping segments -> non_overlapping (flat_map polygon_oriented_edges polygons) ->
  exists s events, cut_into segments (flat_map polygon_oriented_edges polygons) x_max s /\ all_in_reach x_max s events
  /\ forall o, sweep_mixed out_all (if wanted then mixed_in else mixed_out) o (beyond x_max) segments polygons = Ok (s, events)
     /\ sweep_mixed out_left (if wanted then mixed_in else mixed_out) o (beyond x_max) segments polygons = Ok (s, filter is_left events)
     /\ sweep_mixed out_right (if wanted then mixed_in else mixed_out) o (beyond x_max) segments polygons
        = Ok (s, map (fun ev => EL (left_of s ev)) (filter (fun ev => negb (is_left ev)) events)).
Proof. exact mixed_pieces. Qed.
Print Assumptions C26_mixed_pieces.
Theorem C26_holeless_pieces : forall op first second,
  non_overlapping (flat_map region_edges first) -> non_overlapping (flat_map region_edges second) ->
  exists s events, cut_into (flat_map region_edges first) (flat_map region_edges second) (x_max_min (regions_x_max first) (regions_x_max second)) s
  /\ all_in_reach (x_max_min (regions_x_max first) (regions_x_max second)) s events
  /\ forall o, sweep_regions (op_test op) o first second = Ok (s, events).
Proof. exact regions_pieces. Qed.
Print Assumptions C26_holeless_pieces.
Theorem C26_holey_pieces : forall op first second,
  valid_polygons first -> valid_polygons second -> first <> [] -> second <> [] ->
  exists s events, cut_into (flat_map polygon_oriented_edges first) (flat_map polygon_oriented_edges second) (op_x_max op first second) s
  /\ all_in_reach (op_x_max op first second) s events
  /\ forall o, exists ids, op_sweep op o first second = Ok (s, events, ids).
Proof. exact polygons_pieces. Qed.
Print Assumptions C26_holey_pieces.
Definition pieces_of (r : res (state * list event * start_ids)) : list ((Q * Q) * (Q * Q)) :=
  match r with Ok (s, _, _) => map (fun i => show_segment (seg_of s i)) (seq 0 (length (lefts s))) | Err _ => [] end.
Example C26_example : valid_polygons [ex_left] /\ valid_polygons [ex_right].
Proof. exact ex_frames_valid. Qed.
Example C26_example_pieces : length (pieces_of (op_sweep Join ex_oracle [ex_left] [ex_right])) = 28%nat.
Proof. vm_compute. reflexivity. Qed.

(** C27 *)
Theorem C27_mixed_order : forall segments polygons (wanted : bool) s,
  non_overlapping segments -> non_overlapping (flat_map polygon_oriented_edges polygons) ->
  sweep_state Mixed false (if wanted then mixed_in else mixed_out) (fill_mixed segments polygons) s ->
  line_ordered Mixed s /\ goes_on Mixed false (if wanted then mixed_in else mixed_out) s.
Proof. exact mixed_order. Qed.
Print Assumptions C27_mixed_order.
Theorem C27_holeless_order : forall op first second s,
  non_overlapping (flat_map region_edges first) -> non_overlapping (flat_map region_edges second) ->
  sweep_state Shaped false (op_test op) (fill_regions first second) s ->
  line_ordered Shaped s /\ goes_on Shaped false (op_test op) s.
Proof. exact regions_order. Qed.
Print Assumptions C27_holeless_order.
Theorem C27_holey_order : forall op first second s,
  non_overlapping (flat_map polygon_oriented_edges first) -> non_overlapping (flat_map polygon_oriented_edges second) ->
  sweep_state Shaped true (op_test op) (fill_polygons first second) s ->
  line_ordered Shaped s /\ goes_on Shaped true (op_test op) s.
Proof. exact polygons_order. Qed.
Print Assumptions C27_holey_order.
(** Six edges are on the line in the middle of the sweep. *)
Definition ex_midway : state := advance Shaped true in_union ex_oracle 16 (fill_polygons [ex_left] [ex_right]).
Example C27_holey_example : sweep_state Shaped true (op_test Join) (fill_polygons [ex_left] [ex_right]) ex_midway /\ length (line ex_midway) = 6%nat.
Proof. split; [apply advance_state, state_start|]. vm_compute. reflexivity. Qed.
