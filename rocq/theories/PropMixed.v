(** Properties C28 to C31: operations on segments and polygons.  Here
    [o] stands for any behaviour of the external priority queue and tree, and
    [x] for the functions of package orient, which are assumed to be right. *)
From Coq Require Import Sorted.
From Verif Require Import QcTac Geom Spec SpecShape SpecLocate Pair Sweep Filter Mixed MixedProps MixedMinus Locate Rectangle Examples.

(** The assumption about orient can be met. *)
Example locators_example : right_locators reference_locators.
Proof. exact reference_right. Qed.
(** The square [0, 4] x [0, 4] with the hole [1, 3] x [1, 3]. *)
Definition ex_frame : polygon := frame (z 0) (z 0) (z 4) (z 4) (z 1) (z 1) (z 3) (z 3).
Lemma ex_frame_valid : valid_polygon ex_frame.
Proof. apply frame_valid; repeat split. Qed.
Definition ex_linear : list segment := [sg (-1) 2 5 2; sg 0 0 4 4; sg 4 3 4 5; sg (-1) 4 0 4; sg 2 5 6 5].
Lemma ex_linear_valid : non_overlapping ex_linear.
Proof. apply all_apart_non_overlapping; vm_compute; reflexivity. Qed.

Definition ex_at_hole : list segment := [sg 1 1 1 3; sg 1 2 2 2].
Lemma ex_at_hole_left : right_locators reference_locators /\ non_overlapping ex_at_hole /\ valid_polygon ex_frame /\ ex_at_hole <> []
  /\ exists g, (forall o, subtract_polygon_from_multisegment reference_locators o ex_at_hole ex_frame = Ok g)
  /\ ~ part_out (segments_of g) ex_at_hole (in_polygon ex_frame) (inside_polygon ex_frame).
Proof.
  split; [exact reference_right|]. split; [apply all_apart_non_overlapping; vm_compute; reflexivity|]. split; [exact ex_frame_valid|]. split; [discriminate|].
  exists (GMultisegment ex_at_hole). split; [intro o; vm_compute; reflexivity|]. intros (_ & _ & _ & _ & F).
  apply (F (sg 1 1 1 3) (pt 1 2)); [left; reflexivity| |].
  - split; [|split; intro E; apply (f_equal (fun p => Qeq_bool (py p) (z 2))) in E; vm_compute in E; discriminate E].
    apply on_north; [reflexivity|]. repeat split; discriminate.
  - apply in_frame; [repeat split|repeat split|]. split; [repeat split; discriminate|]. intros (K & _). discriminate K.
Qed.

(** C28 *)
Theorem C28_intersect_multisegment_with_multipolygon : forall x ss ps, right_locators x ->
  non_overlapping ss -> valid_polygons ps -> ss <> [] -> ps <> [] ->
  exists g, (forall o, intersect_multisegment_with_multipolygon x o ss ps = Ok g)
  /\ part_in g ss (in_polygons ps) /\ canonical g.
Proof. exact (fun x ss ps Hx => intersect_multi_multi x Hx ss ps). Qed.
Print Assumptions C28_intersect_multisegment_with_multipolygon.
Theorem C28_intersect_segment_with_multipolygon : forall x s ps, right_locators x ->
  proper s -> valid_polygons ps -> ps <> [] ->
  exists g, (forall o, intersect_segment_with_multipolygon x o s ps = Ok g)
  /\ part_in g [s] (in_polygons ps) /\ canonical g.
Proof. exact (fun x s ps Hx => intersect_segment_multi x Hx s ps). Qed.
Print Assumptions C28_intersect_segment_with_multipolygon.
Theorem C28_intersect_multisegment_with_polygon : forall x ss p, right_locators x ->
  non_overlapping ss -> valid_polygon p -> ss <> [] ->
  exists g, (forall o, intersect_multisegment_with_polygon x o ss p = Ok g)
  /\ part_in g ss (in_polygon p) /\ canonical g.
Proof. exact (fun x ss p Hx => intersect_multi_polygon x Hx ss p). Qed.
Print Assumptions C28_intersect_multisegment_with_polygon.
Theorem C28_intersect_segment_with_polygon : forall x s p, right_locators x ->
  proper s -> valid_polygon p ->
  exists g, (forall o, intersect_segment_with_polygon x o s p = Ok g)
  /\ part_in g [s] (in_polygon p) /\ canonical g.
Proof. exact (fun x s p Hx => intersect_segment_polygon x Hx s p). Qed.
Print Assumptions C28_intersect_segment_with_polygon.
Example C28_example : valid_polygon ex_frame /\ non_overlapping ex_linear.
Proof. exact (conj ex_frame_valid ex_linear_valid). Qed.
Example C28_example_result : shown (intersect_multisegment_with_polygon reference_locators ex_oracle ex_linear ex_frame)
  = [((0, 0), (1, 1)); ((0, 2), (1, 2)); ((3, 2), (4, 2)); ((3, 3), (4, 4)); ((4, 3), (4, 4))]%Q.
Proof. vm_compute. reflexivity. Qed.

(** C29: the last clause bounds what is left on the boundary of polygons: pieces
    of the result run along a polygon only if it has no inner points in the box of
    the linear operand. *)
Theorem C29_subtract_multipolygon_from_multisegment : forall x ss ps, right_locators x ->
  non_overlapping ss -> valid_polygons ps -> ss <> [] -> ps <> [] ->
  exists g, (forall o, subtract_multipolygon_from_multisegment x o ss ps = Ok g)
  /\ points_of g = [] /\ polygons_of g = []
  /\ part_off (segments_of g) ss (in_polygons ps) (inside_polygons ps)
  /\ (valid_multisegment ss -> valid_multisegment (segments_of g))
  /\ (g = GMultisegment ss \/ canonical g) /\ along_outer (segments_of g) ss ps.
Proof. exact (fun x ss ps Hx => minus_multi_multi x Hx ss ps). Qed.
Print Assumptions C29_subtract_multipolygon_from_multisegment.
Theorem C29_subtract_multipolygon_from_segment : forall x s ps, right_locators x ->
  proper s -> valid_polygons ps -> ps <> [] ->
  exists g, (forall o, subtract_multipolygon_from_segment x o s ps = Ok g)
  /\ points_of g = [] /\ polygons_of g = []
  /\ part_off (segments_of g) [s] (in_polygons ps) (inside_polygons ps)
  /\ valid_multisegment (segments_of g) /\ canonical g /\ along_outer (segments_of g) [s] ps.
Proof. exact (fun x s ps Hx => minus_segment_multi x Hx s ps). Qed.
Print Assumptions C29_subtract_multipolygon_from_segment.
Theorem C29_subtract_polygon_from_multisegment : forall x ss p, right_locators x ->
  non_overlapping ss -> valid_polygon p -> ss <> [] ->
  exists g, (forall o, subtract_polygon_from_multisegment x o ss p = Ok g)
  /\ points_of g = [] /\ polygons_of g = []
  /\ part_off (segments_of g) ss (in_polygon p) (inside_polygon p)
  /\ (valid_multisegment ss -> valid_multisegment (segments_of g))
  /\ (g = GMultisegment ss \/ canonical g) /\ along_outer (segments_of g) ss [p].
Proof. exact (fun x ss p Hx => minus_multi_polygon x Hx ss p). Qed.
Print Assumptions C29_subtract_polygon_from_multisegment.
Theorem C29_subtract_polygon_from_segment : forall x s p, right_locators x ->
  proper s -> valid_polygon p ->
  exists g, (forall o, subtract_polygon_from_segment x o s p = Ok g)
  /\ points_of g = [] /\ polygons_of g = []
  /\ part_off (segments_of g) [s] (in_polygon p) (inside_polygon p)
  /\ valid_multisegment (segments_of g) /\ canonical g /\ along_outer (segments_of g) [s] [p].
Proof. exact (fun x s p Hx => minus_segment_polygon x Hx s p). Qed.
Print Assumptions C29_subtract_polygon_from_segment.
Example C29_example_result : shown (subtract_polygon_from_multisegment reference_locators ex_oracle ex_linear ex_frame)
  = [((-1, 2), (0, 2)); ((-1, 4), (0, 4)); ((1, 1), (2, 2)); ((1, 2), (2, 2)); ((2, 2), (3, 2)); ((2, 2), (3, 3));
     ((4, 4), (4, 5)); ((2, 5), (4, 5)); ((4, 2), (5, 2)); ((4, 5), (6, 5))]%Q.
Proof. vm_compute. reflexivity. Qed.
(** Segments along the border are dropped, but those along a hole containing the
    box of the linear operand are left. *)
Example C29_example_border : shown (subtract_polygon_from_segment reference_locators ex_oracle (sg 0 1 0 3) ex_frame) = [].
Proof. vm_compute. reflexivity. Qed.
Theorem C29_no_pieces_on_boundary_refuted : exists x ss p, right_locators x /\ non_overlapping ss /\ valid_polygon p /\ ss <> []
  /\ exists g, (forall o, subtract_polygon_from_multisegment x o ss p = Ok g)
  /\ ~ part_out (segments_of g) ss (in_polygon p) (inside_polygon p).
Proof. exact (ex_intro _ reference_locators (ex_intro _ ex_at_hole (ex_intro _ ex_frame ex_at_hole_left))). Qed.
Print Assumptions C29_no_pieces_on_boundary_refuted.

(** C30 *)
Theorem C30_unite_multisegment_with_multipolygon : forall x ss ps, right_locators x ->
  non_overlapping ss -> valid_polygons ps -> ss <> [] -> ps <> [] ->
  exists g, (forall o, unite_multisegment_with_multipolygon x o ss ps = Ok g
                       /\ symmetric_subtract_multipolygon_from_multisegment x o ss ps = Ok g)
  /\ united_with g (GMultipolygon ps) ss (in_polygons ps) (inside_polygons ps).
Proof. exact (fun x ss ps Hx => unite_multi_multi x Hx ss ps). Qed.
Print Assumptions C30_unite_multisegment_with_multipolygon.
Theorem C30_unite_segment_with_multipolygon : forall x s ps, right_locators x ->
  proper s -> valid_polygons ps -> ps <> [] ->
  exists g, (forall o, unite_segment_with_multipolygon x o s ps = Ok g
                       /\ symmetric_subtract_multipolygon_from_segment x o s ps = Ok g)
  /\ united_with g (GMultipolygon ps) [s] (in_polygons ps) (inside_polygons ps).
Proof. exact (fun x s ps Hx => unite_segment_multi x Hx s ps). Qed.
Print Assumptions C30_unite_segment_with_multipolygon.
Theorem C30_unite_multisegment_with_polygon : forall x ss p, right_locators x ->
  non_overlapping ss -> valid_polygon p -> ss <> [] ->
  exists g, (forall o, unite_multisegment_with_polygon x o ss p = Ok g
                       /\ symmetric_subtract_polygon_from_multisegment x o ss p = Ok g)
  /\ united_with g (GPolygon p) ss (in_polygon p) (inside_polygon p).
Proof. exact (fun x ss p Hx => unite_multi_polygon x Hx ss p). Qed.
Print Assumptions C30_unite_multisegment_with_polygon.
Theorem C30_unite_segment_with_polygon : forall x s p, right_locators x ->
  proper s -> valid_polygon p ->
  exists g, (forall o, unite_segment_with_polygon x o s p = Ok g
                       /\ symmetric_subtract_polygon_from_segment x o s p = Ok g)
  /\ united_with g (GPolygon p) [s] (in_polygon p) (inside_polygon p).
Proof. exact (fun x s p Hx => unite_segment_polygon x Hx s p). Qed.
Print Assumptions C30_unite_segment_with_polygon.
Example C30_example_result : shown (unite_multisegment_with_polygon reference_locators ex_oracle ex_linear ex_frame)
  = [((-1, 2), (0, 2)); ((-1, 4), (0, 4)); ((1, 1), (2, 2)); ((1, 2), (2, 2)); ((2, 2), (3, 2)); ((2, 2), (3, 3));
     ((4, 2), (5, 2)); ((4, 4), (4, 5)); ((2, 5), (6, 5))]%Q.
Proof. vm_compute. reflexivity. Qed.
Example C30_example_shaped : unite_multisegment_with_polygon reference_locators ex_oracle [sg 1 1 1 3; sg 0 0 1 2] ex_frame = Ok (GPolygon ex_frame).
Proof. vm_compute. reflexivity. Qed.

(** C31 *)
Theorem C31_complete_intersect_multisegment_with_multipolygon : forall x ss ps, right_locators x ->
  non_overlapping ss -> valid_polygons ps -> ss <> [] -> ps <> [] ->
  exists g, (forall o, complete_intersect_multisegment_with_multipolygon x o ss ps = Ok g)
  /\ complete_part_in g ss (in_polygons ps) /\ canonical g /\ StronglySorted plt (points_of g).
Proof. exact (fun x ss ps Hx => complete_multi_multi x Hx ss ps). Qed.
Print Assumptions C31_complete_intersect_multisegment_with_multipolygon.
Theorem C31_complete_intersect_segment_with_multipolygon : forall x s ps, right_locators x ->
  proper s -> valid_polygons ps -> ps <> [] ->
  exists g, (forall o, complete_intersect_segment_with_multipolygon x o s ps = Ok g)
  /\ complete_part_in g [s] (in_polygons ps) /\ canonical g /\ StronglySorted plt (points_of g).
Proof. exact (fun x s ps Hx => complete_segment_multi x Hx s ps). Qed.
Print Assumptions C31_complete_intersect_segment_with_multipolygon.
Theorem C31_complete_intersect_multisegment_with_polygon : forall x ss p, right_locators x ->
  non_overlapping ss -> valid_polygon p -> ss <> [] ->
  exists g, (forall o, complete_intersect_multisegment_with_polygon x o ss p = Ok g)
  /\ complete_part_in g ss (in_polygon p) /\ canonical g /\ StronglySorted plt (points_of g).
Proof. exact (fun x ss p Hx => complete_multi_polygon x Hx ss p). Qed.
Print Assumptions C31_complete_intersect_multisegment_with_polygon.
Theorem C31_complete_intersect_segment_with_polygon : forall x s p, right_locators x ->
  proper s -> valid_polygon p ->
  exists g, (forall o, complete_intersect_segment_with_polygon x o s p = Ok g)
  /\ complete_part_in g [s] (in_polygon p) /\ canonical g /\ StronglySorted plt (points_of g).
Proof. exact (fun x s p Hx => complete_segment_polygon x Hx s p). Qed.
Print Assumptions C31_complete_intersect_segment_with_polygon.
Example C31_example_result :
  let r := complete_intersect_multisegment_with_polygon reference_locators ex_oracle ex_linear ex_frame in
  shown r = [((0, 0), (1, 1)); ((0, 2), (1, 2)); ((3, 2), (4, 2)); ((3, 3), (4, 4)); ((4, 3), (4, 4))]%Q /\ shown_points r = [(0, 4)]%Q.
Proof. vm_compute. split; reflexivity. Qed.
