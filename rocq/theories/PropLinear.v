(** Properties C09-C17, C26, C27, C34 and C35: sweeps over segments.  Here [o]
    stands for any behaviour of the external priority queue and tree. *)
From Coq Require Import Permutation Sorted.
From Verif Require Import QcTac Geom Spec Pair Bounding Sweep SweepCmp Linear SweepRun LinearProps NaryThms SweepOrder SpecSweep Examples.

(** C09 *)
Theorem C09_unite_multisegments : forall first second,
  non_overlapping first -> non_overlapping second -> first <> [] -> second <> [] ->
  exists g, (forall o, unite_multisegments o first second = Ok g)
  /\ points_of g = [] /\ polygons_of g = [] /\ Forall proper (segments_of g)
  /\ (forall p, in_geometry p g <-> on_segments p first \/ on_segments p second).
Proof. exact unite_exact. Qed.
Print Assumptions C09_unite_multisegments.
Example C09_example : non_overlapping ex_first /\ non_overlapping ex_second /\ ex_first <> [] /\ ex_second <> [].
Proof. exact ex_operands. Qed.
Example C09_example_result : shown (unite_multisegments ex_oracle ex_first ex_second)
  = [((0, 0), (1, 1)); ((0, 2), (2, 2)); ((0, 4), (2, 2)); ((1, 1), (2, 2)); ((2, 2), (3, 3)); ((2, 2), (4, 0)); ((2, 2), (4, 2)); ((3, 3), (4, 4))]%Q.
Proof. vm_compute. reflexivity. Qed.

(** C10 *)
Theorem C10_symmetric_subtract_multisegments : forall first second,
  non_overlapping first -> non_overlapping second -> first <> [] -> second <> [] ->
  exists g, (forall o, symmetric_subtract_multisegments o first second = Ok g)
  /\ closure_symmetric_difference g first second.
Proof. exact symmetric_exact. Qed.
Print Assumptions C10_symmetric_subtract_multisegments.
Theorem C10_symmetric_subtract_multisegment_from_segment : forall s second,
  proper s -> non_overlapping second -> second <> [] ->
  exists g, (forall o, symmetric_subtract_multisegment_from_segment o s second = Ok g)
  /\ closure_symmetric_difference g [s] second.
Proof. exact symmetric_segment_exact. Qed.
Print Assumptions C10_symmetric_subtract_multisegment_from_segment.
Example C10_example_result : shown (symmetric_subtract_multisegments ex_oracle ex_first ex_second)
  = [((0, 0), (1, 1)); ((0, 2), (2, 2)); ((0, 4), (2, 2)); ((2, 2), (4, 0)); ((2, 2), (4, 2)); ((3, 3), (4, 4))]%Q.
Proof. vm_compute. reflexivity. Qed.

(** C11: the full statement
      [... -> exists g, (forall o, intersect_multisegments o first second = Ok g) /\ common_sub_segments g first second]
    is false of the code, as segments are filtered out by the predicate of C21. *)
Theorem C11_intersect_multisegments_refuted : exists first second g p,
  valid_multisegment first /\ valid_multisegment second
  /\ (forall o, intersect_multisegments o first second = Ok g)
  /\ on_common_segment p first second /\ ~ in_geometry p g.
Proof. exact intersect_incomplete. Qed.
Print Assumptions C11_intersect_multisegments_refuted.
(** It holds unless one of overlapping segments passes the box of the other operand through its corners. *)
Theorem C11_intersect_multisegments_partial : forall first second a b,
  non_overlapping first -> non_overlapping second -> bounds first a -> bounds second b ->
  (forall s t, In s first -> In t second -> overlap s t -> box_friendly b s /\ box_friendly a t) ->
  exists g, (forall o, intersect_multisegments o first second = Ok g) /\ common_sub_segments g first second.
Proof. exact intersect_exact. Qed.
Print Assumptions C11_intersect_multisegments_partial.
(** In any case nothing else is returned. *)
Theorem C11_intersect_multisegments_sound_partial : forall first second,
  non_overlapping first -> non_overlapping second -> first <> [] -> second <> [] ->
  exists g, (forall o, intersect_multisegments o first second = Ok g)
  /\ points_of g = [] /\ polygons_of g = [] /\ Forall proper (segments_of g)
  /\ (forall p, in_geometry p g -> on_common_segment p first second).
Proof. exact intersect_sound. Qed.
Print Assumptions C11_intersect_multisegments_sound_partial.
(** What precisely is returned when boxes of operands have interior. *)
Theorem C11_intersect_multisegments_solid_partial : forall first second a b,
  non_overlapping first -> non_overlapping second -> bounds first a -> bounds second b -> solid_box a -> solid_box b ->
  exists g, (forall o, intersect_multisegments o first second = Ok g)
  /\ (forall p, in_geometry p g <-> exists s t, In s first /\ In t second /\ overlap s t /\ on_segment p s /\ on_segment p t
        /\ box_friendly b s /\ box_friendly a t).
Proof. exact intersect_solid. Qed.
Print Assumptions C11_intersect_multisegments_solid_partial.
Example C11_example : bounds ex_first ex_first_box /\ bounds ex_second ex_second_box
  /\ forall s t, In s ex_first -> In t ex_second -> overlap s t -> box_friendly ex_second_box s /\ box_friendly ex_first_box t.
Proof. exact (conj (proj1 ex_bounds) (conj (proj2 ex_bounds) ex_friendly2)). Qed.
Example C11_example_result : shown (intersect_multisegments ex_oracle2 ex_first ex_second) = [((1, 1), (2, 2)); ((2, 2), (3, 3))]%Q.
Proof. vm_compute. reflexivity. Qed.

(** C12: the full statement requires [closure_difference g minuend subtrahend] and is false for the same reason. *)
Theorem C12_subtract_multisegments_refuted : exists minuend subtrahend s t,
  valid_multisegment minuend /\ valid_multisegment subtrahend
  /\ (forall o, subtract_multisegments o minuend subtrahend = Ok (GMultisegment minuend))
  /\ In s minuend /\ In t subtrahend /\ overlap s t.
Proof. exact subtract_incomplete. Qed.
Print Assumptions C12_subtract_multisegments_refuted.
Theorem C12_subtract_multisegment_from_segment_refuted : exists minuend subtrahend t,
  proper minuend /\ valid_multisegment subtrahend
  /\ (forall o, subtract_multisegment_from_segment o minuend subtrahend = Ok (GSegment minuend))
  /\ In t subtrahend /\ overlap minuend t.
Proof. exact subtract_from_segment_incomplete. Qed.
Print Assumptions C12_subtract_multisegment_from_segment_refuted.
(** All parts of the statement but the last one hold; that one holds for segments of the
    subtrahend which do not pass the box of the minuend through its corners. *)
Theorem C12_subtract_multisegments_partial : forall minuend subtrahend,
  non_overlapping minuend -> non_overlapping subtrahend -> minuend <> [] -> subtrahend <> [] ->
  exists g, (forall o, subtract_multisegments o minuend subtrahend = Ok g)
  /\ points_of g = [] /\ polygons_of g = [] /\ Forall proper (segments_of g)
  /\ (forall p, on_segments p minuend -> ~ on_segments p subtrahend -> in_geometry p g)
  /\ (forall p, in_geometry p g -> on_segments p minuend)
  /\ (forall s t box, In s (segments_of g) -> In t subtrahend -> bounds minuend box -> box_friendly box t -> ~ overlap s t).
Proof. exact subtract_exact. Qed.
Print Assumptions C12_subtract_multisegments_partial.
Theorem C12_subtract_multisegment_from_segment_partial : forall s subtrahend,
  proper s -> non_overlapping subtrahend -> subtrahend <> [] ->
  exists g, (forall o, subtract_multisegment_from_segment o s subtrahend = Ok g)
  /\ points_of g = [] /\ polygons_of g = [] /\ Forall proper (segments_of g)
  /\ (forall p, on_segment p s -> ~ on_segments p subtrahend -> in_geometry p g)
  /\ (forall p, in_geometry p g -> on_segment p s)
  /\ (forall k t, In k (segments_of g) -> In t subtrahend -> box_friendly (segment_box s) t -> ~ overlap k t).
Proof. exact subtract_from_segment_exact. Qed.
Print Assumptions C12_subtract_multisegment_from_segment_partial.
Example C12_example_result : shown (subtract_multisegments ex_oracle ex_first ex_second)
  = [((0, 0), (1, 1)); ((0, 4), (2, 2)); ((2, 2), (4, 0)); ((3, 3), (4, 4))]%Q.
Proof. vm_compute. reflexivity. Qed.

(** C13 *)
Theorem C13_complete_intersect_multisegments : forall first second,
  non_overlapping first -> non_overlapping second -> first <> [] -> second <> [] ->
  exists g, (forall o, complete_intersect_multisegments o first second = Ok g) /\ exact_intersection g first second.
Proof. exact complete_exact. Qed.
Print Assumptions C13_complete_intersect_multisegments.
Theorem C13_complete_intersect_segment_with_multisegment : forall s second,
  proper s -> non_overlapping second -> second <> [] ->
  exists g, (forall o, complete_intersect_segment_with_multisegment o s second = Ok g) /\ exact_intersection g [s] second.
Proof. exact complete_segment_exact. Qed.
Print Assumptions C13_complete_intersect_segment_with_multisegment.
Example C13_example_result :
  let r := complete_intersect_multisegments ex_oracle [sg 0 0 4 4; sg 0 4 4 4] [sg 1 1 3 3; sg 2 0 2 6] in
  shown r = [((1, 1), (2, 2)); ((2, 2), (3, 3))]%Q /\ shown_points r = [(2, 4)]%Q.
Proof. vm_compute. split; reflexivity. Qed.

(** C14: false of the code for segments with overlaps and some shapes of the tree. *)
Theorem C14_segments_to_multisegment_refuted : exists o ss g p,
  Forall proper ss /\ segments_to_multisegment o ss = Ok g /\ on_segments p ss /\ ~ in_geometry p g.
Proof. exact merge_loses_points. Qed.
Print Assumptions C14_segments_to_multisegment_refuted.
(** It holds for segments crossing arbitrarily but having no overlaps. *)
Theorem C14_segments_to_multisegment_partial : forall ss, non_overlapping ss ->
  exists g, (forall o, segments_to_multisegment o ss = Ok g) /\ points_of g = [] /\ polygons_of g = []
  /\ (forall p, in_geometry p g <-> on_segments p ss).
Proof. exact merge_exact. Qed.
Print Assumptions C14_segments_to_multisegment_partial.
Example C14_example_result : shown (segments_to_multisegment ex_oracle ex_first)
  = [((0, 0), (2, 2)); ((0, 4), (2, 2)); ((2, 2), (4, 0)); ((2, 2), (4, 4))]%Q.
Proof. vm_compute. reflexivity. Qed.

(** C15: false of the code for segments with overlaps and some shapes of the tree. *)
Theorem C15_segments_to_multisegment_refuted : exists o ss g s t,
  Forall proper ss /\ segments_to_multisegment o ss = Ok g
  /\ In s (segments_of g) /\ In t (segments_of g) /\ s <> t /\ overlap s t.
Proof. exact merge_overlaps. Qed.
Print Assumptions C15_segments_to_multisegment_refuted.
Theorem C15_segments_to_multisegment_partial : forall ss, non_overlapping ss ->
  exists g, (forall o, segments_to_multisegment o ss = Ok g)
  /\ valid_multisegment (segments_of g) /\ canonical g /\ arranged (segments_of g).
Proof. exact merge_valid. Qed.
Print Assumptions C15_segments_to_multisegment_partial.

(** C16 *)
Theorem C16_linear_operations_total : forall first second,
  non_overlapping first -> non_overlapping second -> first <> [] -> second <> [] ->
  (exists g, forall o, unite_multisegments o first second = Ok g)
  /\ (exists g, forall o, symmetric_subtract_multisegments o first second = Ok g)
  /\ (exists g, forall o, intersect_multisegments o first second = Ok g)
  /\ (exists g, forall o, subtract_multisegments o first second = Ok g)
  /\ (exists g, forall o, complete_intersect_multisegments o first second = Ok g).
Proof. exact linear_total. Qed.
Print Assumptions C16_linear_operations_total.
Theorem C16_segment_operations_total : forall s second, proper s -> non_overlapping second -> second <> [] ->
  (exists g, forall o, symmetric_subtract_multisegment_from_segment o s second = Ok g)
  /\ (exists g, forall o, subtract_multisegment_from_segment o s second = Ok g)
  /\ (exists g, forall o, complete_intersect_segment_with_multisegment o s second = Ok g).
Proof. exact linear_segment_total. Qed.
Print Assumptions C16_segment_operations_total.

(** C17 *)
Theorem C17_linear_operations_arranged : forall first second a b,
  non_overlapping first -> non_overlapping second -> bounds first a -> bounds second b ->
  (exists g, (forall o, unite_multisegments o first second = Ok g) /\ (~ separate a b -> arranged (segments_of g)))
  /\ (exists g, (forall o, symmetric_subtract_multisegments o first second = Ok g) /\ (~ separate a b -> canonical g /\ arranged (segments_of g)))
  /\ (exists g, (forall o, intersect_multisegments o first second = Ok g) /\ canonical g /\ arranged (segments_of g))
  /\ (exists g, (forall o, subtract_multisegments o first second = Ok g)
        /\ (g = GMultisegment first \/ canonical g /\ arranged (segments_of g)))
  /\ (exists g, (forall o, complete_intersect_multisegments o first second = Ok g)
        /\ canonical g /\ arranged (segments_of g) /\ StronglySorted plt (points_of g)).
Proof. exact linear_arranged. Qed.
Print Assumptions C17_linear_operations_arranged.
Example C17_example : bounds ex_first ex_first_box /\ bounds ex_second ex_second_box.
Proof. exact ex_bounds. Qed.

(** C26: linear sweeps; [s] is the final state, [out] are the pieces. *)
Theorem C26_linear_pieces : forall first second, non_overlapping first -> non_overlapping second ->
  exists s out, (forall o, sweep_lefts o no_stop first second = Ok (s, map EL out)) /\ NoDup out
  /\ (forall i, In i out -> plt (l_start (lft s i)) (end_of s i)
       /\ exists sg, In sg (if l_first (lft s i) then first else second)
            /\ (forall p, on_segment p (seg_of s i) -> on_segment p sg)
            /\ (l_interior (lft s i) = true <-> plt (s_start sg) (s_end sg)))
  /\ (forall (b : bool) sg p, In sg (if b then first else second) -> on_segment p sg ->
       exists i, In i out /\ l_first (lft s i) = b /\ on_segment p (seg_of s i))
  /\ (forall i j, In i out -> In j out -> i <> j ->
       (seg_of s i = seg_of s j /\ l_first (lft s i) <> l_first (lft s j))
       \/ (forall p, on_segment p (seg_of s i) -> on_segment p (seg_of s j) -> endpoint p (seg_of s i) /\ endpoint p (seg_of s j))).
Proof. exact pieces_of_operands. Qed.
Print Assumptions C26_linear_pieces.

(** C27 *)
Theorem C27_sweep_line_order : forall first second s,
  non_overlapping first -> non_overlapping second -> reachable first second s ->
  (forall l1 x l2 y l3, line s = l1 ++ x :: l2 ++ y :: l3 -> binary_line_ltb s x y = true /\ binary_line_ltb s y x = false)
  /\ (forall l1 x l2 shape, line s = l1 ++ x :: l2 ->
        line_contains Linear shape s x = true /\ line_above Linear shape s x = hd_error l2
        /\ line_below Linear shape s x = last_error l1
        /\ line_remove Linear shape x s = Ok (with_line s (l1 ++ l2)))
  /\ (queue s <> [] -> exists ev s1 s2, (forall pick, pop Linear pick s = Ok (ev, s1))
        /\ (forall o n, process_linear o n ev s1 = Ok s2)).
Proof. exact reachable_order. Qed.
Print Assumptions C27_sweep_line_order.
Example C27_example : reachable ex_first ex_second (fill_linear ex_first ex_second).
Proof. exact (reach_start _ _). Qed.

(** C34: linear operations; no assumption about segments of the operands is needed. *)
Theorem C34_linear_separate : forall first second a b, bounds first a -> bounds second b -> separate a b ->
  (forall o, intersect_multisegments o first second = Ok GEmpty)
  /\ (forall o, complete_intersect_multisegments o first second = Ok GEmpty)
  /\ (forall o, subtract_multisegments o first second = Ok (GMultisegment first))
  /\ (exists ss, (forall o, unite_multisegments o first second = Ok (GMultisegment ss))
        /\ (forall o, symmetric_subtract_multisegments o first second = Ok (GMultisegment ss))
        /\ Permutation (first ++ second) ss /\ StronglySorted (fun s t => ~ segment_lt t s) ss)
  /\ (forall p, ~ (on_segments p first /\ on_segments p second)).
Proof. exact separate_boxes. Qed.
Print Assumptions C34_linear_separate.
Example C34_linear_example : bounds ex_first ex_first_box /\ bounds ex_far ex_far_box /\ separate ex_first_box ex_far_box.
Proof. exact ex_separate. Qed.

(** C35 *)
Theorem C35_same_operand : forall k below ev s, k <> Nary -> proper (seg_of s below) -> proper (seg_of s ev) ->
  l_first (lft s below) = l_first (lft s ev) ->
  (overlap (seg_of s below) (seg_of s ev) -> detect k below ev s = Err ValueError)
  /\ (~ overlap (seg_of s below) (seg_of s ev) -> exists s', detect k below ev s = Ok (s', false)).
Proof. exact detect_raises. Qed.
Print Assumptions C35_same_operand.
Theorem C35_other_operand : forall k below ev s, k = Nary \/ l_first (lft s below) <> l_first (lft s ev) ->
  exists s' b, detect k below ev s = Ok (s', b).
Proof. exact detect_never_raises. Qed.
Print Assumptions C35_other_operand.
Example C35_example : let s := fill_linear [ex_a; ex_c; ex_b] [] in
  detect Linear 0 1 s = Err ValueError /\ exists s', detect Linear 0 2 s = Ok (s', false).
Proof. vm_compute. split; [reflexivity|eexists; reflexivity]. Qed.
