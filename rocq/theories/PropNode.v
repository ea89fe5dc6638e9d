(** Property C48: segments are cut at their nodes only and at all of them, and
    results do not depend on order and direction of segments of operands and
    order of operands.  Here [o] and [o'] stand for any behaviours of the
    external priority queue and tree. *)
From Coq Require Import Sorted.
From Verif Require Import QcTac Geom Spec SpecNode Sweep Linear GeomFacts Examples NodeProps NaryNodes.

Theorem C48_unite_multisegments : forall first second a b, non_overlapping first -> non_overlapping second -> bounds first a -> bounds second b -> ~ separate a b ->
  exists ts, (forall o, unite_multisegments o first second = Ok (GMultisegment ts)) /\ arranged ts /\ forall t, In t ts <-> fragment (first ++ second) (first ++ second) t.
Proof. exact union_cut. Qed.
Print Assumptions C48_unite_multisegments.
Theorem C48_symmetric_subtract_multisegments : forall first second a b, non_overlapping first -> non_overlapping second -> bounds first a -> bounds second b -> ~ separate a b ->
  exists g, (forall o, symmetric_subtract_multisegments o first second = Ok g) /\ canonical g /\ points_of g = [] /\ polygons_of g = [] /\ arranged (segments_of g)
  /\ forall t, In t (segments_of g) <-> fragment (first ++ second) first t /\ ~ fragment (first ++ second) second t \/ fragment (first ++ second) second t /\ ~ fragment (first ++ second) first t.
Proof. exact symmetric_multi_cut. Qed.
Print Assumptions C48_symmetric_subtract_multisegments.
Theorem C48_symmetric_subtract_multisegment_from_segment : forall s second a b, proper s -> non_overlapping second -> bounds [s] a -> bounds second b -> ~ separate a b ->
  exists g, (forall o, symmetric_subtract_multisegment_from_segment o s second = Ok g) /\ canonical g /\ points_of g = [] /\ polygons_of g = [] /\ arranged (segments_of g)
  /\ forall t, In t (segments_of g) <-> fragment (s :: second) [s] t /\ ~ fragment (s :: second) second t \/ fragment (s :: second) second t /\ ~ fragment (s :: second) [s] t.
Proof. exact symmetric_segment_cut. Qed.
Print Assumptions C48_symmetric_subtract_multisegment_from_segment.
Theorem C48_complete_intersect_multisegments : forall first second, non_overlapping first -> non_overlapping second -> first <> [] -> second <> [] ->
  exists g, (forall o, complete_intersect_multisegments o first second = Ok g) /\ canonical g /\ polygons_of g = [] /\ arranged (segments_of g)
  /\ (forall t, In t (segments_of g) <-> fragment (first ++ second) first t /\ fragment (first ++ second) second t)
  /\ StronglySorted plt (points_of g) /\ forall p, In p (points_of g) <-> on_segments p first /\ on_segments p second /\ ~ on_common_segment p first second.
Proof. exact complete_multi_cut. Qed.
Print Assumptions C48_complete_intersect_multisegments.
Theorem C48_complete_intersect_segment_with_multisegment : forall s second, proper s -> non_overlapping second -> second <> [] ->
  exists g, (forall o, complete_intersect_segment_with_multisegment o s second = Ok g) /\ canonical g /\ polygons_of g = [] /\ arranged (segments_of g)
  /\ (forall t, In t (segments_of g) <-> fragment (s :: second) [s] t /\ fragment (s :: second) second t)
  /\ StronglySorted plt (points_of g) /\ forall p, In p (points_of g) <-> on_segment p s /\ on_segments p second /\ ~ on_common_segment p [s] second.
Proof. exact complete_segment_cut. Qed.
Print Assumptions C48_complete_intersect_segment_with_multisegment.
(** Segments of operands in any order and of any direction. *)
Theorem C48_unite_redrawn : forall first second first' second' a b, non_overlapping first -> non_overlapping second -> non_overlapping first' -> non_overlapping second' ->
  redrawn first first' -> redrawn second second' -> bounds first a -> bounds second b -> ~ separate a b ->
  forall o o', unite_multisegments o first second = unite_multisegments o' first' second'.
Proof. exact union_redrawn. Qed.
Print Assumptions C48_unite_redrawn.
Theorem C48_symmetric_subtract_redrawn : forall first second first' second' a b, non_overlapping first -> non_overlapping second -> non_overlapping first' -> non_overlapping second' ->
  redrawn first first' -> redrawn second second' -> bounds first a -> bounds second b -> ~ separate a b ->
  forall o o', symmetric_subtract_multisegments o first second = symmetric_subtract_multisegments o' first' second'.
Proof. exact symmetric_redrawn. Qed.
Print Assumptions C48_symmetric_subtract_redrawn.
Theorem C48_complete_intersect_redrawn : forall first second first' second', non_overlapping first -> non_overlapping second -> non_overlapping first' -> non_overlapping second' ->
  redrawn first first' -> redrawn second second' ->
  forall o o', complete_intersect_multisegments o first second = complete_intersect_multisegments o' first' second'.
Proof. exact complete_redrawn. Qed.
Print Assumptions C48_complete_intersect_redrawn.
Theorem C48_intersect_reordered : forall first second first' second', non_overlapping first -> non_overlapping second -> non_overlapping first' -> non_overlapping second' ->
  (forall s, In s first <-> In s first') -> (forall s, In s second <-> In s second') ->
  forall o o', intersect_multisegments o first second = intersect_multisegments o' first' second'.
Proof. exact intersection_reordered. Qed.
Print Assumptions C48_intersect_reordered.
(** Swapped operands. *)
Theorem C48_unite_swap : forall first second, non_overlapping first -> non_overlapping second -> forall o o', unite_multisegments o first second = unite_multisegments o' second first.
Proof. exact union_swap. Qed.
Print Assumptions C48_unite_swap.
Theorem C48_symmetric_subtract_swap : forall first second, non_overlapping first -> non_overlapping second ->
  forall o o', symmetric_subtract_multisegments o first second = symmetric_subtract_multisegments o' second first.
Proof. exact symmetric_swap. Qed.
Print Assumptions C48_symmetric_subtract_swap.
Theorem C48_intersect_swap : forall first second, non_overlapping first -> non_overlapping second ->
  forall o o', intersect_multisegments o first second = intersect_multisegments o' second first.
Proof. exact intersection_swap. Qed.
Print Assumptions C48_intersect_swap.
Theorem C48_complete_intersect_swap : forall first second, non_overlapping first -> non_overlapping second ->
  forall o o', complete_intersect_multisegments o first second = complete_intersect_multisegments o' second first.
Proof. exact complete_swap. Qed.
Print Assumptions C48_complete_intersect_swap.
(** Merging of segments. *)
Theorem C48_segments_to_multisegment : forall ss, non_overlapping ss ->
  exists g, (forall o, segments_to_multisegment o ss = Ok g) /\ canonical g /\ points_of g = [] /\ polygons_of g = [] /\ arranged (segments_of g)
  /\ forall t, In t (segments_of g) <-> fragment ss ss t.
Proof. exact merge_cut. Qed.
Print Assumptions C48_segments_to_multisegment.
Theorem C48_segments_to_multisegment_redrawn : forall ss ss', non_overlapping ss -> non_overlapping ss' -> redrawn ss ss' ->
  forall o o', segments_to_multisegment o ss = segments_to_multisegment o' ss'.
Proof. exact merge_redrawn. Qed.
Print Assumptions C48_segments_to_multisegment_redrawn.
Theorem C48_segments_to_multisegment_again : forall ss, non_overlapping ss -> forall o g, segments_to_multisegment o ss = Ok g -> forall o', segments_to_multisegment o' (segments_of g) = Ok g.
Proof. exact merge_again. Qed.
Print Assumptions C48_segments_to_multisegment_again.
Theorem C48_segments_to_multisegment_union : forall first second a b, non_overlapping (first ++ second) -> non_overlapping first -> non_overlapping second -> bounds first a -> bounds second b -> ~ separate a b ->
  forall o o' g g', segments_to_multisegment o (first ++ second) = Ok g -> unite_multisegments o' first second = Ok g' -> segments_of g = segments_of g'.
Proof. exact merge_union. Qed.
Print Assumptions C48_segments_to_multisegment_union.

Example C48_example : non_overlapping ex_first /\ non_overlapping ex_second /\ ex_first <> [] /\ ex_second <> []
  /\ bounds ex_first ex_first_box /\ bounds ex_second ex_second_box /\ ~ separate ex_first_box ex_second_box.
Proof.
  destruct ex_operands as (A & B & C & D). destruct ex_bounds as (E & F). repeat (split; [assumption|]). intro K. apply (K (pt 2 2)).
  unfold in_box. cbn. repeat split; vm_compute; discriminate.
Qed.
(** Both diagonals cut at their common point, at ends of the segment on one of
    them and at the horizontal segment. *)
Example C48_example_union : shown (unite_multisegments ex_oracle ex_first ex_second)
  = shown (unite_multisegments ex_oracle2 ex_second ex_first) /\ length (shown (unite_multisegments ex_oracle ex_first ex_second)) = 8%nat.
Proof. vm_compute. split; reflexivity. Qed.
Definition ex_first_redrawn := [sg 4 0 0 4; sg 4 4 0 0].
Definition ex_second_redrawn := [sg 0 2 4 2; sg 3 3 1 1].
Example C48_example_redrawn : redrawn ex_first ex_first_redrawn /\ redrawn ex_second ex_second_redrawn
  /\ non_overlapping ex_first_redrawn /\ non_overlapping ex_second_redrawn.
Proof.
  split; [|split; [|split; apply all_apart_non_overlapping; vm_compute; reflexivity]]; split; intros s [<-|[<-|[]]]; cbn; tauto.
Qed.
Example C48_example_redrawn_result : shown (symmetric_subtract_multisegments ex_oracle ex_first ex_second)
  = shown (symmetric_subtract_multisegments ex_oracle2 ex_first_redrawn ex_second_redrawn)
  /\ shown (intersect_multisegments ex_oracle ex_first ex_second) = shown (intersect_multisegments ex_oracle2 ex_second ex_first).
Proof. vm_compute. split; reflexivity. Qed.
Example C48_example_complete : shown (complete_intersect_multisegments ex_oracle ex_first ex_second) = [((1, 1), (2, 2)); ((2, 2), (3, 3))]%Q.
Proof. vm_compute. reflexivity. Qed.
(** A node and a fragment. *)
Example C48_example_node : node (ex_first ++ ex_second) (pt 2 2) /\ ~ node (ex_first ++ ex_second) (pt 0 1).
Proof.
  split.
  - right. exists (sg 0 0 4 4), (sg 0 4 4 0). split; [left; reflexivity|]. split; [right; left; reflexivity|]. split; [on_tac (1#2)|]. split; [on_tac (1#2)|].
    apply apart_by_relation; [proper_tac|proper_tac|vm_compute; reflexivity].
  - assert (Z : forall s, In s (ex_first ++ ex_second) -> ~ on_segment (pt 0 1) s).
    { intros s K O. apply lies_on_complete in O. repeat (destruct K as [<-|K]; [vm_compute in O; discriminate O|]). destruct K. }
    intros [(s & Hs & [E|E])|(s & t & Hs & _ & O & _)].
    + apply (Z s Hs). rewrite E. apply on_segment_start.
    + apply (Z s Hs). rewrite E. apply on_segment_end.
    + exact (Z s Hs O).
Qed.
Example C48_example_merge : shown (segments_to_multisegment ex_oracle ex_first) = [((0, 0), (2, 2)); ((0, 4), (2, 2)); ((2, 2), (4, 0)); ((2, 2), (4, 4))]%Q
  /\ shown (segments_to_multisegment ex_oracle ex_first) = shown (segments_to_multisegment ex_oracle3 ex_first_redrawn).
Proof. vm_compute. split; reflexivity. Qed.
(** Operands of [C48_segments_to_multisegment_union]. *)
Definition ex_rising := [sg 0 0 4 4; sg 0 1 3 4].
Definition ex_falling := [sg 0 4 4 0; sg 0 2 4 2].
Definition ex_small_box := Box (z 0) (z 4) (z 0) (z 4).
Example C48_example_union_operands : non_overlapping (ex_rising ++ ex_falling) /\ non_overlapping ex_rising /\ non_overlapping ex_falling
  /\ bounds ex_rising ex_small_box /\ bounds ex_falling ex_small_box /\ ~ separate ex_small_box ex_small_box.
Proof.
  split; [apply all_apart_non_overlapping; vm_compute; reflexivity|]. split; [apply all_apart_non_overlapping; vm_compute; reflexivity|].
  split; [apply all_apart_non_overlapping; vm_compute; reflexivity|].
  split; [apply LinearProps.segments_box_bounds; unfold segments_box, ex_rising, ex_small_box; apply f_equal; apply box_eq; vm_compute; reflexivity|].
  split; [apply LinearProps.segments_box_bounds; unfold segments_box, ex_falling, ex_small_box; apply f_equal; apply box_eq; vm_compute; reflexivity|].
  intro K. apply (K (pt 2 2)). unfold in_box. cbn. repeat split; vm_compute; discriminate.
Qed.
