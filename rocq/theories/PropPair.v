(** Properties C01-C08: operations on segments and segment/multisegment pairs. *)
From Verif Require Import QcTac Geom Spec Pair PairThms Unique LoopThms Examples.

(** C01 *)
Theorem C01_intersect_segments_points : forall first second p, proper first -> proper second ->
  (in_geometry p (intersect_segments first second) <-> on_segment p first /\ on_segment p second).
Proof. exact intersect_segments_points. Qed.
Print Assumptions C01_intersect_segments_points.
Theorem C01_intersect_segments_shape : forall first second, proper first -> proper second ->
  match intersect_segments first second with
  | GEmpty => forall q, ~ (on_segment q first /\ on_segment q second)
  | GMultipoint [x] => (on_segment x first /\ on_segment x second)
                       /\ forall q, on_segment q first /\ on_segment q second -> q = x
  | GSegment s => proper s /\ overlap first second
  | _ => False
  end.
Proof. exact intersect_segments_shape. Qed.
Print Assumptions C01_intersect_segments_shape.
Example C01_example : proper ex_a /\ proper ex_b /\ segments_relation ex_a ex_b = CROSS.
Proof. exact (conj (proj1 ex_proper) (conj (proj1 (proj2 ex_proper)) ex_cross)). Qed.

(** C02 *)
Theorem C02_unite_segments : forall first second, proper first -> proper second ->
  exact_union (unite_segments first second) [first] [second].
Proof. exact unite_segments_exact. Qed.
Print Assumptions C02_unite_segments.
Example C02_example : proper ex_a /\ proper ex_c /\ segments_relation ex_a ex_c = OVERLAP.
Proof. exact (conj (proj1 ex_proper) (conj (proj2 (proj2 ex_proper)) ex_overlap)). Qed.

(** C03 *)
Theorem C03_subtract_segments : forall minuend subtrahend, proper minuend -> proper subtrahend ->
  closure_difference (subtract_segments minuend subtrahend) [minuend] [subtrahend].
Proof. exact subtract_segments_closure. Qed.
Print Assumptions C03_subtract_segments.
(** The difference specification determines the point set of the result. *)
Theorem C03_difference_determined : forall g g' first second first' second',
  (forall p, on_segments p first <-> on_segments p first') ->
  (forall p, on_segments p second <-> on_segments p second') ->
  closure_difference g first second -> closure_difference g' first' second' ->
  forall p, in_geometry p g <-> in_geometry p g'.
Proof. exact closure_difference_unique. Qed.
Print Assumptions C03_difference_determined.
Example C03_example : closure_difference (subtract_segments ex_a ex_c) [ex_a] [ex_c].
Proof. exact (C03_subtract_segments _ _ (proj1 ex_proper) (proj2 (proj2 ex_proper))). Qed.

(** C04 *)
Theorem C04_symmetric_subtract_segments : forall first second, proper first -> proper second ->
  closure_symmetric_difference (symmetric_subtract_segments first second) [first] [second].
Proof. exact symmetric_subtract_segments_closure. Qed.
Print Assumptions C04_symmetric_subtract_segments.
Theorem C04_symmetric_difference_determined : forall g g' first second first' second',
  (forall p, on_segments p first <-> on_segments p first') ->
  (forall p, on_segments p second <-> on_segments p second') ->
  closure_symmetric_difference g first second -> closure_symmetric_difference g' first' second' ->
  forall p, in_geometry p g <-> in_geometry p g'.
Proof. exact closure_symmetric_difference_unique. Qed.
Print Assumptions C04_symmetric_difference_determined.
Example C04_example : closure_symmetric_difference (symmetric_subtract_segments ex_a ex_c) [ex_a] [ex_c].
Proof. exact (C04_symmetric_subtract_segments _ _ (proj1 ex_proper) (proj2 (proj2 ex_proper))). Qed.

(** C05 *)
Theorem C05_order_independent : forall a b a' b', proper a -> proper b ->
  same_or_reversed a a' -> same_or_reversed b b' ->
  same_points (intersect_segments a' b') (intersect_segments a b)
  /\ same_points (unite_segments a' b') (unite_segments a b)
  /\ same_points (subtract_segments a' b') (subtract_segments a b)
  /\ same_points (symmetric_subtract_segments a' b') (symmetric_subtract_segments a b)
  /\ same_points (intersect_segments b a) (intersect_segments a b)
  /\ same_points (unite_segments b a) (unite_segments a b)
  /\ same_points (symmetric_subtract_segments b a) (symmetric_subtract_segments a b).
Proof. exact pair_order. Qed.
Print Assumptions C05_order_independent.
Example C05_example : proper ex_a /\ proper ex_c /\ same_or_reversed ex_a (reversed ex_a).
Proof. exact (conj (proj1 ex_proper) (conj (proj2 (proj2 ex_proper)) (or_intror eq_refl))). Qed.

(** C06 *)
Theorem C06_intersect_segment_with_multisegment : forall s ms, proper s -> Forall proper ms ->
  common_sub_segments (intersect_segment_with_multisegment s ms) [s] ms.
Proof. exact intersect_segment_with_multisegment_common. Qed.
Print Assumptions C06_intersect_segment_with_multisegment.
Example C06_example : proper ex_a /\ Forall proper ex_m.
Proof. exact (conj (proj1 ex_proper) (proj1 ex_m_valid)). Qed.

(** C07 *)
Theorem C07_subtract_segment_from_multisegment : forall ms s, valid_multisegment ms -> proper s ->
  closure_difference (subtract_segment_from_multisegment ms s) ms [s]
  /\ valid_multisegment (segments_of (subtract_segment_from_multisegment ms s)).
Proof. exact subtract_segment_from_multisegment_closure. Qed.
Print Assumptions C07_subtract_segment_from_multisegment.
Example C07_example : valid_multisegment ex_m /\ proper ex_a.
Proof. exact (conj ex_m_valid (proj1 ex_proper)). Qed.

(** C08 *)
Theorem C08_unite_segment_with_multisegment : forall s ms, proper s -> valid_multisegment ms ->
  exact_union (unite_segment_with_multisegment s ms) [s] ms.
Proof. exact unite_segment_with_multisegment_exact. Qed.
Print Assumptions C08_unite_segment_with_multisegment.
Example C08_example : proper ex_a /\ valid_multisegment ex_m.
Proof. exact (conj (proj1 ex_proper) ex_m_valid). Qed.
