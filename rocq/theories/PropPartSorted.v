(** Property C50: order of segments in results of operations of any multisegments. *)
From Coq Require Import Sorted.
From Verif Require Import QcTac Geom Spec SpecNode Pair Bounding Sweep Linear PartSorted Examples.

Theorem C50_sorted : forall first second o g,
  In (Ok g) [unite_multisegments o first second; symmetric_subtract_multisegments o first second; intersect_multisegments o first second] ->
  StronglySorted (fun a b => ~ segment_lt b a) (segments_of g).
Proof. exact results_sorted. Qed.
Print Assumptions C50_sorted.
Theorem C50_difference_sorted : forall first second o g, subtract_multisegments o first second = Ok g ->
  g = GMultisegment first \/ canonical g /\ StronglySorted (fun a b => ~ segment_lt b a) (segments_of g).
Proof. exact difference_sorted. Qed.
Print Assumptions C50_difference_sorted.
(** Segments of the second operand overlap. *)
Definition ex_lines : list segment := [sg 6 0 0 6; sg 0 0 6 6].
Definition ex_doubled : list segment := [sg 4 4 9 9; sg 1 1 5 5; sg 0 1 6 1].
Example C50_example_sorted :
  shown (intersect_multisegments ex_oracle ex_lines ex_doubled) = [((1, 1), (3, 3)); ((3, 3), (5, 5))]%Q
  /\ shown (subtract_multisegments ex_oracle ex_lines ex_doubled)
    = [((0, 0), (1, 1)); ((0, 6), (3, 3)); ((3, 3), (5, 1)); ((5, 1), (6, 0)); ((5, 5), (6, 6))]%Q.
Proof. vm_compute. split; reflexivity. Qed.
