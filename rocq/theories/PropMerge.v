(** Property C49, and what holds of C14 and C15 for segments with overlaps:
    merging of any segments. *)
From Coq Require Import Sorted.
From Verif Require Import QcTac Geom Spec SpecNode Pair Bounding Sweep SweepCmp Linear MergeThms LinearProps Examples.

(** C14: points of results are points of segments given, overlapping or not. *)
Theorem C14_segments_to_multisegment_sound_partial : forall o ss, Forall proper ss ->
  exists g, segments_to_multisegment o ss = Ok g
  /\ points_of g = [] /\ polygons_of g = [] /\ forall p, in_geometry p g -> on_segments p ss.
Proof. exact merge_points. Qed.
Print Assumptions C14_segments_to_multisegment_sound_partial.

(** C49 *)
Theorem C49_segments_to_multisegment : forall o ss, Forall proper ss ->
  exists g, segments_to_multisegment o ss = Ok g
  /\ canonical g /\ points_of g = [] /\ polygons_of g = []
  /\ StronglySorted (fun a b => ~ segment_lt b a) (segments_of g)
  /\ forall t, In t (segments_of g) -> (exists s, In s ss /\ forall p, on_segment p t -> on_segment p s)
       /\ plt (s_start t) (s_end t) /\ node ss (s_start t) /\ node ss (s_end t).
Proof. exact merge_sound. Qed.
Print Assumptions C49_segments_to_multisegment.
(** Four of the five segments overlap. *)
Example C49_example : Forall proper ex_merge /\ overlap (sg 3 3 0 0) (sg 6 6 1 1).
Proof.
  split; [repeat constructor; proper_tac|]. exists (pt 1 1), (pt 3 3).
  split; [proper_tac|]. split; [on_tac (2#3)|]. split; [on_tac 1|]. split; [on_tac 0|on_tac (3#5)].
Qed.
Example C49_example_result : shown (segments_to_multisegment ex_oracle ex_merge)
  = [((0, 0), (1, 1)); ((1, 1), (3, 3)); ((2, 5), (25 # 8, 25 # 8)); ((3, 3), (25 # 8, 25 # 8));
     ((25 # 8, 25 # 8), (5, 0)); ((25 # 8, 25 # 8), (5, 5)); ((5, 5), (6, 6))]%Q.
Proof. vm_compute. reflexivity. Qed.
(** With another shape of the tree. *)
Example C49_example_other : shown (segments_to_multisegment ex_oracle3 ex_merge)
  = [((1, 1), (3, 3)); ((2, 5), (25 # 8, 25 # 8)); ((3, 3), (25 # 8, 25 # 8));
     ((25 # 8, 25 # 8), (5, 0)); ((25 # 8, 25 # 8), (5, 5)); ((5, 5), (6, 6))]%Q.
Proof. vm_compute. reflexivity. Qed.
