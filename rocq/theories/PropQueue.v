(** Property C41: order of events in queues.  Here [pick] and [o] stand for any
    behaviour of the external priority queue and tree.  Segments have to be
    proper, but may overlap each other, unless said otherwise. *)
From Verif Require Import QcTac Geom Spec SpecShape SpecSides Pair Sweep Linear Labelled Contour Filter Mixed Tracing Shaped SpecSweep QueueProps SweepPieces Rectangle Examples PropMixed PropShaped.

(** C41: processing of an event does not change order of queued events *)
Theorem C41_linear_kept : forall first second s ev s1 s2 pick o n, Forall proper first -> Forall proper second ->
  reachable first second s -> pop Linear pick s = Ok (ev, s1) -> process_linear o n ev s1 = Ok s2 -> orderly Linear s1 s2.
Proof. exact linear_queue_kept. Qed.
Print Assumptions C41_linear_kept.
Theorem C41_merge_kept : forall segments s ev s1 s2 out pick o n, Forall proper segments ->
  merge_state segments s -> pop Nary pick s = Ok (ev, s1) -> process_nary o n ev s1 = Ok (s2, out) -> orderly Nary s1 s2.
Proof. exact merge_queue_kept. Qed.
Print Assumptions C41_merge_kept.
Theorem C41_mixed_kept : forall segments polygons result s ev s1 s2 b pick o n,
  Forall proper segments -> Forall proper (flat_map polygon_oriented_edges polygons) ->
  sweep_state Mixed false result (fill_mixed segments polygons) s ->
  pop Mixed pick s = Ok (ev, s1) -> process_labelled Mixed false result o n ev s1 = Ok (s2, b) -> orderly Mixed s1 s2.
Proof. exact mixed_queue_kept. Qed.
Print Assumptions C41_mixed_kept.
Theorem C41_holeless_kept : forall first second result s ev s1 s2 b pick o n,
  Forall proper (flat_map region_edges first) -> Forall proper (flat_map region_edges second) ->
  sweep_state Shaped false result (fill_regions first second) s ->
  pop Shaped pick s = Ok (ev, s1) -> process_labelled Shaped false result o n ev s1 = Ok (s2, b) -> orderly Shaped s1 s2.
Proof. exact regions_queue_kept. Qed.
Print Assumptions C41_holeless_kept.
Theorem C41_holey_kept : forall first second result s ev s1 s2 b pick o n,
  Forall proper (flat_map polygon_oriented_edges first) -> Forall proper (flat_map polygon_oriented_edges second) ->
  sweep_state Shaped true result (fill_polygons first second) s ->
  pop Shaped pick s = Ok (ev, s1) -> process_labelled Shaped true result o n ev s1 = Ok (s2, b) -> orderly Shaped s1 s2.
Proof. exact polygons_queue_kept. Qed.
Print Assumptions C41_holey_kept.

(** Keys of queued events are ordered *)
Theorem C41_linear_ordered : forall first second s, non_overlapping first -> non_overlapping second -> reachable first second s ->
  queue_ordered Linear s.
Proof. exact linear_queue_ordered. Qed.
Print Assumptions C41_linear_ordered.
Theorem C41_merge_ordered : forall segments s, Forall proper segments -> merge_state segments s -> queue_ranked Nary s.
Proof. exact merge_queue_ranked. Qed.
Print Assumptions C41_merge_ordered.
Theorem C41_mixed_ordered : forall segments polygons (wanted : bool) s,
  non_overlapping segments -> non_overlapping (flat_map polygon_oriented_edges polygons) ->
  sweep_state Mixed false (if wanted then mixed_in else mixed_out) (fill_mixed segments polygons) s -> queue_ordered Mixed s.
Proof. exact mixed_queue_ordered. Qed.
Print Assumptions C41_mixed_ordered.
Theorem C41_holeless_ordered : forall op first second s,
  non_overlapping (flat_map region_edges first) -> non_overlapping (flat_map region_edges second) ->
  sweep_state Shaped false (op_test op) (fill_regions first second) s -> queue_ordered Shaped s.
Proof. exact regions_queue_ordered. Qed.
Print Assumptions C41_holeless_ordered.
Theorem C41_holey_ordered : forall op first second s,
  non_overlapping (flat_map polygon_oriented_edges first) -> non_overlapping (flat_map polygon_oriented_edges second) ->
  sweep_state Shaped true (op_test op) (fill_polygons first second) s -> queue_ordered Shaped s.
Proof. exact polygons_queue_ordered. Qed.
Print Assumptions C41_holey_ordered.

(** Sweeps in the middle, where the next event leads to divisions. *)
Fixpoint linear_after (n : nat) (s : state) : state :=
  match n with
  | O => s
  | S m =>
      match pop Linear (o_pick ex_oracle 0) s with
      | Ok (ev, s1) => match process_linear ex_oracle 0 ev s1 with Ok s2 => linear_after m s2 | Err _ => s end
      | Err _ => s
      end
  end.
Lemma linear_after_reachable : forall first second n s, reachable first second s -> reachable first second (linear_after n s).
Proof.
  intros first second n. induction n as [|n IH]; intros s H; [exact H|]. cbn [linear_after].
  destruct (pop Linear (o_pick ex_oracle 0) s) as [(ev, s1)|] eqn:E1; [|exact H].
  destruct (process_linear ex_oracle 0 ev s1) as [s2|] eqn:E2; [|exact H]. apply IH. exact (reach_next _ _ _ _ _ _ _ _ _ H E1 E2).
Qed.
Definition divisions (s s' : state) : nat := (length (lefts s') - length (lefts s))%nat.
Definition ex_start := fill_linear ex_first ex_second.
Example C41_linear_example : Forall proper ex_first /\ Forall proper ex_second
  /\ reachable ex_first ex_second (linear_after 3 ex_start) /\ divisions (linear_after 3 ex_start) (linear_after 4 ex_start) = 2%nat.
Proof.
  destruct ex_operands as (N1 & N2 & _). split; [exact (proj1 N1)|]. split; [exact (proj1 N2)|].
  split; [apply linear_after_reachable, reach_start|]. vm_compute. reflexivity.
Qed.
Definition ex_frames := fill_polygons [ex_left] [ex_right].
Example C41_holey_example : valid_polygons [ex_left] /\ valid_polygons [ex_right]
  /\ sweep_state Shaped true (op_test Join) ex_frames (advance Shaped true (op_test Join) ex_oracle 8 ex_frames)
  /\ divisions (advance Shaped true (op_test Join) ex_oracle 8 ex_frames) (advance Shaped true (op_test Join) ex_oracle 9 ex_frames) = 2%nat.
Proof.
  destruct ex_frames_valid as (V1 & V2). split; [exact V1|]. split; [exact V2|].
  split; [apply advance_state, state_start|]. vm_compute. reflexivity.
Qed.
