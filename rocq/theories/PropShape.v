(** Properties C22-C25: contours, their orientation and tracing. *)
From Coq Require Import Permutation.
From Verif Require Import QcTac Geom Spec Sweep SpecShape Contour ShrinkThms ConnectThms Tracing TraceThms RegionThms OrientThms Examples.

(** C22 *)
Theorem C22_edges : forall vs cw, contour_oriented_edges vs cw = contour_edges vs
  \/ contour_oriented_edges vs cw = rev (map reversed (contour_edges vs)).
Proof. exact oriented_edges_cycle. Qed.
Print Assumptions C22_edges.
Theorem C22_rotation : forall a b cw, NoDup (a ++ b) ->
  Permutation (contour_oriented_edges (a ++ b) cw) (contour_oriented_edges (b ++ a) cw).
Proof. exact oriented_edges_rotation. Qed.
Print Assumptions C22_rotation.
Theorem C22_reversal : forall vs cw, NoDup vs -> turns_at_least vs ->
  Permutation (contour_oriented_edges (rev vs) cw) (contour_oriented_edges vs cw).
Proof. exact oriented_edges_reversal. Qed.
Print Assumptions C22_reversal.
Theorem C22_direction : forall vs, NoDup vs -> turns_at_least vs ->
  counterclockwise_at_least (contour_oriented_edges vs false)
  /\ counterclockwise_at_least (map reversed (contour_oriented_edges vs true)).
Proof. exact oriented_edges_counterclockwise. Qed.
Print Assumptions C22_direction.
Example C22_example : NoDup (rev ex_square) /\ turns_at_least (rev ex_square) /\ contour_oriented_edges (rev ex_square) false
  = [Seg (pt 2 0) (pt 2 2); Seg (pt 2 2) (pt 0 2); Seg (pt 0 2) (pt 0 0); Seg (pt 0 0) (pt 2 0)].
Proof. exact (conj ex_square_distinct (conj ex_square_turns eq_refl)). Qed.

(** C23: only vertices on a straight line with their neighbours are dropped *)
Theorem C23_drops_straight : forall vs, exists r, shrink_collinear_vertices vs = Ok r /\ straightened vs r.
Proof. exact shrink_straightens. Qed.
Print Assumptions C23_drops_straight.
(** of contours not turning back along their edges *)
Theorem C23_complete : forall vs, never_folds vs ->
  exists r, shrink_collinear_vertices vs = Ok r /\ straightened vs r /\ never_folds r
    /\ (forall j, (j < length r)%nat -> ~ straight r j)
    /\ forall p, on_segments p (contour_edges r) <-> on_segments p (contour_edges vs).
Proof. exact shrink_corners. Qed.
Print Assumptions C23_complete.
Theorem C23_applies : forall vs, vs <> [] -> non_overlapping (contour_edges vs) -> never_folds vs.
Proof. exact non_overlapping_never_folds. Qed.
Print Assumptions C23_applies.
Example C23_example : never_folds ex_long
  /\ shrink_collinear_vertices ex_long = Ok [pt 0 0; pt 2 0; pt 2 2; pt 0 2].
Proof. exact (conj ex_long_folds eq_refl). Qed.
(** but straight vertices may remain in contours which do *)
Theorem C23_complete_refuted : exists vs r i, shrink_collinear_vertices vs = Ok r
  /\ (3 <= length r)%nat /\ (i < length r)%nat /\ straight r i.
Proof.
  exact (ex_intro _ ex_folding (ex_intro _ ex_folding_result (ex_intro _ 3%nat
    (conj ex_folding_shrunk (conj (le_S _ _ (le_n _)) (conj (le_n _) ex_folding_straight)))))).
Qed.
Print Assumptions C23_complete_refuted.

(** C24 *)
Theorem C24_connectivity : forall evs, exists c, events_to_connectivity evs = Ok c
  /\ Permutation c (seq 0 (length evs))
  /\ (forall i, (i < length evs)%nat -> t_start (tev evs (nth i c 0%nat)) = t_start (tev evs i))
  /\ (grouped (starts evs) -> forall i j, (i < length evs)%nat -> (j < length evs)%nat ->
        t_start (tev evs i) = t_start (tev evs j) -> exists k, (0 < k <= length evs)%nat /\ follow k c i = j).
Proof. exact connectivity_correct. Qed.
Print Assumptions C24_connectivity.
Theorem C24_next_event : forall evs c processed i, grouped (starts evs) ->
  events_to_connectivity evs = Ok c -> (i < length evs)%nat ->
  exists r, next_event i processed c = Ok r
    /\ match r with
       | Some j => (j < length evs)%nat /\ t_start (tev evs j) = t_start (tev evs i) /\ nth j processed false = false
       | None => forall j, (j < length evs)%nat -> t_start (tev evs j) = t_start (tev evs i) ->
           nth j processed false = true
       end.
Proof. exact next_event_correct. Qed.
Print Assumptions C24_next_event.
Example C24_example : grouped (starts ex_triangle)
  /\ events_to_connectivity ex_triangle = Ok [1; 0; 3; 2; 5; 4]%nat
  /\ next_event 2 [true; true; true; false; false; false] [1; 0; 3; 2; 5; 4]%nat = Ok (Some 3%nat).
Proof. exact (conj ex_triangle_grouped (conj eq_refl eq_refl)). Qed.

(** C25 *)
Theorem C25_each_edge_once : forall evs c, paired evs -> grouped (starts evs) -> events_to_connectivity evs = Ok c ->
  exists cs, trace_contours evs c (seq 0 (length evs)) (repeat false (length evs)) = Ok cs
    /\ Permutation (flat_map snd cs ++ map (opp evs) (flat_map snd cs)) (seq 0 (length evs))
    /\ Forall (good_contour evs) cs
    /\ (even_occurrences (starts evs) -> Forall (fun x => closed_contour evs x
          /\ Permutation (contour_edges (fst x)) (map (edge evs) (snd x))) cs).
Proof. exact tracing_correct. Qed.
Print Assumptions C25_each_edge_once.
Theorem C25_regions : forall evs, paired evs -> grouped (starts evs) -> planar evs ->
  even_occurrences (starts evs) ->
  exists groups cs, trace_regions evs = Ok cs
    /\ Permutation (concat groups ++ map (opp evs) (concat groups)) (seq 0 (length evs))
    /\ Forall2 (fun ids c => ids <> [] /\ exists vs, Permutation (contour_edges vs) (map (edge evs) ids)
         /\ straightened vs (vertices c) /\ never_folds (vertices c)
         /\ (forall j, (j < length (vertices c))%nat -> ~ straight (vertices c) j)
         /\ forall p, on_segments p (contour_edges (vertices c)) <-> on_segments p (map (edge evs) ids)) groups cs.
Proof. exact trace_regions_correct. Qed.
Print Assumptions C25_regions.
Example C25_example : paired ex_triangle /\ grouped (starts ex_triangle) /\ planar ex_triangle
  /\ even_occurrences (starts ex_triangle)
  /\ trace_regions ex_triangle = Ok [Contour [pt 0 0; pt 4 0; pt 2 2]].
Proof.
  exact (conj ex_triangle_paired (conj ex_triangle_grouped (conj ex_triangle_planar (conj ex_triangle_even eq_refl)))).
Qed.
