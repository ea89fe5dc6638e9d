(** Contours assigned to wrong polygons by holey.py. *)
From Verif Require Import QcTac Geom Spec SpecShape SpecSides SpecLocate GeomFacts SortFacts Bounding BoundingThms Pair Sweep Contour Filter Mixed Shaped Holey LinearThms Shapes Polygons FilterThms CoupledThms MixedProps Sides PairProofs HoleyProps Locate Rectangle Examples SimpleCheck.

Definition nest_hole : contour := Contour [pt 4 0; pt 6 1; pt 6 2].
Definition nest_square : polygon := Polygon (rectangle (z 0) (z 0) (z 10) (z 10)) [nest_hole].
Definition nest_arch : polygon := Polygon (Contour [pt 4 0; pt 6 4; pt 8 3; pt 8 (-1); pt 9 (-1); pt 9 6; pt 6 6]) [].
Definition nest_point : point := Pt (Q2Qc (11 # 2)) (z 1).
Lemma nest_hole_simple : simple_contour (vertices nest_hole).
Proof. apply simple_by_check. vm_compute. reflexivity. Qed.
Lemma nest_arch_valid : valid_polygon nest_arch.
Proof.
  assert (S : simple_contour (vertices (border nest_arch))) by (apply simple_by_check; vm_compute; reflexivity).
  split; [exact S|]. split; [constructor|]. split; [intros h p []|]. split; [intros h p []|]. split; [intros [|i] j h k _ E; discriminate E|].
  unfold polygon_edges. cbn [holes flat_map nest_arch]. rewrite app_nil_r. exact (simple_non_overlapping _ S).
Qed.
Lemma nest_square_valid : valid_polygon nest_square.
Proof.
  assert (Wd : z 0 < z 10) by reflexivity.
  assert (Bx : contour_box nest_hole = Some (Box (z 4) (z 6) (z 0) (z 2))) by (vm_compute; reflexivity).
  split; [exact (rectangle_simple _ _ _ _ Wd Wd)|]. split; [constructor; [exact nest_hole_simple|constructor]|]. split; [|split; [|split]].
  - intros h p [<-|[]] J. apply (in_contour_box nest_hole nest_hole_simple _ p Bx) in J. apply (in_rectangle _ _ _ _ Wd Wd). destruct J as (A & B & C & D). cbn in *.
    repeat split; cbn; [refine (Qcle_trans _ _ _ _ A)|refine (Qcle_trans _ _ _ B _)|exact C|refine (Qcle_trans _ _ _ D _)]; discriminate.
  - intros h p [<-|[]] J. apply (inside_strict nest_hole _ p nest_hole_simple Bx) in J. apply (inside_rectangle_box _ _ _ _ Wd Wd). destruct J as (A & B & C & D). cbn in *.
    repeat split; cbn; [refine (Qclt_trans _ _ _ _ A)|refine (Qclt_trans _ _ _ B _)|exact C|refine (Qclt_trans _ _ _ D _)]; reflexivity.
  - intros [|i] [|j] h k N E E'; try congruence; [destruct j|destruct i|destruct i]; discriminate.
  - apply all_apart_non_overlapping. vm_compute. reflexivity.
Qed.
Lemma off_by_test : forall es p, forallb (fun s => negb (pt_eqb (s_start s) (s_end s)) && negb (passes_through s p)) es = true -> ~ on_segments p es.
Proof.
  intros es p T (s & Is & J). rewrite forallb_forall in T. specialize (T s Is). apply andb_true_iff in T. destruct T as (A & B).
  apply negb_true_iff in A, B. assert (Pr : proper s) by (intros E; apply pt_eqb_eq in E; congruence).
  apply (through_spec s p Pr) in J. congruence.
Qed.
Definition nest_result : list polygon :=
  match subtract_polygons reference_locators ex_oracle nest_square nest_arch with Ok g => polygons_of g | Err _ => [] end.
Theorem nest_wrong : exists minuend subtrahend g p, valid_polygon minuend /\ valid_polygon subtrahend
  /\ (forall o, subtract_polygons reference_locators o minuend subtrahend = Ok g)
  /\ ~ on_segments p (flat_map polygon_edges ([minuend] ++ [subtrahend]))
  /\ in_polygons (polygons_of g) p /\ ~ in_polygons [minuend] p.
Proof.
  destruct (subtract_polygons_correct reference_locators reference_right nest_square nest_arch nest_square_valid nest_arch_valid) as (g & Hg & _).
  exists nest_square, nest_arch, g, nest_point. split; [exact nest_square_valid|]. split; [exact nest_arch_valid|]. split; [exact Hg|].
  split; [apply off_by_test; vm_compute; reflexivity|].
  assert (Eg : polygons_of g = nest_result) by (unfold nest_result; rewrite (Hg ex_oracle); reflexivity).
  split.
  - rewrite Eg. assert (L : exists k, nth_error nest_result 1 = Some k /\ holes k = [] /\ inside (contour_edges (vertices (border k))) nest_point = true)
      by (eexists; split; [vm_compute; reflexivity|]; split; vm_compute; reflexivity).
    destruct L as (k & Ik & Eh & J). exists k. split; [exact (nth_error_In _ _ Ik)|]. split; [right; exact J|]. rewrite Eh. intros h [].
  - intros (k & [<-|[]] & _ & J). apply (J nest_hole (or_introl eq_refl)). split; [apply off_by_test; vm_compute; reflexivity|vm_compute; reflexivity].
Qed.
(** When polygons returned are valid, their points are the right ones. *)
Lemma valid_result : forall op first second gs, bounds_result op first second gs -> valid_polygons gs -> forall p, ~ on_segments p (flat_map polygon_edges (first ++ second)) ->
  (in_polygons gs p <-> member op (in_polygons first p) (in_polygons second p)).
Proof.
  intros op first second gs (_ & _ & Hon & Hin) V p Off. rewrite <- (Hin p Off). symmetry. apply off_polygons; [exact V|]. intros J. exact (Off (Hon p J)).
Qed.
Theorem subtract_polygons_points : forall x, right_locators x -> forall o minuend subtrahend g, valid_polygon minuend -> valid_polygon subtrahend ->
  subtract_polygons x o minuend subtrahend = Ok g -> valid_polygons (polygons_of g) ->
  forall p, ~ on_segments p (flat_map polygon_edges ([minuend] ++ [subtrahend])) ->
  (in_polygons (polygons_of g) p <-> in_polygons [minuend] p /\ ~ in_polygons [subtrahend] p).
Proof.
  intros x Hx o a b g V1 V2 E V. destruct (subtract_polygons_correct x Hx a b V1 V2) as (g' & Hg & _ & _ & _ & _ & B).
  rewrite Hg in E. injection E as <-. exact (valid_result Minus [a] [b] _ B V).
Qed.
