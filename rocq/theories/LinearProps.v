(** Statements about the operations of linear.py in terms of Spec only.
    Proof support for the property files. *)
From Coq Require Import Permutation Sorted.
From Verif Require Import QcTac Geom Spec GeomFacts Relation SortFacts PairFacts PairProofs Pair Bounding Toward BoundingThms UnpackThms Sweep Linear SelectThms LinearMeaning LinearThms LinearComplete.

(** ** Bounding boxes of operands *)
Lemma bounds_unique : forall ss a b, bounds ss a -> bounds ss b -> a = b.
Proof.
  intros ss a b (A & (p1 & P1 & E1) & (p2 & P2 & E2) & (p3 & P3 & E3) & (p4 & P4 & E4))
    (B & (q1 & Q1 & F1) & (q2 & Q2 & F2) & (q3 & Q3 & F3) & (q4 & Q4 & F4)).
  pose proof (A _ Q1) as (U1 & _). pose proof (B _ P1) as (V1 & _).
  pose proof (A _ Q2) as (_ & U2 & _). pose proof (B _ P2) as (_ & V2 & _).
  pose proof (A _ Q3) as (_ & _ & U3 & _). pose proof (B _ P3) as (_ & _ & V3 & _).
  pose proof (A _ Q4) as (_ & _ & _ & U4). pose proof (B _ P4) as (_ & _ & _ & V4).
  destruct a, b. cbn in *. f_equal; qlra.
Qed.
Lemma bounds_one : forall s, bounds [s] (segment_box s).
Proof.
  intro s. assert (A : on_segments (s_start s) [s]) by (exists s; split; [left; reflexivity|apply on_segment_start]).
  assert (B : on_segments (s_end s) [s]) by (exists s; split; [left; reflexivity|apply on_segment_end]).
  split; [intros p (t & [<-|[]] & K); exact (on_segment_box p s K)|]. unfold segment_box, Qc_min, Qc_max. cbn.
  breflect; (split; [|split; [|split]]); eauto.
Qed.
Lemma bounds_app : forall xs ys a b, bounds xs a -> bounds ys b -> bounds (xs ++ ys) (box_merge a b).
Proof.
  intros xs ys a b (A & (p1 & P1 & E1) & (p2 & P2 & E2) & (p3 & P3 & E3) & (p4 & P4 & E4))
    (B & (q1 & Q1 & F1) & (q2 & Q2 & F2) & (q3 & Q3 & F3) & (q4 & Q4 & F4)).
  assert (Wa : wf_box a) by (pose proof (A _ P1); pose proof (A _ P3); unfold in_box in *; split; qlra).
  assert (Wb : wf_box b) by (pose proof (B _ Q1); pose proof (B _ Q3); unfold in_box in *; split; qlra).
  assert (L : forall p, on_segments p xs -> on_segments p (xs ++ ys)) by (intros p K; apply on_app; left; exact K).
  assert (R : forall p, on_segments p ys -> on_segments p (xs ++ ys)) by (intros p K; apply on_app; right; exact K).
  split.
  - intros p K. apply (proj2 (box_merge_in a b p Wa Wb)). apply on_app in K. destruct K as [K|K]; [left; exact (A p K)|right; exact (B p K)].
  - unfold box_merge, Qc_min, Qc_max. cbn. breflect; (split; [|split; [|split]]); eauto.
Qed.
Lemma segments_box_bounds : forall ss b, segments_box ss = Some b <-> bounds ss b.
Proof.
  assert (G : forall ss b, segments_box ss = Some b -> bounds ss b).
  { intros [|s0 r] b E; [discriminate E|]. cbn in E. injection E as <-. change (s0 :: r) with ([s0] ++ r).
    pose proof (bounds_one s0) as B. revert B. generalize [s0] (segment_box s0). induction r as [|s r IH]; intros xs a B; cbn [fold_left].
    - rewrite app_nil_r. exact B.
    - change (s :: r) with ([s] ++ r). rewrite app_assoc. apply IH. apply bounds_app; [exact B|apply bounds_one]. }
  intros ss b. split; [apply G|]. intro B. assert (N : ss <> []).
  { intros ->. destruct B as (_ & (p & (s & [] & _) & _) & _). }
  destruct (segments_box_some ss N) as (a & E). rewrite (bounds_unique ss b a B (G ss a E)). exact E.
Qed.
Lemma bounds_wf : forall ss b, bounds ss b -> wf_box b.
Proof. intros ss b B. apply segments_box_bounds in B. exact (proj1 (segments_box_in _ _ B)). Qed.
Lemma separate_disjoint : forall first second a b, bounds first a -> bounds second b -> (disjoint_with a b = true <-> separate a b).
Proof. intros first second a b A B. apply disjoint_with_points; eapply bounds_wf; eassumption. Qed.

(** ** Operations *)
Theorem unite_exact : forall first second, non_overlapping first -> non_overlapping second -> first <> [] -> second <> [] ->
  exists g, (forall o, unite_multisegments o first second = Ok g)
  /\ points_of g = [] /\ polygons_of g = [] /\ Forall proper (segments_of g)
  /\ (forall p, in_geometry p g <-> on_segments p first \/ on_segments p second).
Proof.
  intros first second N1 N2 E1 E2. destruct (union_correct first second N1 N2 E1 E2) as (g & G & A & B & C & D & _).
  exists g. tauto.
Qed.
Theorem symmetric_exact : forall first second, non_overlapping first -> non_overlapping second -> first <> [] -> second <> [] ->
  exists g, (forall o, symmetric_subtract_multisegments o first second = Ok g) /\ closure_symmetric_difference g first second.
Proof.
  intros first second N1 N2 E1 E2. destruct (symmetric_difference_correct first second N1 N2 E1 E2) as (g & G & A & _).
  exists g. split; assumption.
Qed.
Lemma one_non_overlapping : forall s, proper s -> non_overlapping [s].
Proof.
  intros s P. split; [constructor; [exact P|constructor]|]. intros [|i] [|j] a b N A B; try (destruct i; discriminate A); try (destruct j; discriminate B); congruence.
Qed.
Theorem symmetric_segment_exact : forall s second, proper s -> non_overlapping second -> second <> [] ->
  exists g, (forall o, symmetric_subtract_multisegment_from_segment o s second = Ok g) /\ closure_symmetric_difference g [s] second.
Proof.
  intros s second P N E. destruct (symmetric_difference_correct [s] second (one_non_overlapping s P) N ltac:(discriminate) E) as (g & G & A & _).
  exists g. split; assumption.
Qed.

(** What is filtered out of the intersection. *)
Theorem intersect_exact : forall first second a b, non_overlapping first -> non_overlapping second -> bounds first a -> bounds second b ->
  (forall s t, In s first -> In t second -> overlap s t -> box_friendly b s /\ box_friendly a t) ->
  exists g, (forall o, intersect_multisegments o first second = Ok g) /\ common_sub_segments g first second.
Proof.
  intros first second a b N1 N2 A B F. apply segments_box_bounds in A. apply segments_box_bounds in B.
  destruct (intersection_correct first second a b N1 N2 A B) as (g & G & G1 & G2 & G3 & G4 & G5).
  exists g. split; [exact G|]. split; [exact G1|]. split; [exact G2|]. split.
  { apply Forall_forall. intros s Hs. apply plt_neq. exact (proj1 G4 s Hs). }
  intro p. rewrite G5. split; intros (s & t & Hs & Ht & O & Ps & Pt); exists s, t.
  - apply filter_In in Hs. apply filter_In in Ht. tauto.
  - destruct (F s t Hs Ht O) as (F1 & F2). split; [|split; [|tauto]].
    + apply (coupled_kept second b first s B N1 Hs); [exists t; split; [exact Ht|apply overlap_sym; exact O]|exact F1].
    + apply (coupled_kept first a second t A N2 Ht); [exists s; split; [exact Hs|exact O]|exact F2].
Qed.
(** Whatever is returned is common to the operands. *)
Theorem intersect_sound : forall first second, non_overlapping first -> non_overlapping second -> first <> [] -> second <> [] ->
  exists g, (forall o, intersect_multisegments o first second = Ok g)
  /\ points_of g = [] /\ polygons_of g = [] /\ Forall proper (segments_of g)
  /\ (forall p, in_geometry p g -> on_common_segment p first second).
Proof.
  intros first second N1 N2 E1 E2. destruct (segments_box_some first E1) as (a & A). destruct (segments_box_some second E2) as (b & B).
  destruct (intersection_correct first second a b N1 N2 A B) as (g & G & G1 & G2 & G3 & G4 & G5).
  exists g. split; [exact G|]. split; [exact G1|]. split; [exact G2|]. split.
  { apply Forall_forall. intros s Hs. apply plt_neq. exact (proj1 G4 s Hs). }
  intro p. rewrite G5. intros (s & t & Hs & Ht & O & Ps & Pt); exists s, t. apply filter_In in Hs. apply filter_In in Ht. tauto.
Qed.
(** For boxes with interior, precisely what is returned. *)
Theorem intersect_solid : forall first second a b, non_overlapping first -> non_overlapping second -> bounds first a -> bounds second b ->
  solid_box a -> solid_box b ->
  exists g, (forall o, intersect_multisegments o first second = Ok g)
  /\ (forall p, in_geometry p g <-> exists s t, In s first /\ In t second /\ overlap s t /\ on_segment p s /\ on_segment p t
        /\ box_friendly b s /\ box_friendly a t).
Proof.
  intros first second a b N1 N2 A B Sa Sb. pose proof A as A'. pose proof B as B'. apply segments_box_bounds in A. apply segments_box_bounds in B.
  destruct (intersection_correct first second a b N1 N2 A B) as (g & G & G1 & G2 & G3 & G4 & G5).
  exists g. split; [exact G|]. intro p. rewrite G5.
  assert (Q : forall s t, In s first -> In t second -> overlap s t ->
    (coupled_with_segment b s = true <-> box_friendly b s) /\ (coupled_with_segment a t = true <-> box_friendly a t)).
  { intros s t Hs Ht (x & y & N & X1 & X2 & Y1 & Y2). split; apply coupled_with_segment_exact; try assumption.
    - exact (proj1 (Forall_forall _ _) (proj1 N1) s Hs).
    - exists x, y. split; [exact N|]. split; (split; [apply B'; exists t; split; assumption|assumption]).
    - exact (proj1 (Forall_forall _ _) (proj1 N2) t Ht).
    - exists x, y. split; [exact N|]. split; (split; [apply A'; exists s; split; assumption|assumption]). }
  split; intros (s & t & Hs & Ht & O & K); exists s, t.
  - apply filter_In in Hs. apply filter_In in Ht. destruct Hs as (Hs & Cs), Ht as (Ht & Ct). destruct (Q s t Hs Ht O) as (Q1 & Q2).
    apply Q1 in Cs. apply Q2 in Ct. tauto.
  - destruct (Q s t Hs Ht O) as (Q1 & Q2). destruct K as (K1 & K2 & K3 & K4). apply Q1 in K3. apply Q2 in K4.
    split; [apply filter_In; split; assumption|]. split; [apply filter_In; split; assumption|]. tauto.
Qed.

Theorem subtract_exact : forall minuend subtrahend, non_overlapping minuend -> non_overlapping subtrahend -> minuend <> [] -> subtrahend <> [] ->
  exists g, (forall o, subtract_multisegments o minuend subtrahend = Ok g)
  /\ points_of g = [] /\ polygons_of g = [] /\ Forall proper (segments_of g)
  /\ (forall p, on_segments p minuend -> ~ on_segments p subtrahend -> in_geometry p g)
  /\ (forall p, in_geometry p g -> on_segments p minuend)
  /\ (forall s t box, In s (segments_of g) -> In t subtrahend -> bounds minuend box -> box_friendly box t -> ~ overlap s t).
Proof.
  intros first second N1 N2 E1 E2.
  destruct (difference_correct (GMultisegment first) first second N1 N2 E1 E2 eq_refl eq_refl eq_refl) as (g & G & G1 & G2 & G3 & G4 & G5 & G6 & _).
  exists g. split; [exact G|]. split; [exact G1|]. split; [exact G2|]. split; [exact G3|]. split; [exact G4|]. split; [exact G5|].
  intros s t box Hs Ht B. apply segments_box_bounds in B. exact (G6 s t box Hs Ht B).
Qed.
Theorem subtract_from_segment_exact : forall s subtrahend, proper s -> non_overlapping subtrahend -> subtrahend <> [] ->
  exists g, (forall o, subtract_multisegment_from_segment o s subtrahend = Ok g)
  /\ points_of g = [] /\ polygons_of g = [] /\ Forall proper (segments_of g)
  /\ (forall p, on_segment p s -> ~ on_segments p subtrahend -> in_geometry p g)
  /\ (forall p, in_geometry p g -> on_segment p s)
  /\ (forall k t, In k (segments_of g) -> In t subtrahend -> box_friendly (segment_box s) t -> ~ overlap k t).
Proof.
  intros s second P N2 E2.
  destruct (difference_correct (GSegment s) [s] second (one_non_overlapping s P) N2 ltac:(discriminate) E2 eq_refl eq_refl eq_refl) as (g & G & G1 & G2 & G3 & G4 & G5 & G6 & _).
  exists g. split; [exact G|]. split; [exact G1|]. split; [exact G2|]. split; [exact G3|]. split; [|split].
  - intros p K. apply G4. exists s. split; [left; reflexivity|exact K].
  - intros p K. destruct (G5 p K) as (k & [<-|[]] & K'). exact K'.
  - intros k t Hk Ht. exact (G6 k t _ Hk Ht eq_refl).
Qed.
Theorem complete_exact : forall first second, non_overlapping first -> non_overlapping second -> first <> [] -> second <> [] ->
  exists g, (forall o, complete_intersect_multisegments o first second = Ok g) /\ exact_intersection g first second.
Proof.
  intros first second N1 N2 E1 E2. destruct (complete_intersection_correct first second N1 N2 E1 E2) as (g & G & A & _).
  exists g. split; assumption.
Qed.
Theorem complete_segment_exact : forall s second, proper s -> non_overlapping second -> second <> [] ->
  exists g, (forall o, complete_intersect_segment_with_multisegment o s second = Ok g) /\ exact_intersection g [s] second.
Proof.
  intros s second P N E. destruct (complete_intersection_correct [s] second (one_non_overlapping s P) N ltac:(discriminate) E) as (g & G & A & _).
  exists g. split; assumption.
Qed.

(** ** No exceptions, no dependence on the containers *)
Theorem linear_total : forall first second, non_overlapping first -> non_overlapping second -> first <> [] -> second <> [] ->
  (exists g, forall o, unite_multisegments o first second = Ok g)
  /\ (exists g, forall o, symmetric_subtract_multisegments o first second = Ok g)
  /\ (exists g, forall o, intersect_multisegments o first second = Ok g)
  /\ (exists g, forall o, subtract_multisegments o first second = Ok g)
  /\ (exists g, forall o, complete_intersect_multisegments o first second = Ok g).
Proof.
  intros first second N1 N2 E1 E2.
  destruct (unite_exact first second N1 N2 E1 E2) as (g1 & G1 & _).
  destruct (symmetric_exact first second N1 N2 E1 E2) as (g2 & G2 & _).
  destruct (intersect_sound first second N1 N2 E1 E2) as (g3 & G3 & _).
  destruct (subtract_exact first second N1 N2 E1 E2) as (g4 & G4 & _).
  destruct (complete_exact first second N1 N2 E1 E2) as (g5 & G5 & _).
  repeat split; eexists; eassumption.
Qed.
Theorem linear_segment_total : forall s second, proper s -> non_overlapping second -> second <> [] ->
  (exists g, forall o, symmetric_subtract_multisegment_from_segment o s second = Ok g)
  /\ (exists g, forall o, subtract_multisegment_from_segment o s second = Ok g)
  /\ (exists g, forall o, complete_intersect_segment_with_multisegment o s second = Ok g).
Proof.
  intros s second P N E.
  destruct (symmetric_segment_exact s second P N E) as (g2 & G2 & _).
  destruct (subtract_from_segment_exact s second P N E) as (g4 & G4 & _).
  destruct (complete_segment_exact s second P N E) as (g5 & G5 & _).
  repeat split; eexists; eassumption.
Qed.

(** ** Form of the results *)
Theorem linear_arranged : forall first second a b, non_overlapping first -> non_overlapping second -> bounds first a -> bounds second b ->
  (exists g, (forall o, unite_multisegments o first second = Ok g) /\ (~ separate a b -> arranged (segments_of g)))
  /\ (exists g, (forall o, symmetric_subtract_multisegments o first second = Ok g) /\ (~ separate a b -> canonical g /\ arranged (segments_of g)))
  /\ (exists g, (forall o, intersect_multisegments o first second = Ok g) /\ canonical g /\ arranged (segments_of g))
  /\ (exists g, (forall o, subtract_multisegments o first second = Ok g)
        /\ (g = GMultisegment first \/ canonical g /\ arranged (segments_of g)))
  /\ (exists g, (forall o, complete_intersect_multisegments o first second = Ok g)
        /\ canonical g /\ arranged (segments_of g) /\ StronglySorted plt (points_of g)).
Proof.
  intros first second a b N1 N2 A B. pose proof (proj2 (segments_box_bounds _ _) A) as A'. pose proof (proj2 (segments_box_bounds _ _) B) as B'.
  assert (E1 : first <> []) by (intros ->; discriminate A'). assert (E2 : second <> []) by (intros ->; discriminate B').
  assert (D : ~ separate a b -> disjoint_with a b = false).
  { intro K. destruct (disjoint_with a b) eqn:E; [|reflexivity]. exfalso. apply K. apply (separate_disjoint first second a b A B). exact E. }
  destruct (union_correct first second N1 N2 E1 E2) as (g1 & G1 & _ & _ & _ & _ & _ & H1).
  destruct (symmetric_difference_correct first second N1 N2 E1 E2) as (g2 & G2 & _ & _ & H2).
  destruct (intersection_correct first second a b N1 N2 A' B') as (g3 & G3 & _ & _ & H3 & H3' & _).
  destruct (difference_correct (GMultisegment first) first second N1 N2 E1 E2 eq_refl eq_refl eq_refl) as (g4 & G4 & _ & _ & _ & _ & _ & _ & H4).
  destruct (complete_intersection_correct first second N1 N2 E1 E2) as (g5 & G5 & _ & H5).
  split; [exists g1; split; [exact G1|intro K; exact (H1 a b A' B' (D K))]|].
  split; [exists g2; split; [exact G2|intro K; exact (H2 a b A' B' (D K))]|].
  split; [exists g3; split; [exact G3|split; assumption]|].
  split; [exists g4; split; [exact G4|exact H4]|].
  exists g5. split; [exact G5|exact H5].
Qed.

(** ** Operands with disjoint boxes *)
Lemma sorted_segments : forall l, StronglySorted (fun a b => ~ segment_lt b a) (sort_by seg_ltb l).
Proof.
  intro l. assert (H : StronglySorted (fun a b => seg_ltb b a = false) (sort_by seg_ltb l)).
  { apply (sort_by_sorted seg_ltb (fun _ => True)).
    - intros x y z _ _ _ H J. destruct (seg_ltb_spec y x) as [|H']; [discriminate H|]. destruct (seg_ltb_spec z y) as [|J']; [discriminate J|].
      destruct (seg_ltb_spec z x) as [K|K]; [exfalso|reflexivity].
      destruct (seg_lt_total z y) as [?|[->|?]]; [tauto|tauto|]. exact (H' (seg_lt_trans _ _ _ H0 K)).
    - intros x y _ _ H. destruct (seg_ltb_spec x y) as [K|K]; [|discriminate H]. destruct (seg_ltb_spec y x) as [J|J]; [|reflexivity].
      exfalso. exact (seg_lt_irrefl _ (seg_lt_trans _ _ _ K J)).
    - apply Forall_forall. trivial. }
  induction H as [|x l' H IH F]; [constructor|]. constructor; [exact IH|]. eapply Forall_impl; [|exact F].
  cbn. intros y K. destruct (seg_ltb_spec y x); [discriminate K|assumption].
Qed.
Theorem separate_boxes : forall first second a b, bounds first a -> bounds second b -> separate a b ->
  (forall o, intersect_multisegments o first second = Ok GEmpty)
  /\ (forall o, complete_intersect_multisegments o first second = Ok GEmpty)
  /\ (forall o, subtract_multisegments o first second = Ok (GMultisegment first))
  /\ (exists ss, (forall o, unite_multisegments o first second = Ok (GMultisegment ss))
        /\ (forall o, symmetric_subtract_multisegments o first second = Ok (GMultisegment ss))
        /\ Permutation (first ++ second) ss /\ StronglySorted (fun s t => ~ segment_lt t s) ss)
  /\ (forall p, ~ (on_segments p first /\ on_segments p second)).
Proof.
  intros first second a b A B S. pose proof (proj2 (separate_disjoint first second a b A B) S) as D.
  pose proof (proj2 (segments_box_bounds _ _) A) as A'. pose proof (proj2 (segments_box_bounds _ _) B) as B'.
  unfold intersect_multisegments, linear_intersection, complete_intersect_multisegments, linear_complete_intersection,
    subtract_multisegments, linear_difference, unite_multisegments, linear_union, symmetric_subtract_multisegments,
    linear_symmetric_difference, with_boxes. rewrite A', B', D.
  split; [reflexivity|]. split; [reflexivity|]. split; [reflexivity|]. split.
  - exists (sort_by seg_ltb (first ++ second)). split; [reflexivity|]. split; [reflexivity|]. split; [|apply sorted_segments].
    apply Permutation_sym. apply sort_by_perm.
  - intros p (K1 & K2). exact (disjoint_boxes first second a b p A' B' D K1 K2).
Qed.
