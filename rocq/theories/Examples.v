(** Concrete inputs showing that the hypotheses of the property theorems can be met. *)
From Verif Require Import QcTac Geom Spec GeomFacts PairFacts PairProofs PairThms LoopThms Bounding BoundingThms Sweep Linear LinearProps
  SpecShape Contour ConnectThms TraceThms RegionThms.

Definition z (n : Z) : Qc := Q2Qc (inject_Z n).
Definition pt (x y : Z) : point := Pt (z x) (z y).
Definition sg (x0 y0 x1 y1 : Z) : segment := Seg (pt x0 y0) (pt x1 y1).

Lemma neq_by_eqb : forall p q, pt_eqb p q = false -> p <> q.
Proof. intros p q H. apply pt_eqb_neq. exact H. Qed.
Ltac proper_tac := apply neq_by_eqb; vm_compute; reflexivity.
Ltac on_tac n := exists (Q2Qc n); repeat split; try (vm_compute; discriminate); apply Qc_is_canon; vm_compute; reflexivity.

(** Segments crossing at (2, 2). *)
Definition ex_a := sg 0 0 4 4.
Definition ex_b := sg 0 4 4 0.
(** A segment overlapping [ex_a]. *)
Definition ex_c := sg 2 2 6 6.
Lemma ex_proper : proper ex_a /\ proper ex_b /\ proper ex_c.
Proof. repeat split; proper_tac. Qed.
Lemma ex_cross : segments_relation ex_a ex_b = CROSS.
Proof. vm_compute. reflexivity. Qed.
Lemma ex_overlap : segments_relation ex_a ex_c = OVERLAP.
Proof. vm_compute. reflexivity. Qed.

(** A multisegment with two segments meeting in an endpoint, both met by [ex_a]. *)
Definition ex_m := [ex_b; sg 4 0 5 5].
Lemma clean_by_relation : forall a b, proper a -> proper b ->
  match segments_relation a b with TOUCH | DISJOINT => true | _ => false end = true -> clean a b.
Proof.
  intros a b Pa Pb. destruct (pair_case_spec a b Pa Pb) as [E1 E2 O|? ? F H1 H2 H3 O|? ? F H1 H2 H3 O
    |? ? F H1 H2 H3 O|? ? F H1 H2 H3 O|x K U E I1 I2|x K U J1 J2 I1 I2|U]; try discriminate; intros _.
  - apply (clean_touch a b x); [exact U|tauto].
  - apply clean_none. exact U.
Qed.

Lemma ex_m_valid : valid_multisegment ex_m.
Proof.
  apply valid_pair; try proper_tac. apply clean_by_relation; try proper_tac. vm_compute. reflexivity.
Qed.

Definition ex_box := Box (z 0) (z 2) (z 0) (z 2).
Definition ex_box2 := Box (z 2) (z 4) (z 0) (z 2).
Lemma ex_solid : solid_box ex_box /\ solid_box ex_box2.
Proof. repeat split; vm_compute; reflexivity. Qed.
Lemma ex_wf : wf_box ex_box.
Proof. split; vm_compute; discriminate. Qed.
(** A segment crossing the box from side to side. *)
Definition ex_d := sg (-1) 1 3 1.
Lemma ex_friendly : solid_box ex_box /\ proper ex_d /\ many (fun p => in_box p ex_box /\ on_segment p ex_d) /\ box_friendly ex_box ex_d.
Proof.
  assert (A : on_segment (pt 0 1) ex_d) by on_tac (1#4). assert (B : on_segment (pt 1 1) ex_d) by on_tac (1#2).
  split; [exact (proj1 ex_solid)|]. split; [proper_tac|]. split.
  - exists (pt 0 1), (pt 1 1). split; [proper_tac|]. split; (split; [unfold in_box; cbn; repeat split; vm_compute; discriminate|assumption]).
  - right. exists (pt 0 1). split; [|split].
    + split; [unfold in_box; cbn; repeat split; vm_compute; discriminate|]. intros (K & _). vm_compute in K. discriminate K.
    + intros (_ & [K|K]); vm_compute in K; discriminate K.
    + split; [exact A|]. split; proper_tac.
Qed.

(** The segment (-1,-1)-(3,3) goes through two corners of the box [0,2]x[0,2]. *)
Lemma coupled_with_segment_wrong : exists b s, solid_box b /\ proper s
  /\ many (fun p => inside_box p b /\ on_segment p s) /\ coupled_with_segment b s = false.
Proof.
  exists (Box (z 0) (z 4) (z 0) (z 4)), (sg (-1) (-1) 5 5).
  split; [split; vm_compute; reflexivity|]. split; [proper_tac|]. split; [|vm_compute; reflexivity].
  exists (pt 1 1), (pt 2 2). split; [proper_tac|].
  split; (split; [repeat split; vm_compute; reflexivity|]).
  - on_tac (1 # 3)%Q.
  - on_tac (1 # 2)%Q.
Qed.

(** Operands of linear operations: segments of one operand may cross. *)
Definition relation_apart (r : relation) : bool := match r with TOUCH | CROSS | DISJOINT => true | _ => false end.
Definition ends_apart (s : segment) : bool := negb (pt_eqb (s_start s) (s_end s)).
Fixpoint all_apart (l : list segment) : bool :=
  match l with
  | [] => true
  | s :: r => ends_apart s && forallb (fun t => relation_apart (segments_relation s t)) r && all_apart r
  end.
Lemma apart_by_relation : forall a b, proper a -> proper b -> relation_apart (segments_relation a b) = true -> ~ overlap a b.
Proof.
  intros a b Pa Pb. destruct (pair_case_spec a b Pa Pb) as [E1 E2 O|? ? F H1 H2 H3 O|? ? F H1 H2 H3 O
    |? ? F H1 H2 H3 O|? ? F H1 H2 H3 O|x K U E I1 I2|x K U J1 J2 I1 I2|U]; try discriminate; intros _.
  - exact (no_overlap_unique _ _ _ U).
  - exact (no_overlap_unique _ _ _ U).
  - exact (no_overlap_none _ _ U).
Qed.
Lemma ends_apart_proper : forall s, ends_apart s = true -> proper s.
Proof. intros s H. apply pt_eqb_neq. unfold ends_apart in H. destruct (pt_eqb _ _); [discriminate H|reflexivity]. Qed.
Lemma all_apart_non_overlapping : forall l, all_apart l = true -> non_overlapping l.
Proof.
  induction l as [|s r IH]; intro H.
  - split; [constructor|]. intros [|i] [|j] a b _ K; discriminate K.
  - cbn in H. apply andb_true_iff in H. destruct H as (H & H2). apply andb_true_iff in H. destruct H as (H0 & H1).
    apply ends_apart_proper in H0. destruct (IH H2) as (P & Q). split; [constructor; assumption|].
    rewrite forallb_forall in H1. rewrite Forall_forall in P.
    assert (A : forall t, In t r -> ~ overlap s t) by (intros t Ht; apply apart_by_relation; [exact H0|exact (P t Ht)|exact (H1 t Ht)]).
    intros [|i] [|j] a b N Ha Hb; cbn in Ha, Hb.
    + congruence.
    + injection Ha as <-. apply A. exact (nth_error_In _ _ Hb).
    + injection Hb as <-. intro O. apply (A a (nth_error_In _ _ Ha)). apply overlap_sym. exact O.
    + apply (Q i j); [congruence|exact Ha|exact Hb].
Qed.
Definition ex_first := [sg 0 0 4 4; sg 0 4 4 0].
Definition ex_second := [sg 1 1 3 3; sg 0 2 4 2].
Lemma ex_operands : non_overlapping ex_first /\ non_overlapping ex_second /\ ex_first <> [] /\ ex_second <> [].
Proof. split; [apply all_apart_non_overlapping; vm_compute; reflexivity|]. split; [apply all_apart_non_overlapping; vm_compute; reflexivity|]. split; discriminate. Qed.
(** Some behaviours of the external containers. *)
Definition ex_oracle := Oracle (fun _ _ => 0%nat) (fun _ l => (length l / 2)%nat).
Definition ex_oracle2 := Oracle (fun n l => n) (fun _ l => 0%nat).
Definition ex_oracle3 := Oracle (fun _ _ => 0%nat) (fun _ l => ((length l - 1) / 2)%nat).
(** Coordinates of resulting segments and points. *)
Definition show_point (p : point) : Q * Q := (this (px p), this (py p)).
Definition show_segment (s : segment) : (Q * Q) * (Q * Q) := (show_point (s_start s), show_point (s_end s)).
Definition shown (r : res geometry) : list ((Q * Q) * (Q * Q)) :=
  match r with Ok g => map show_segment (segments_of g) | Err _ => [] end.
Definition shown_points (r : res geometry) : list (Q * Q) :=
  match r with Ok g => map show_point (points_of g) | Err _ => [] end.

Definition lies_on (p : point) (s : segment) : bool :=
  orientation_eqb (orient (s_start s) (s_end s) p) COLLINEAR && contains_point (segment_box s) p.
Lemma lies_on_complete : forall p s, on_segment p s -> lies_on p s = true.
Proof.
  intros p s H. unfold lies_on. apply andb_true_iff. split.
  - destruct H as (t & _ & _ & Ex & Ey). unfold orient. assert (E : cross (s_start s) (s_end s) p = 0).
    { unfold cross. rewrite Ex, Ey. ring. }
    rewrite E. reflexivity.
  - apply on_segment_box in H. destruct H as (A & B & C & D). unfold contains_point. breflect; try reflexivity; exfalso; qlra.
Qed.

(** Segments merged wrongly for some shapes of the tree. *)
Definition ex_merge := [sg 3 3 0 0; sg 6 6 0 0; sg 5 5 0 0; sg 6 6 1 1; sg 2 5 5 0].
Lemma merge_loses_points : exists o ss g p, Forall proper ss /\ segments_to_multisegment o ss = Ok g
  /\ on_segments p ss /\ ~ in_geometry p g.
Proof.
  remember (segments_to_multisegment ex_oracle3 ex_merge) as r eqn:E. pose proof E as E'. vm_compute in E'.
  destruct r as [g|e]; [|discriminate E']. exists ex_oracle3, ex_merge, g, (pt 0 0). split; [|split; [|split]].
  - repeat constructor; proper_tac.
  - symmetry. exact E.
  - exists (sg 3 3 0 0). split; [left; reflexivity|exact (on_segment_end (sg 3 3 0 0))].
  - assert (K : points_of g = [] /\ forallb (fun s => negb (lies_on (pt 0 0) s)) (segments_of g) = true).
    { injection E' as ->. split; vm_compute; reflexivity. }
    destruct K as (K1 & K2). intros [J|(s & Hs & Ps)]; [rewrite K1 in J; destruct J|].
    rewrite forallb_forall in K2. specialize (K2 s Hs). rewrite (lies_on_complete _ _ Ps) in K2. discriminate K2.
Qed.
Definition ex_merge2 := [sg 3 3 0 0; sg 6 6 0 0; sg 5 5 0 0; sg 6 6 1 1].
Lemma merge_overlaps : exists o ss g s t, Forall proper ss /\ segments_to_multisegment o ss = Ok g
  /\ In s (segments_of g) /\ In t (segments_of g) /\ s <> t /\ overlap s t.
Proof.
  remember (segments_to_multisegment ex_oracle3 ex_merge2) as r eqn:E. pose proof E as E'. vm_compute in E'.
  destruct r as [g|e]; [|discriminate E'].
  assert (K : exists s t r, segments_of g = s :: t :: r /\ s <> t /\ lies_on (s_start s) t = true /\ overlap s t).
  { injection E' as ->. eexists; eexists; eexists. split; [reflexivity|]. split.
    - intro K. apply (f_equal s_end) in K. cbn in K. apply (f_equal (fun p => this (px p))) in K. discriminate K.
    - split; [vm_compute; reflexivity|]. exists (pt 0 0), (pt 1 1). split; [proper_tac|]. split; [on_tac 0|]. split; [on_tac 0|]. split; [on_tac 1|on_tac (1#3)]. }
  destruct K as (s & t & r & K & Ns & _ & O). exists ex_oracle3, ex_merge2, g, s, t. split; [repeat constructor; proper_tac|].
  split; [symmetry; exact E|]. rewrite K. split; [left; reflexivity|]. split; [right; left; reflexivity|]. split; assumption.
Qed.

(** Operands whose common part is filtered out, as the diagonal of the box of the first one is followed. *)
Definition ex_first2 := [sg 0 0 2 2; sg 0 1 0 2].
Definition ex_second2 := [sg (-1) (-1) 3 3; sg 5 (-1) 5 3].
Lemma ex_valid2 : valid_multisegment ex_first2 /\ valid_multisegment ex_second2.
Proof. split; (apply valid_pair; try proper_tac; apply clean_by_relation; try proper_tac; vm_compute; reflexivity). Qed.
Lemma ex_overlap2 : overlap (sg 0 0 2 2) (sg (-1) (-1) 3 3).
Proof. exists (pt 0 0), (pt 1 1). split; [proper_tac|]. split; [on_tac 0|]. split; [on_tac (1#4)|]. split; [on_tac (1#2)|on_tac (1#2)]. Qed.
Lemma intersect_incomplete : exists first second g p, valid_multisegment first /\ valid_multisegment second
  /\ (forall o, intersect_multisegments o first second = Ok g) /\ on_common_segment p first second /\ ~ in_geometry p g.
Proof.
  exists ex_first2, ex_second2, GEmpty, (pt 0 0). split; [exact (proj1 ex_valid2)|]. split; [exact (proj2 ex_valid2)|]. split; [|split].
  - intro o. vm_compute. reflexivity.
  - exists (sg 0 0 2 2), (sg (-1) (-1) 3 3). split; [left; reflexivity|]. split; [left; reflexivity|]. split; [exact ex_overlap2|].
    split; [on_tac 0|on_tac (1#4)].
  - intros [[]|(s & [] & _)].
Qed.
Lemma subtract_incomplete : exists minuend subtrahend s t, valid_multisegment minuend /\ valid_multisegment subtrahend
  /\ (forall o, subtract_multisegments o minuend subtrahend = Ok (GMultisegment minuend))
  /\ In s minuend /\ In t subtrahend /\ overlap s t.
Proof.
  exists ex_first2, ex_second2, (sg 0 0 2 2), (sg (-1) (-1) 3 3). split; [exact (proj1 ex_valid2)|]. split; [exact (proj2 ex_valid2)|]. split.
  - intro o. vm_compute. reflexivity.
  - split; [left; reflexivity|]. split; [left; reflexivity|]. exact ex_overlap2.
Qed.
Lemma subtract_from_segment_incomplete : exists minuend subtrahend t, proper minuend /\ valid_multisegment subtrahend
  /\ (forall o, subtract_multisegment_from_segment o minuend subtrahend = Ok (GSegment minuend))
  /\ In t subtrahend /\ overlap minuend t.
Proof.
  exists (sg 0 0 2 2), ex_second2, (sg (-1) (-1) 3 3). split; [proper_tac|]. split; [exact (proj2 ex_valid2)|]. split.
  - intro o. vm_compute. reflexivity.
  - split; [left; reflexivity|]. exact ex_overlap2.
Qed.

(** Operands for which nothing is filtered out wrongly. *)
Definition ex_first_box := Box (z 0) (z 4) (z 0) (z 4).
Definition ex_second_box := Box (z 0) (z 4) (z 1) (z 3).
Lemma box_eq : forall a b c d a' b' c' d' : Qc, this a = this a' -> this b = this b' -> this c = this c' -> this d = this d' -> Box a b c d = Box a' b' c' d'.
Proof. intros a b c d a' b' c' d' H1 H2 H3 H4. f_equal; apply Qc_is_canon; first [rewrite H1|rewrite H2|rewrite H3|rewrite H4]; reflexivity. Qed.
Lemma ex_bounds : bounds ex_first ex_first_box /\ bounds ex_second ex_second_box.
Proof.
  split; apply segments_box_bounds; unfold segments_box, ex_first, ex_second, ex_first_box, ex_second_box; apply f_equal; apply box_eq; vm_compute; reflexivity.
Qed.
Lemma ex_friendly2 : forall s t, In s ex_first -> In t ex_second -> overlap s t -> box_friendly ex_second_box s /\ box_friendly ex_first_box t.
Proof.
  assert (N : forall a b, ends_apart a = true -> ends_apart b = true -> relation_apart (segments_relation a b) = true -> overlap a b -> False).
  { intros a b A B R O. exact (apart_by_relation a b (ends_apart_proper a A) (ends_apart_proper b B) R O). }
  intros s t [<-|[<-|[]]] [<-|[<-|[]]] O; try (exfalso; refine (N _ _ _ _ _ O); vm_compute; reflexivity). split.
  - right. exists (pt 1 1). split; [|split].
    + split; [unfold in_box; cbn; repeat split; vm_compute; discriminate|]. intros (_ & _ & K & _). vm_compute in K. discriminate K.
    + intros ([K|K] & _); vm_compute in K; discriminate K.
    + split; [on_tac (1#4)|]. split; proper_tac.
  - left. intros p K. apply on_segment_box in K. unfold in_box in *. destruct K as (A & B & C & D).
    assert (E : min_x (segment_box (sg 1 1 3 3)) = z 1 /\ max_x (segment_box (sg 1 1 3 3)) = z 3 /\ min_y (segment_box (sg 1 1 3 3)) = z 1 /\ max_y (segment_box (sg 1 1 3 3)) = z 3)
      by (repeat split; apply Qc_is_canon; reflexivity).
    destruct E as (E1 & E2 & E3 & E4). rewrite E1 in A. rewrite E2 in B. rewrite E3 in C. rewrite E4 in D.
    assert (L1 : z 0 <= z 1) by (vm_compute; discriminate). assert (L2 : z 3 <= z 4) by (vm_compute; discriminate).
    unfold ex_first_box. cbn [min_x max_x min_y max_y]. repeat split; qlra.
Qed.
(** Operands with disjoint boxes. *)
Definition ex_far := [sg 10 0 12 2; sg 10 5 12 5].
Definition ex_far_box := Box (z 10) (z 12) (z 0) (z 5).
Lemma ex_separate : bounds ex_first ex_first_box /\ bounds ex_far ex_far_box /\ separate ex_first_box ex_far_box.
Proof.
  split; [exact (proj1 ex_bounds)|]. split.
  - apply segments_box_bounds; unfold segments_box, ex_far, ex_far_box; apply f_equal; apply box_eq; vm_compute; reflexivity.
  - intros p ((_ & A & _) & (B & _)). cbn in A, B. assert (L : z 4 < z 10) by (vm_compute; reflexivity). qlra.
Qed.

(** A square with vertices in the middle of its edges. *)
Definition ex_long : list point := [pt 0 0; pt 1 0; pt 2 0; pt 2 1; pt 2 2; pt 0 2; pt 0 1].
Lemma qc_neq : forall a b, Qc_eqb a b = false -> a <> b.
Proof. intros a b H. destruct (Qc_eqb_spec a b); congruence. Qed.
Lemma ex_long_folds : never_folds ex_long.
Proof.
  split; [cbn; lia|]. intros i Hi S. cbn in Hi.
  do 7 (destruct i as [|i]; [try (exfalso; revert S; apply qc_neq; vm_compute; reflexivity);
    (split; [on_tac (1 # 2)|split; proper_tac])|]). lia.
Qed.
(** A contour turning back along its edges. *)
Definition ex_folding : list point :=
  [pt 3 3; pt 2 1; pt 1 1; pt 1 0; pt 2 0; pt 1 (-1); pt 0 0; pt 1 0; pt 1 1; pt 2 1].
Definition ex_folding_result : list point := [pt 2 0; pt 1 (-1); pt 0 0; pt 1 0].
Lemma ex_folding_shrunk : shrink_collinear_vertices ex_folding = Ok ex_folding_result.
Proof. vm_compute. reflexivity. Qed.
Lemma ex_folding_straight : straight ex_folding_result 3.
Proof. apply Qc_is_canon. vm_compute. reflexivity. Qed.

(** Events of the edges of a triangle, sorted. *)
Definition ex_triangle : list traced :=
  [Traced (pt 0 0) (pt 4 0) true 4; Traced (pt 0 0) (pt 2 2) true 2;
   Traced (pt 2 2) (pt 0 0) false 1; Traced (pt 2 2) (pt 4 0) true 5;
   Traced (pt 4 0) (pt 0 0) false 0; Traced (pt 4 0) (pt 2 2) false 3].
Lemma ex_triangle_paired : paired ex_triangle.
Proof.
  intros i Hi. do 6 (destruct i as [|i]; [vm_compute; repeat split; try lia; discriminate|]). cbn in Hi. lia.
Qed.
Lemma ex_triangle_grouped : grouped (starts ex_triangle).
Proof.
  intros i j k Hij Hjk Hk. cbn in Hk.
  do 6 (destruct i as [|i]; [do 6 (destruct j as [|j]; [do 6 (destruct k as [|k];
    [try (exfalso; lia); intro E; try reflexivity; exfalso; revert E; proper_tac|]); exfalso; lia|]); exfalso; lia|]). exfalso; lia.
Qed.
Lemma ex_triangle_even : even_occurrences (starts ex_triangle).
Proof.
  intro p. cbn [starts map ex_triangle t_start count_occ].
  repeat match goal with |- context [pt_eq_dec ?a p] => destruct (pt_eq_dec a p) end; reflexivity.
Qed.
Lemma ex_triangle_planar : planar ex_triangle.
Proof.
  split.
  - intros i Hi. do 6 (destruct i as [|i]; [proper_tac|]). cbn in Hi. lia.
  - intros i j Hi Hj Nij Noj. cbn in Hi, Hj.
    do 6 (destruct i as [|i]; [do 6 (destruct j as [|j];
      [try (exfalso; apply Nij; reflexivity); try (exfalso; apply Noj; reflexivity);
       try (refine (proj1 (clean_by_relation _ _ _ _ _)); [proper_tac|proper_tac|vm_compute; reflexivity])|]); exfalso; lia|]). exfalso; lia.
Qed.

Definition ex_square : list point := [pt 2 0; pt 2 2; pt 0 2; pt 0 0].
Lemma ex_square_distinct : NoDup (rev ex_square).
Proof. repeat constructor; cbn; intro H; repeat destruct H as [H|H]; try contradiction; revert H; proper_tac. Qed.
Lemma ex_square_turns : turns_at_least (rev ex_square).
Proof.
  intros i [Hi _]. cbn in Hi. do 4 (destruct i as [|i]; [apply qc_neq; vm_compute; reflexivity|]). lia.
Qed.
