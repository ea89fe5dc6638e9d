(** Difference of segments and polygons. *)
From Coq Require Import Permutation Sorted.
From Verif Require Import QcTac Geom Spec SpecShape SpecLocate GeomFacts Toward Bounding BoundingThms UnpackThms LoopThms Unique Relation Pair Sweep Linear Labelled Contour Filter Mixed Parity Outline SweepGeo SweepEnd Classify SelectThms LinearMeaning LinearThms LinearComplete MixedThms MixedComplete EvenOdd Shapes Polygons FilterThms MixedProps CoupledThms.

Definition rights_in (s : state) (m : list event) : list nat := flat_map (fun ev => match ev with EL _ => [] | ER r => [r_left (rgt s r)] end) m.
Lemma put_right : forall s m, flat_map (fun ev => out_right ev s) m = map EL (rights_in s m).
Proof. intros s m. unfold rights_in. induction m as [|[i|r] m IH]; [reflexivity|exact IH|]. cbn. f_equal. exact IH. Qed.
Lemma picked_ids : forall s ids, resulting (s, map EL ids) = map (seg_of s) (filter (fun i => l_result (lft s i)) ids).
Proof.
  intros s ids. unfold resulting. induction ids as [|i m IH]; [reflexivity|]. cbn. destruct (l_result (lft s i)); [cbn; f_equal; exact IH|exact IH].
Qed.
Lemma rights_in_in : forall s m i, In i (rights_in s m) <-> exists r, In (ER r) m /\ r_left (rgt s r) = i.
Proof.
  intros s m i. unfold rights_in. rewrite in_flat_map. split.
  - intros ([j|r] & H & K); [destruct K|]. destruct K as [K|[]]. exists r. split; assumption.
  - intros (r & H & K). exists (ER r). split; [exact H|left; exact K].
Qed.
Lemma rights_in_nodup : forall s m, NoDup m -> (forall r r', In (ER r) m -> In (ER r') m -> r_left (rgt s r) = r_left (rgt s r') -> r = r') -> NoDup (rights_in s m).
Proof.
  intros s m. induction m as [|[i|r] m IH]; intros N J; [constructor| |]; apply NoDup_cons_iff in N; destruct N as (N1 & N2).
  - apply (IH N2). intros a b A B. apply J; right; assumption.
  - change (NoDup (r_left (rgt s r) :: rights_in s m)). constructor; [|apply (IH N2); intros a b A B; apply J; right; assumption].
    intro K. apply rights_in_in in K. destruct K as (r' & A & B). apply N1. replace r with r'; [exact A|]. apply J; [right; exact A|left; reflexivity|exact B].
Qed.

Section Minus.
Variables (x : locators) (first : list segment) (ps : list polygon).
Hypothesis Hx : right_locators x.
Hypothesis Hf : non_overlapping first.
Hypothesis Hps : valid_polygons ps.
Hypothesis Nf : first <> [].
Hypothesis Np : ps <> [].
Lemma linear_wide : forall a, segments_box first = Some a -> wide_box a.
Proof.
  intros a Ea. destruct (segments_box_in first a Ea) as (W & K). split; [exact W|]. destruct first as [|s l] eqn:E; [contradiction|].
  pose proof (Forall_inv (proj1 Hf)) as P. pose proof (K s _ (or_introl eq_refl) (on_segment_start s)) as (A1 & A2 & A3 & A4). pose proof (K s _ (or_introl eq_refl) (on_segment_end s)) as (B1 & B2 & B3 & B4).
  destruct W as (W1 & W2). destruct (Qcle_lt_or_eq _ _ W1) as [L|L]; [left; exact L|]. destruct (Qcle_lt_or_eq _ _ W2) as [M|M]; [right; exact M|exfalso].
  apply P. apply pt_ext; [clear - A1 A2 B1 B2 L; qlra|clear - A3 A4 B3 B4 M; qlra].
Qed.
Lemma bounds_sub : forall a b q, segments_box first = Some a -> bounds first b -> in_box q b -> in_box q a.
Proof.
  intros a b q Ea (_ & (p1 & O1 & E1) & (p2 & O2 & E2) & (p3 & O3 & E3) & (p4 & O4 & E4)) (Q1 & Q2 & Q3 & Q4). destruct (segments_box_in first a Ea) as (_ & K).
  assert (In1 : forall p, on_segments p first -> in_box p a) by (intros p (s & Hs & O); exact (K s p Hs O)).
  destruct (In1 p1 O1) as (A & _). destruct (In1 p2 O2) as (_ & B & _). destruct (In1 p3 O3) as (_ & _ & C & _). destruct (In1 p4 O4) as (_ & _ & _ & D).
  rewrite E1 in A. rewrite E2 in B. rewrite E3 in C. rewrite E4 in D. repeat split; eapply Qcle_trans; eassumption.
Qed.
Theorem mixed_difference_correct : forall value, points_of value = [] -> polygons_of value = [] -> segments_of value = first ->
  exists g, (forall o, mixed_difference x o value first ps = Ok g) /\ points_of g = [] /\ polygons_of g = []
  /\ part_off (segments_of g) first (in_polygons ps) (inside_polygons ps)
  /\ (valid_multisegment first -> valid_multisegment (segments_of g))
  /\ (g = value \/ canonical g) /\ along_outer (segments_of g) first ps.
Proof.
  intros value L1 L2 L3.
  destruct (segments_box_some first Nf) as (a & Ea). destruct (polygons_box_some ps Hps Np) as (b & Eb).
  pose proof (proj1 Hf) as PF. pose proof (proj1 Hps) as VG. rewrite Forall_forall in VG.
  destruct (segments_box_in first a Ea) as (W & K). pose proof (linear_wide a Ea) as Wd.
  assert (InA : forall p, on_segments p first -> in_box p a) by (intros p (s & Hs & O); exact (K s p Hs O)).
  destruct (disjoint_with a b) eqn:D.
  { pose proof (fun p => far_apart first ps Hps a b p Ea Eb D) as Far.
    exists value. split; [intro o; unfold mixed_difference, with_mixed_boxes; rewrite Ea, Eb, D; reflexivity|]. rewrite L3.
    split; [exact L1|]. split; [exact L2|]. split; [|split; [tauto|split; [left; reflexivity|]]].
    - split; [exact PF|]. split; [tauto|]. split; [tauto|]. intros p O (g & Hg & J). apply (Far p O). exists g. split; [exact Hg|exact (inside_polygon_in g p (VG g Hg) J)].
    - intros b' s p g _ Hs O Hg J. exfalso. apply (Far p); [exists s; split; [exact Hs|exact (proj1 O)]|exists g; split; assumption]. }
  set (ps' := to_coupled_polygons x a ps).
  assert (V' : valid_polygons ps') by (apply valid_polygons_filter, Hps).
  assert (Drop : forall g, In g ps -> ~ In g ps' -> forall q, in_box q a -> ~ inside_polygon g q).
  { intros g Hg N. apply (coupled_polygon_sound x a Hx Wd g (VG g Hg)). destruct (coupled_with_polygon x a g) eqn:E; [|reflexivity]. elim N. apply filter_In. split; assumption. }
  assert (Dec : forall g, In g ps -> In g ps' \/ ~ In g ps').
  { intros g Hg. destruct (coupled_with_polygon x a g) eqn:E; [left; apply filter_In; split; assumption|right]. intro J. apply filter_In in J. rewrite E in J. destruct J as (_ & J). discriminate J. }
  destruct ps' as [|g0 gs] eqn:Eps.
  { exists value. split; [intro o; unfold mixed_difference, with_mixed_boxes; rewrite Ea, Eb, D; unfold ps' in Eps; rewrite Eps; reflexivity|]. rewrite L3.
    split; [exact L1|]. split; [exact L2|]. split; [|split; [tauto|split; [left; reflexivity|]]].
    - split; [exact PF|]. split; [tauto|]. split; [tauto|]. intros p O (g & Hg & J). exact (Drop g Hg (fun F => F) p (InA p O) J).
    - intros b' s p g Bb _ _ Hg _ q Bq. exact (Drop g Hg (fun F => F) q (bounds_sub a b' q Ea Bb Bq)). }
  rewrite <- Eps in *.
  destruct (mixed_sweep first ps' (segments_x_max first) false Hf (oriented_boundary ps' V')) as (s & out & pl & H & R).
  assert (Hc : LinearMeaning.covers first (edges_of ps') (segments_x_max first) true) by (intros z E; exact (segments_x_max_in first z E)).
  pose proof (ms_processed _ _ _ _ _ _ _ H) as Hpr.
  set (ids := rights_in s pl). set (L := map (seg_of s) (filter (fun i => l_result (lft s i)) ids)).
  assert (I1 : forall i, In i out -> In i ids).
  { intros i Hi. apply rights_in_in. pose proof (pr_range _ _ _ _ Hpr _ (pr_left _ _ _ _ Hpr i Hi)) as Ri. destruct (proj1 (proj2 (pr_wf _ _ _ _ Hpr)) i Ri) as (A & B).
    exists (l_right (lft s i)). split; [|exact B]. apply (pr_out _ _ _ _ Hpr _ A). rewrite B. exact Hi. }
  assert (I2 : forall i, In i ids -> In (EL i) pl).
  { intros i Hi. apply rights_in_in in Hi. destruct Hi as (r & A & <-). apply (pr_left _ _ _ _ Hpr). apply (pr_out _ _ _ _ Hpr r (pr_range _ _ _ _ Hpr _ A)). exact A. }
  assert (I3 : NoDup ids).
  { apply rights_in_nodup; [exact (pr_nodup _ _ _ _ Hpr)|]. intros r r' A B E. pose proof (proj2 (proj2 (proj2 (pr_wf _ _ _ _ Hpr)) r (pr_range _ _ _ _ Hpr _ A))) as Y.
    pose proof (proj2 (proj2 (proj2 (pr_wf _ _ _ _ Hpr)) r' (pr_range _ _ _ _ Hpr _ B))) as Y'. rewrite <- Y, E. exact Y'. }
  pose proof (out_valid _ _ _ _ _ _ _ H Hc ids I2 I3) as VL. pose proof (out_source _ _ _ _ _ _ _ H Hc ids I1 I2) as Src.
  pose proof (out_complete _ _ _ _ _ _ _ H eq_refl Hc ids I1 I2) as Cov. pose proof (out_outside _ _ _ _ _ _ _ H eq_refl Hc ids I1 I2) as Ins. pose proof (out_not_interior _ _ _ _ _ _ _ H eq_refl Hc ids I1 I2) as NI.
  fold L in VL, Src, Cov, Ins, NI.
  assert (SubL : forall p, on_segments p L -> on_segments p first) by (intros p (k & Hk & O); destruct (Src k Hk) as (sg & Hg & Wk); exists sg; split; [exact Hg|exact (Wk p O)]).
  destruct (unpack_segments_canonical L) as (C & C1 & C2 & C3).
  exists (unpack_segments L). split; [|rewrite C2; split; [exact C1|split; [exact C3|split; [|split; [intros _; exact VL|split; [right; exact C|]]]]]].
  - intro o. unfold mixed_difference, with_mixed_boxes. rewrite Ea, Eb, D. fold ps'. rewrite Eps. cbv zeta iota. rewrite <- Eps.
    change mixed_out with (mixed_test false). rewrite (R o out_right by_right), put_right. cbn [bind_res]. rewrite picked_ids. reflexivity.
  - split; [exact (proj1 VL)|]. split; [|split; [exact SubL|]].
    + intros p O N. apply (Cov p O). rewrite (oriented_region ps' V'). intros (g & Hg & J). apply N. exists g. split; [apply filter_In in Hg; exact (proj1 Hg)|exact J].
    + intros p O (g & Hg & J). destruct (Dec g Hg) as [I|I].
      * apply (NI p O). apply (oriented_interior ps' V'). exists g. split; assumption.
      * exact (Drop g Hg I p (InA p (SubL p O)) J).
  - intros b' k p g Bb Hk O Hg J q Bq. destruct (Dec g Hg) as [I|I].
    + exfalso. apply (Ins k p Hk O). apply (oriented_region ps' V'). exists g. split; assumption.
    + exact (Drop g Hg I q (bounds_sub a b' q Ea Bb Bq)).
Qed.
End Minus.

(** ** Functions of planar.py *)
Lemma part_off_ext : forall ss first (C C' O O' : point -> Prop), (forall p, C p <-> C' p) -> (forall p, O p <-> O' p) -> part_off ss first C O -> part_off ss first C' O'.
Proof.
  intros ss first C C' O O' E F (A & B & D & G). split; [exact A|]. split; [|split; [exact D|]].
  - intros p K N. apply B; [exact K|]. rewrite (E p). exact N.
  - intros p K. rewrite <- (F p). exact (G p K).
Qed.
Section Planar.
Variable x : locators.
Hypothesis Hx : right_locators x.
Theorem minus_multi_multi : forall ss ps, non_overlapping ss -> valid_polygons ps -> ss <> [] -> ps <> [] ->
  exists g, (forall o, subtract_multipolygon_from_multisegment x o ss ps = Ok g) /\ points_of g = [] /\ polygons_of g = []
  /\ part_off (segments_of g) ss (in_polygons ps) (inside_polygons ps)
  /\ (valid_multisegment ss -> valid_multisegment (segments_of g)) /\ (g = GMultisegment ss \/ canonical g) /\ along_outer (segments_of g) ss ps.
Proof. intros ss ps A B C D. exact (mixed_difference_correct x ss ps Hx A B C D (GMultisegment ss) eq_refl eq_refl eq_refl). Qed.
Theorem minus_segment_multi : forall s ps, proper s -> valid_polygons ps -> ps <> [] ->
  exists g, (forall o, subtract_multipolygon_from_segment x o s ps = Ok g) /\ points_of g = [] /\ polygons_of g = []
  /\ part_off (segments_of g) [s] (in_polygons ps) (inside_polygons ps)
  /\ valid_multisegment (segments_of g) /\ canonical g /\ along_outer (segments_of g) [s] ps.
Proof.
  intros s ps A B D. destruct (mixed_difference_correct x [s] ps Hx (single_segment s A) B ltac:(discriminate) D (GSegment s) eq_refl eq_refl eq_refl) as (g & R & K1 & K2 & K3 & K4 & K5 & K6).
  exists g. split; [exact R|]. split; [exact K1|]. split; [exact K2|]. split; [exact K3|]. split; [|split; [|exact K6]].
  - apply K4. split; [constructor; [exact A|constructor]|]. intros [|i] [|j] u v Hn E E'; try congruence; [destruct j|destruct i|destruct i]; discriminate.
  - destruct K5 as [->|K5]; [exact (proj1 (unpack_segments_canonical [s]))|exact K5].
Qed.
Theorem minus_multi_polygon : forall ss p, non_overlapping ss -> valid_polygon p -> ss <> [] ->
  exists g, (forall o, subtract_polygon_from_multisegment x o ss p = Ok g) /\ points_of g = [] /\ polygons_of g = []
  /\ part_off (segments_of g) ss (in_polygon p) (inside_polygon p)
  /\ (valid_multisegment ss -> valid_multisegment (segments_of g)) /\ (g = GMultisegment ss \/ canonical g) /\ along_outer (segments_of g) ss [p].
Proof.
  intros ss p A B C. destruct (mixed_difference_correct x ss [p] Hx A (single_polygon_valid p B) C ltac:(discriminate) (GMultisegment ss) eq_refl eq_refl eq_refl) as (g & R & K1 & K2 & K3 & K4).
  exists g. split; [exact R|]. split; [exact K1|]. split; [exact K2|]. split; [exact (part_off_ext _ _ _ _ _ _ (in_single p) (inside_single p) K3)|exact K4].
Qed.
Theorem minus_segment_polygon : forall s p, proper s -> valid_polygon p ->
  exists g, (forall o, subtract_polygon_from_segment x o s p = Ok g) /\ points_of g = [] /\ polygons_of g = []
  /\ part_off (segments_of g) [s] (in_polygon p) (inside_polygon p)
  /\ valid_multisegment (segments_of g) /\ canonical g /\ along_outer (segments_of g) [s] [p].
Proof.
  intros s p A B. destruct (minus_segment_multi s [p] A (single_polygon_valid p B) ltac:(discriminate)) as (g & R & K1 & K2 & K3 & K4).
  exists g. split; [exact R|]. split; [exact K1|]. split; [exact K2|]. split; [exact (part_off_ext _ _ _ _ _ _ (in_single p) (inside_single p) K3)|exact K4].
Qed.
End Planar.
