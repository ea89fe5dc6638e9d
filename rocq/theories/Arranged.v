(** Boundaries of results of operations on regions of two contours, as
    segments.  Proof support only, no part of /repo is modelled here. *)
From Coq Require Import Permutation.
From Verif Require Import QcTac Geom Spec SpecShape SpecSides SpecLocate GeomFacts Toward Bounding BoundingThms LoopThms Unique Relation PairFacts PairProofs SweepGeo SweepInv Sweep Linear SweepStart SweepEnd Contour Labelled Filter Mixed Parity ShrinkThms RegionThms OrientThms Tracing Shaped LabelEnd Outline Classify LinearMeaning LinearThms LinearComplete EvenOdd Shapes Polygons Telescope MixedThms Sides FilterThms ShapedThms Locate Cycle.

Lemma through_reversed : forall s p, passes_through (reversed s) p = passes_through s p.
Proof.
  intros (a, b) p. unfold passes_through, reversed. cbn [s_start s_end]. rewrite orb_comm. f_equal.
  assert (E : cross b a p = - cross a b p) by (unfold cross; ring). rewrite E. destruct (Qc_eqb_spec (- cross a b p) 0) as [K|K], (Qc_eqb_spec (cross a b p) 0) as [J|J]; try reflexivity; exfalso.
  - apply J. clear - K. qlra.
  - apply K. rewrite J. reflexivity.
Qed.
Lemma through_canon : forall s p, passes_through (canon s) p = passes_through s p.
Proof. intros s p. destruct (canon_cases s) as [->| ->]; [reflexivity|apply through_reversed]. Qed.
Lemma above_parity : forall es p, inside_above es p = parity (fun s => passes_under s p || passes_through s p) es.
Proof.
  intros es p. rewrite above_flips, inside_parity. unfold segments_through. induction es as [|s es IH]; [reflexivity|]. cbn [filter parity].
  rewrite <- IH. pose proof (under_through s p) as K. destruct (passes_under s p); [rewrite (K eq_refl)|destruct (passes_through s p)]; cbn [orb length xorb].
  - destruct (parity (fun s => passes_under s p) es), (Nat.odd _); reflexivity.
  - rewrite Nat.odd_succ, <- Nat.negb_odd. destruct (parity (fun s => passes_under s p) es), (Nat.odd _); reflexivity.
  - destruct (parity (fun s => passes_under s p) es), (Nat.odd _); reflexivity.
Qed.
Lemma turned_above : forall es fs p, turned es fs -> inside_above es p = inside_above fs p.
Proof.
  assert (C : forall es p, inside_above (map canon es) p = inside_above es p).
  { intros es p. rewrite !above_parity, parity_map. apply parity_ext. intros s _. rewrite passes_canon, through_canon. reflexivity. }
  intros es fs p H. rewrite <- (C es), <- (C fs), !above_parity. apply parity_perm, H.
Qed.
Lemma above_off : forall es p, Forall proper es -> ~ on_segments p es -> inside_above es p = inside es p.
Proof.
  intros es p P N. rewrite above_flips. unfold segments_through. rewrite none_filter; [apply xorb_false_r|].
  intros s Hs. apply not_true_iff_false. intro K. apply N. exists s. split; [exact Hs|]. rewrite Forall_forall in P. apply (through_spec s p (P s Hs)), K.
Qed.

Section Arranged.
Variables (op : operation) (r c : contour).
Hypothesis Hr : simple_contour (vertices r).
Hypothesis Hc : simple_contour (vertices c).
Notation es b := (edges (if b : bool then r else c)).
Notation oriented c := (flat_map polygon_oriented_edges [Polygon c []]).
Lemma oriented_turned : forall c, turned (oriented c) (edges c).
Proof. intro k. pose proof (turned_polygons [Polygon k []]) as K. cbn in K. unfold polygon_edges in K. cbn in K. rewrite !app_nil_r in K. cbn. rewrite !app_nil_r. exact K. Qed.
Theorem boundary_arranged : exists (L : list segment) (cuts : list point),
  Forall proper L /\ pairwise only_ends L /\ even_occurrences (endpoints_of L)
  /\ (forall p, inside L p = op_holds op (inside (edges r) p) (inside (edges c) p))
  /\ (forall p, ~ In p cuts -> segments_through L p
        = if xorb (op_holds op (inside (edges r) p) (inside (edges c) p)) (op_holds op (inside_above (edges r) p) (inside_above (edges c) p)) then 1%nat else 0%nat)
  /\ (forall k m b, In k L -> on_segment m k -> ~ In m cuts -> on_segments m (es b) -> exists sg, In sg (es b) /\ within k sg)
  /\ (forall k, In k L -> exists b sg, In sg (es b) /\ within k sg).
Proof.
  set (E1 := oriented r). set (E2 := oriented c).
  assert (T1 : turned E1 (edges r)) by exact (oriented_turned r). assert (T2 : turned E2 (edges c)) by exact (oriented_turned c).
  assert (R1 : region_boundary E1) by exact (oriented_boundary _ (single_valid r Hr)). assert (R2 : region_boundary E2) by exact (oriented_boundary _ (single_valid c Hc)).
  destruct (shaped_sweep op false E1 E2 None (fill_linear E1 E2) (filled_linear E1 E2) R1 R2) as (s & pl & H & _); [intros x Ex; discriminate Ex|].
  assert (Src : forall b sg, In sg (if b : bool then E1 else E2) -> exists t, In t (es b) /\ forall p, on_segment p sg <-> on_segment p t).
  { intros b sg Hs. assert (T : turned (if b then E1 else E2) (es b)) by (destruct b; apply oriented_turned).
    destruct (canon_in _ _ sg T Hs) as (t & Ht & E). exists t. split; [exact Ht|]. intro p. destruct E as [->| ->]; [reflexivity|symmetry; apply on_reversed]. }
  destruct (sh_sweep _ _ _ _ _ _ H) as (s0 & out & Hf & Hsw & Hpr & Hla).
  pose proof (fun i => selected_out _ s0 Hf (lawful_operands _ _ (proj1 R1) (proj1 R2)) None _ _ (op_follows op) (Hreg _ _ _ _ _ _ H) s out pl Hsw Hpr Hla (Hstop _ _ _ _ _ _ H) i) as So.
  exists (result_edges s pl), (map (fun i => ev_start s (EL i)) (seq 0 (length (lefts s))) ++ map (fun i => ev_start s (ER i)) (seq 0 (length (rights s)))).
  assert (Cut : forall p, ~ In p (map (fun i => ev_start s (EL i)) (seq 0 (length (lefts s))) ++ map (fun i => ev_start s (ER i)) (seq 0 (length (rights s)))) -> ~ piece_endpoint s p).
  { intros p N ([k|k] & Rk & Ek); apply N, in_or_app; [left|right]; apply in_map_iff; exists k; (split; [exact Ek|apply in_seq; cbn in Rk; lia]). }
  assert (In1 : forall k, In k (result_edges s pl) -> exists i, k = seg_of s i /\ In (EL i) pl /\ l_result (lft s i) = true /\ In i out /\ (i < length (lefts s))%nat).
  { intros k Hk. rewrite result_edges_ids in Hk. apply in_map_iff in Hk. destruct Hk as (i & <- & Hi). apply filter_In in Hi. destruct Hi as (Hi & Ri). apply lefts_in_in in Hi.
    exists i. split; [reflexivity|]. split; [exact Hi|]. split; [exact Ri|]. split; [exact (So i Hi Ri)|exact (pr_range _ _ _ _ Hpr _ Hi)]. }
  split; [exact (result_proper _ _ _ _ _ _ H)|]. split; [|split; [exact (result_even _ _ _ _ _ _ H)|split; [|split; [|split]]]].
  - rewrite result_edges_ids. intros a b k k' N Ea Eb. rewrite nth_error_map in Ea, Eb.
    destruct (nth_error _ a) as [i|] eqn:Ei in Ea; [|discriminate Ea]. destruct (nth_error _ b) as [j|] eqn:Ej in Eb; [|discriminate Eb]. injection Ea as <-. injection Eb as <-.
    assert (Nij : i <> j).
    { intros ->. apply N. assert (D : NoDup (filter (fun i => l_result (lft s i)) (lefts_in pl))) by (apply NoDup_filter, lefts_in_nodup; exact (pr_nodup _ _ _ _ Hpr)).
      apply (proj1 (NoDup_nth_error _) D a b); [apply nth_error_Some; congruence|congruence]. }
    apply nth_error_In, filter_In in Ei. apply nth_error_In, filter_In in Ej. destruct Ei as (Ii & Ri), Ej as (Ij & Rj). apply lefts_in_in in Ii. apply lefts_in_in in Ij.
    destruct (sw_apart _ _ _ _ Hsw i j (So i Ii Ri) (pr_range _ _ _ _ Hpr _ Ij) (not_eq_sym Nij)) as [K|(_ & K & _)]; [exact K|exfalso].
    apply (result_apart _ _ _ _ _ _ H i j Ii Ij Ri Rj Nij). rewrite <- K. pose proof (sw_plt _ _ _ _ Hsw i (pr_range _ _ _ _ Hpr _ Ii)) as L.
    exists (s_start (seg_of s i)), (s_end (seg_of s i)). split; [intro E; cbn in E; rewrite E in L; exact (plt_irrefl _ L)|]. repeat split; try apply on_segment_start; apply on_segment_end.
  - intro p. rewrite (result_inside _ _ _ _ _ _ H p), (turned_inside _ _ p T1), (turned_inside _ _ p T2). reflexivity.
  - intros p Np. rewrite (result_sides _ _ _ _ _ _ H p (Cut p Np)), (turned_inside _ _ p T1), (turned_inside _ _ p T2), (turned_above _ _ p T1), (turned_above _ _ p T2). reflexivity.
  - intros k m b Hk Om Nm Ob. destruct (In1 k Hk) as (i & -> & Hi & Ri & Oi & Li).
    assert (T : turned (if b then E1 else E2) (es b)) by (destruct b; assumption).
    apply (turned_on _ _ m T) in Ob. destruct Ob as (sg & Hsg & Og).
    assert (Hop : In sg (operand (tag E1 E2) b)) by (rewrite operand_tag; exact Hsg).
    destruct (LinearMeaning.piece_at _ _ _ _ _ Hsw b sg m Hsg Og) as (j & Lj & Eb & Oj & _).
    assert (Sj : seg_of s j = seg_of s i).
    { destruct (Nat.eq_dec j i) as [->|N]; [reflexivity|]. destruct (sw_apart _ _ _ _ Hsw i j Oi Lj N) as [K|(_ & K & _)]; [exfalso|symmetry; exact K].
      destruct (K m Om Oj) as (Ep & _). apply (Cut m Nm). destruct Ep as [->| ->]; [exists (EL i); split; [exact Li|reflexivity]|].
      exists (ER (l_right (lft s i))). split; [exact (proj1 (proj1 (proj2 (pr_wf _ _ _ _ Hpr)) i Li))|reflexivity]. }
    destruct (piece_source _ _ _ _ _ Hsw j Lj) as (t & Ht & W). rewrite Eb in Ht. destruct (Src b t Ht) as (t' & Ht' & Et).
    exists t'. split; [exact Ht'|]. rewrite <- Sj. intros p Op. apply Et, W, Op.
  - intros k Hk. destruct (In1 k Hk) as (i & -> & Hi & Ri & Oi & Li). destruct (piece_source _ _ _ _ _ Hsw i Li) as (t & Ht & W).
    destruct (Src (l_first (lft s i)) t Ht) as (t' & Ht' & Et). exists (l_first (lft s i)), t'. split; [exact Ht'|]. intros p Op. apply Et, W, Op.
Qed.
End Arranged.
