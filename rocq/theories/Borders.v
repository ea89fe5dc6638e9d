(** Boundaries of valid regions are determined by their points.
    Proof support only, no part of /repo is modelled here. *)
From Coq Require Import Permutation.
From Verif Require Import QcTac Geom Spec SpecShape SpecSides SpecLocate SpecNest SpecReach GeomFacts EvenOdd Flip Toward Relation PairFacts Parity EvenStraight Outline Faces Shapes Polygons Sides Unique QcTac Geom Spec SpecShape SpecSides SpecLocate SpecReach GeomFacts Toward Bounding BoundingThms LoopThms Unique Relation PairFacts PairProofs Contour Filter Parity ShrinkThms RegionThms OrientThms Outline LinearThms LinearComplete EvenOdd Shapes Polygons Sides FilterThms ShapedThms Locate Rectangle CoupledThms CoupledThms Cycle Arranged Surround Faces Flip Reach Reach CoupledThms Fill ShapedProps.

(** ** Points of edges are reached from both sides *)
Section Sides.
Variables (G E : list segment) (v : bool).
Hypothesis HG : non_overlapping G.
Hypothesis Ev : even_occurrences (endpoints_of G).
Hypothesis HE : Forall proper E.
Hypothesis Sub : forall p, on_segments p G -> on_segments p E.
Notation Q := (fun p => ~ on_segments p E /\ inside G p = v).
Lemma same_side : forall p q, (forall x, on_segment x (Seg p q) -> ~ on_segments x G) -> inside G p = inside G q.
Proof. intros p q K. apply inside_const; [exact (proj1 HG)|exact Ev|]. intros s Hs. left. intros x Hx O. apply (K x Hx). exists s. auto. Qed.
Lemma reached_by : forall p q t, q <> p -> 0 < t -> t < 1 -> (forall u, 0 < u -> u <= t -> ~ on_segments (lerp p q u) E) -> inside G (lerp p q t) = v -> reached Q p.
Proof.
  intros p q t N T0 T1 Off I. exists (lerp p q t). split; [intro Z; apply lerp_eq0 in Z; [rewrite Z in T0; discriminate T0|auto]|].
  intros x Hx Nx. replace p with (lerp p q 0) in Hx at 1 by apply lerp_0. apply on_lerp in Hx. destruct Hx as (z0 & V0 & V1 & ->). rewrite lerp_lerp in *. replace (0 + z0 * (t - 0)) with (z0 * t) in * by ring.
  assert (U0 : 0 < z0 * t).
  { apply mul_pos; [|exact T0]. destruct (Qclt_le_dec 0 z0) as [J|J]; [exact J|exfalso]. apply Nx. assert (z0 = 0) as -> by (apply Qcle_antisym; assumption). replace (0 * t) with 0 by ring. apply lerp_0. }
  assert (U1 : z0 * t <= t). { assert (Z : 0 <= (1 - z0) * t) by (apply mul_nonneg; qlra). replace ((1 - z0) * t) with (t - z0 * t) in Z by ring. qlra. }
  set (w := z0 * t) in *. clearbody w. split; [apply Off; assumption|]. rewrite <- I. apply same_side.
  intros x Hx Og. apply Sub in Og. apply on_lerp in Hx. destruct Hx as (z & Z0 & Z1 & ->). rewrite lerp_lerp in Og. apply (Off (w + z * (t - w))); [| |exact Og].
  - assert (0 <= z * (t - w)) by (apply mul_nonneg; qlra). qlra.
  - assert (W : 0 <= (1 - z) * (t - w)) by (apply mul_nonneg; qlra). replace ((1 - z) * (t - w)) with (t - (w + z * (t - w))) in W by ring. qlra.
Qed.
Lemma side_reached : forall p, on_segments p G -> reached Q p.
Proof.
  intros p (s & Hs & O). pose proof (proj1 (Forall_forall _ _) (proj1 HG) s Hs) as Ps.
  assert (U : exists u, u <> p /\ on_segment u s).
  { destruct (pt_eq_dec p (s_start s)) as [->|N]; [exists (s_end s); split; [exact (not_eq_sym Ps)|apply on_segment_end]|exists (s_start s); split; [auto|apply on_segment_start]]. }
  destruct U as (u & Nu & Ou). destruct (in_split _ _ Hs) as (l1 & l2 & El).
  assert (Pm : Permutation G (s :: l1 ++ l2)) by (rewrite El; apply Permutation_sym, Permutation_middle). set (r := l1 ++ l2) in *.
  assert (Pr : Forall proper (s :: r)) by (exact (Permutation_Forall Pm (proj1 HG))).
  assert (Nov : forall k, In k r -> ~ overlap s k).
  { pose proof (LinearThms.pairwise_perm _ _ _ _ (fun a b N K => N (overlap_sym _ _ K)) Pm (proj2 HG)) as Pw. intros k Hk. apply In_nth_error in Hk. destruct Hk as (i & Hi). exact (Pw 0%nat (S i) s k ltac:(discriminate) eq_refl Hi). }
  assert (PE : Forall proper (E ++ s :: r)) by (apply Forall_app; split; assumption).
  destruct (narrow p u (E ++ s :: r) PE (not_eq_sym Nu)) as (h & H0 & H).
  assert (HN : forall k, In k (E ++ s :: r) -> narrow_for p u h k) by (intros k Hk Ok; exact (H k Hk Ok)).
  set (q1 := beside p u h) in *. set (q2 := beside p u (- h)) in *.
  assert (S1 : soon (fun t => ~ on_segments (lerp p q1 t) E)).
  { apply soon_off_all; [exact HE|]. intros k Hk. apply (narrow_across p u h k H0). apply HN. apply in_or_app. left. exact Hk. }
  assert (S2 : soon (fun t => ~ on_segments (lerp p q2 t) E)).
  { apply soon_off_all; [exact HE|]. intros k Hk. apply (narrow_across p u h k H0). apply HN. apply in_or_app. left. exact Hk. }
  assert (S3 : soon (fun t => forall k, In k (s :: r) -> forall x, on_segment x (Seg (lerp p q1 t) (lerp p q2 t)) -> on_segment x k -> on_segment p k /\ x = lerp p u t)).
  { apply soon_all. intros k Hk. apply soon_between; [exact H0|exact (proj1 (Forall_forall _ _) Pr k Hk)|exact (not_eq_sym Nu)|]. apply HN. apply in_or_app. right. exact Hk. }
  destruct (soon_and _ _ S3 (soon_and _ _ S1 S2)) as (t & T0 & T1 & T).
  pose proof (fun t A B => proj1 (proj2 (T t A B))) as O1. pose proof (fun t A B => proj2 (proj2 (T t A B))) as O2. destruct (T t T0 (Qcle_refl t)) as (O3 & _). clear T S1 S2 S3.
  assert (Nb : forall k : Qc, k <> 0 -> beside p u k <> p).
  { intros k Nk Z. apply Nu. pose proof (f_equal px Z) as X. pose proof (f_equal py Z) as Y. unfold beside in X, Y. cbn [px py] in X, Y. set (x := px u - px p) in *. set (y := py u - py p) in *.
    assert (A : x = k * y) by (unfold x in *; clear - X; qlra). assert (B : y = - (k * x)) by (unfold y in *; clear - Y; qlra).
    assert (C : (1 + k * k) * x = 0) by (rewrite B in A; replace ((1 + k * k) * x) with (x - k * - (k * x)) by ring; rewrite <- A; ring).
    assert (Sk : 0 < 1 + k * k). { destruct (Qclt_le_dec k 0) as [J|J]; [assert (0 <= - k * - k) by (apply mul_nonneg; qlra)|assert (0 <= k * k) by (apply mul_nonneg; exact J)]; qlra. }
    apply Qcmult_integral in C. destruct C as [C|C]; [rewrite C in Sk; discriminate Sk|]. rewrite C in B. apply pt_ext; [unfold x in C; clear - C; qlra|unfold y in B; clear - B; qlra]. }
  assert (Nh : h <> 0) by (intro Z; rewrite Z in H0; discriminate H0). assert (Nh' : - h <> 0) by (intro Z; apply Nh; clear - Z; qlra).
  assert (Cm : lerp p u t = lerp (lerp p q1 t) (lerp p q2 t) (/ (1 + 1))).
  { unfold lerp, q1, q2, beside. cbn [px py]. apply pt_ext; cbn [px py]; field; discriminate. }
  assert (Cs : inside_segment (lerp p u t) s).
  { apply (between_inside s p u); [exact (not_eq_sym Nu)|exact O|exact Ou|]. split; [apply on_lerp; exists t; split; [qlra|split; [qlra|reflexivity]]|]. cbn [s_start s_end].
    split; intro Z; [apply lerp_eq0 in Z; [rewrite Z in T0; discriminate T0|auto]|apply lerp_eq1 in Z; [rewrite Z in T1; discriminate T1|auto]]. }
  assert (F : inside (s :: r) (lerp p q1 t) = negb (inside (s :: r) (lerp p q2 t))).
  { apply (flip s r (lerp p u t)); [exact Pr|apply (Shapes.even_perm (endpoints_of G)); [unfold endpoints_of; apply Permutation_flat_map; exact Pm|exact Ev]|exact Cs| | |].
    - split; [rewrite Cm; apply on_lerp; exists (/ (1 + 1)); split; [discriminate|split; [discriminate|reflexivity]]|]. cbn [s_start s_end].
      assert (Ap : forall k, k <> 0 -> lerp p u t <> lerp p (beside p u k) t).
      { intros k Nk Z. apply (Nb k Nk). pose proof (f_equal px Z) as X. pose proof (f_equal py Z) as Y. unfold lerp, beside in X, Y. cbn [px py] in X, Y. exfalso. apply Nu.
        assert (A : t * k * (py u - py p) = 0) by (clear - X; qlra). assert (B : t * k * (px u - px p) = 0) by (clear - Y; qlra).
        assert (Ntk : t * k <> 0) by (intro W; apply Qcmult_integral in W; destruct W as [W|W]; [rewrite W in T0; discriminate T0|exact (Nk W)]).
        apply Qcmult_integral in A, B. destruct A as [A|A]; [contradiction|]. destruct B as [B|B]; [contradiction|]. apply pt_ext; [clear - B; qlra|clear - A; qlra]. }
      split; apply Ap; assumption.
    - intros x Hx Ox. exact (proj2 (O3 s (or_introl eq_refl) x Hx Ox)).
    - intros k Hk x Hx Ox. destruct (O3 k (or_intror Hk) x Hx Ox) as (Opk & ->). apply (Nov k Hk). exists p, (lerp p u t). split; [intro Z; symmetry in Z; apply lerp_eq0 in Z; [rewrite Z in T0; discriminate T0|auto]|].
      split; [exact O|]. split; [exact Opk|]. split; [exact (proj1 Cs)|exact Ox]. }
  rewrite <- !(inside_perm _ _ _ Pm) in F. destruct (Bool.bool_dec (inside G (lerp p q1 t)) v) as [I1|I1].
  - exact (reached_by p q1 t (Nb h Nh) T0 T1 O1 I1).
  - assert (I2 : inside G (lerp p q2 t) = v) by (clear - F I1; destruct (inside G (lerp p q2 t)), (inside G (lerp p q1 t)), v; cbn in *; congruence). exact (reached_by p q2 t (Nb (- h) Nh') T0 T1 O2 I2).
Qed.
End Sides.

Lemma reached_const : forall G E v p, non_overlapping G -> even_occurrences (endpoints_of G) -> ~ on_segments p G -> reached (fun q => ~ on_segments q E /\ inside G q = v) p -> inside G p = v.
Proof.
  intros G E v p HG Ev O (q & N & K). destruct (soon_off_all p q G (proj1 HG)) as (t & T0 & T1 & T).
  { intros s Hs Op. exfalso. apply O. exists s. auto. }
  assert (M : inside G (lerp p q t) = v).
  { apply K; [apply on_lerp; exists t; split; [qlra|split; [qlra|reflexivity]]|]. intro Z. apply lerp_eq0 in Z; [rewrite Z in T0; discriminate T0|auto]. }
  rewrite (same_side G HG Ev p (lerp p q t)); [exact M|].
  intros x Hx. replace p with (lerp p q 0) in Hx at 1 by apply lerp_0. apply on_lerp in Hx. destruct Hx as (z & V0 & V1 & ->). rewrite lerp_lerp.
  destruct (Qclt_le_dec 0 (0 + z * (t - 0))) as [J|J].
  - apply T; [exact J|]. assert (0 <= (1 - z) * t) by (apply mul_nonneg; qlra). replace ((1 - z) * t) with (t - z * t) in H by ring. replace (0 + z * (t - 0)) with (z * t) by ring. qlra.
  - assert (Z : 0 + z * (t - 0) = 0). { apply Qcle_antisym; [exact J|]. replace (0 + z * (t - 0)) with (z * t) by ring. apply mul_nonneg; qlra. } rewrite Z, lerp_0. exact O.
Qed.
Theorem same_boundary : forall G G', non_overlapping G -> non_overlapping G' -> even_occurrences (endpoints_of G) -> even_occurrences (endpoints_of G') ->
  (forall p, ~ on_segments p (G ++ G') -> inside G p = inside G' p) -> forall p, on_segments p G -> on_segments p G'.
Proof.
  intros G G' N N' Ev Ev' Sm p O. destruct (on_segments_dec p G') as [O'|O']; [exact O'|exfalso].
  assert (Pr : Forall proper (G ++ G')) by (apply Forall_app; split; [apply N|apply N']).
  assert (Sub : forall q, on_segments q G -> on_segments q (G ++ G')) by (intros q (s & Hs & K); exists s; split; [apply in_or_app; left; exact Hs|exact K]).
  assert (A : forall v, inside G' p = v).
  { intro v. apply (reached_const G' (G ++ G')); try assumption. destruct (side_reached G (G ++ G') v N Ev Pr Sub p O) as (q & Nq & K). exists q. split; [exact Nq|].
    intros m Hm Nm. destruct (K m Hm Nm) as (Km & Im). split; [exact Km|]. rewrite <- (Sm m Km). exact Im. }
  pose proof (A true) as B. rewrite (A false) in B. discriminate B.
Qed.

(** ** Regions *)
Notation all_edges rs := (flat_map (fun c => contour_edges (vertices c)) rs).
Lemma regions_region : forall rs, valid_regions rs -> forall p, in_regions rs p <-> in_region (all_edges rs) p.
Proof. intros rs V p. rewrite <- (ShapedProps.solid_region rs p), <- (polygons_region (solid rs) (solid_valid rs V) p), ShapedProps.solid_edges. reflexivity. Qed.
Lemma regions_even : forall rs, even_occurrences (endpoints_of (all_edges rs)).
Proof. intro rs. rewrite <- ShapedProps.solid_edges. apply edges_even. Qed.
Lemma regions_boundary : forall rs rs', valid_regions rs -> valid_regions rs' -> (forall p, in_regions rs p <-> in_regions rs' p) ->
  forall p, on_segments p (all_edges rs) -> on_segments p (all_edges rs').
Proof.
  intros rs rs' V V' Sm. apply same_boundary; [apply V|apply V'|apply regions_even|apply regions_even|].
  intros p N. assert (N1 : ~ on_segments p (all_edges rs)) by (intros (s & Hs & O); apply N; exists s; split; [apply in_or_app; left; exact Hs|exact O]).
  assert (N2 : ~ on_segments p (all_edges rs')) by (intros (s & Hs & O); apply N; exists s; split; [apply in_or_app; right; exact Hs|exact O]).
  specialize (Sm p). rewrite (regions_region rs V), (regions_region rs' V') in Sm. unfold in_region in Sm.
  destruct (inside (all_edges rs) p), (inside (all_edges rs') p); try reflexivity; exfalso; destruct Sm as (A & B); [destruct A as [K|K]|destruct B as [K|K]]; auto; discriminate.
Qed.
Section Pair.
Variables rs rs' : list contour.
Hypothesis V : valid_regions rs.
Hypothesis V' : valid_regions rs'.
Hypothesis Sm : forall p, on_segments p (all_edges rs) <-> on_segments p (all_edges rs').
Lemma alone : forall qs, valid_regions qs -> forall c p, In c qs -> inside_contour c p -> ~ on_segments p (all_edges qs).
Proof.
  intros qs W c p Hc (N & I) (s & Hs & O). apply in_flat_map in Hs. destruct Hs as (d & Hd & Hs). apply In_nth_error in Hc, Hd. destruct Hc as (i & Ei), Hd as (j & Ej).
  destruct (Nat.eq_dec i j) as [->|D]; [rewrite Ei in Ej; injection Ej as <-; apply N; exists s; split; assumption|].
  apply (proj1 (proj2 W) i j c d D Ei Ej p). split; [split; assumption|]. left. exists s. split; assumption.
Qed.
Theorem same_or_apart : forall c c', In c rs -> In c' rs' -> (forall p, inside_contour c p -> inside_contour c' p -> False)
  \/ forall p, on_segments p (contour_edges (vertices c)) <-> on_segments p (contour_edges (vertices c')).
Proof.
  intros c c' Hc Hc'. pose proof (proj1 (Forall_forall _ _) (proj1 V) c Hc) as Sc. pose proof (proj1 (Forall_forall _ _) (proj1 V') c' Hc') as Sc'. cbv beta in Sc, Sc'.
  pose proof (simple_proper _ Sc) as Pc. pose proof (simple_proper _ Sc') as Pc'.
  destruct (boundary_arranged Meet c c' Sc Sc') as (L & cuts & Lp & La & Le & Li & Ls & At & Src). unfold SpecLocate.edges in *.
  assert (Sd : forall k m, In k L -> on_segment m k -> ~ In m cuts ->
    xorb (op_holds Meet (inside (contour_edges (vertices c)) m) (inside (contour_edges (vertices c')) m)) (op_holds Meet (inside_above (contour_edges (vertices c)) m) (inside_above (contour_edges (vertices c')) m)) = true).
  { intros k m Hk Om Nm. specialize (Ls m Nm). destruct (xorb _ _); [reflexivity|exfalso]. unfold segments_through in Ls.
    rewrite Forall_forall in Lp. assert (J : In k (filter (fun s => passes_through s m) L)) by (apply filter_In; split; [exact Hk|apply (Sides.through_spec k m (Lp k Hk)), Om]).
    destruct (filter (fun s => passes_through s m) L); [destruct J|discriminate Ls]. }
  assert (Mid : forall k, In k L -> exists m, on_segment m k /\ ~ In m cuts).
  { intros k Hk. destruct (approach (s_start k) (s_end k) cuts (proj1 (Forall_forall _ _) Lp k Hk)) as (m & (Om & _) & Nm & _). exists m. split; [destruct k; exact Om|exact Nm]. }
  assert (Lw : forall k, In k L -> exists sg, In sg (contour_edges (vertices c)) /\ within k sg).
  { intros k Hk. destruct (Src k Hk) as ([|] & sg & Hs & W); [exists sg; split; assumption|]. destruct (Mid k Hk) as (m & Om & Nm).
    destruct (on_segments_dec m (contour_edges (vertices c))) as [Oc|Oc]; [exact (At k m true Hk Om Nm Oc)|exfalso].
    pose proof (Sd k m Hk Om Nm) as S. rewrite (above_off _ m Pc Oc) in S.
    destruct (inside (contour_edges (vertices c)) m) eqn:I; [|cbn in S; discriminate S]. apply (alone rs V c m Hc); [split; assumption|]. apply Sm. exists sg. split; [apply in_flat_map; exists c'; split; assumption|apply W, Om]. }
  assert (Lw' : forall k, In k L -> exists sg, In sg (contour_edges (vertices c')) /\ within k sg).
  { intros k Hk. destruct (Src k Hk) as ([|] & sg & Hs & W); [|exists sg; split; assumption]. destruct (Mid k Hk) as (m & Om & Nm).
    destruct (on_segments_dec m (contour_edges (vertices c'))) as [Oc|Oc]; [exact (At k m false Hk Om Nm Oc)|exfalso].
    pose proof (Sd k m Hk Om Nm) as S. rewrite (above_off _ m Pc' Oc) in S.
    destruct (inside (contour_edges (vertices c')) m) eqn:I; [|cbn in S; destruct (inside (contour_edges (vertices c)) m), (inside_above (contour_edges (vertices c)) m); discriminate S].
    apply (alone rs' V' c' m Hc'); [split; assumption|]. apply Sm. exists sg. split; [apply in_flat_map; exists c; split; assumption|apply W, Om]. }
  destruct (none_or_all (vertices c) L Sc Lp Lw La Le) as [E|All].
  - left. intros p (_ & I) (_ & I'). pose proof (Li p) as K. rewrite E in K. unfold SpecLocate.edges in *. rewrite I, I' in K. discriminate K.
  - destruct (none_or_all (vertices c') L Sc' Lp Lw' La Le) as [E|All'].
    + left. intros p (_ & I) (_ & I'). pose proof (Li p) as K. rewrite E in K. unfold SpecLocate.edges in *. rewrite I, I' in K. discriminate K.
    + right. intro p. split; intro O; [apply All in O|apply All' in O]; destruct O as (k & Hk & O); [destruct (Lw' k Hk) as (sg & Hs & W)|destruct (Lw k Hk) as (sg & Hs & W)]; exists sg; (split; [exact Hs|apply W, O]).
Qed.
End Pair.
Theorem same_contours : forall rs rs', valid_regions rs -> valid_regions rs' -> (forall p, in_regions rs p <-> in_regions rs' p) ->
  forall c, In c rs -> exists c', In c' rs' /\ forall p, on_segments p (contour_edges (vertices c)) <-> on_segments p (contour_edges (vertices c')).
Proof.
  intros rs rs' V V' Sm c Hc. pose proof (proj1 (Forall_forall _ _) (proj1 V) c Hc) as Sc. cbv beta in Sc.
  assert (Sb : forall p, on_segments p (all_edges rs) <-> on_segments p (all_edges rs')).
  { intro p. split; [exact (regions_boundary rs rs' V V' Sm p)|apply (regions_boundary rs' rs V' V); intro q; symmetry; apply Sm]. }
  assert (Ov : exists v, on_segments v (contour_edges (vertices c))).
  { pose proof Sc as (L & _). destruct (vertices c) as [|v vs] eqn:Ev; [cbn in L; lia|]. exists v. rewrite <- Ev. apply vertex_edge. rewrite Ev. left. reflexivity. }
  destruct Ov as (v & Ov). destruct (some_inside (vertices c) v Sc Ov) as (q & Nq & Iq).
  assert (Ne : ~ on_segments q (all_edges rs')) by (rewrite <- Sb; apply (alone rs V c q Hc); split; assumption).
  destruct (proj1 (Sm q)) as (c' & Hc' & [O|I]); [exists c; split; [exact Hc|right; exact Iq]| |].
  - exfalso. apply Ne. destruct O as (s & Hs & O). exists s. split; [apply in_flat_map; exists c'; split; assumption|exact O].
  - exists c'. split; [exact Hc'|]. destruct (same_or_apart rs rs' V V' Sb c c' Hc Hc') as [K|K]; [exfalso|exact K].
    apply (K q); split; try assumption. intros (s & Hs & O). apply Ne. exists s. split; [apply in_flat_map; exists c'; split; assumption|exact O].
Qed.
