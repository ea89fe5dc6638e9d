(** Polygons made by holey.py of contours without common points have exactly
    the points lying in an odd number of these contours, when what lies right
    under the starts of pieces has been found.  Proof support only, no part of
    /repo is modelled here. *)
From Coq Require Import Permutation Sorted.
From Verif Require Import QcTac Geom Spec SpecShape SpecSides GeomFacts EvenOdd Flip SortFacts Toward Bounding BoundingThms Relation PairFacts SweepGeo SweepInv SweepSteps Sweep SweepCmp SweepLink Linear SweepRun SweepLoop SweepStart SweepEnd SelectThms LinearMeaning LinearThms LinearComplete Contour Labelled Filter Mixed Shaped Parity Counting ShrinkThms ConnectThms Tracing TraceThms RegionThms OrientThms PairThms Erase Beneath Flow Labels LabelEnd Outline Classify Telescope Polygons Sides EvenStraight MixedThms MixedComplete ShapedThms ShapedProps Lonely Faces Loops FollowThms Holey TidyThms TracedLoops HoleyLoop SimpleThms Shapes HoleyThms Nesting Noncross Forest.

Lemma middle_inside : forall a b, plt a b -> inside_segment (middle a b) (Seg a b).
Proof.
  intros a b L. assert (N : a <> b) by (intros ->; exact (plt_irrefl _ L)). pose proof half_eq as H2.
  assert (E : forall u v, half * (u + v) = u -> u = v).
  { intros u v E. assert (K : half * v = half * u).
    { assert (X : half * u + half * u = u) by (transitivity ((half + half) * u); [ring|rewrite H2; ring]). assert (Y : half * u + half * v = u) by (rewrite <- E at 2; ring). clear - X Y. qlra. }
    assert (U : half * u + half * u = u) by (transitivity ((half + half) * u); [ring|rewrite H2; ring]).
    assert (W : half * v + half * v = v) by (transitivity ((half + half) * v); [ring|rewrite H2; ring]). clear - K U W. qlra. }
  split; [|split].
  - exists half. split; [clear - H2; qlra|]. split; [clear - H2; qlra|]. unfold middle. cbn [px py s_start s_end]. split.
    + transitivity (half * px a + half * px b); [ring|]. replace (half * px a) with (half * px a + (1 - (half + half)) * px a) by (rewrite H2; ring). ring.
    + transitivity (half * py a + half * py b); [ring|]. replace (half * py a) with (half * py a + (1 - (half + half)) * py a) by (rewrite H2; ring). ring.
  - cbn. intro K. apply N. destruct a as (ax, ay), b as (bx, by_). unfold middle in K. cbn in K. injection K as K1 K2. f_equal; apply E; assumption.
  - cbn. intro K. apply N. destruct a as (ax, ay), b as (bx, by_). unfold middle in K. cbn in K. injection K as K1 K2. symmetry. f_equal; apply E; rewrite Qcplus_comm; assumption.
Qed.
Lemma beneath_below : forall n p q x ob, (forall i, (i < n)%nat -> p i = q i) -> (x < n)%nat -> beneath n p x ob -> beneath n q x ob.
Proof.
  intros n p q x ob E Hx. destruct ob as [b|]; cbn [beneath].
  - intros (A & B & C). rewrite <- (E x Hx), <- (E b A). split; [exact A|]. split; [exact B|]. intros y Hy. rewrite <- (E y Hy). exact (C y Hy).
  - intros A y Hy. rewrite <- (E x Hx), <- (E y Hy). exact (A y Hy).
Qed.

(** Vertical pieces are the steepest ones, and do not pass by starts. *)
Lemma kp_steep : forall e P, Sheared e P -> forall z i, plt (s_start z) (s_end z) -> plt (s_start i) (s_end i) ->
  In (s_start z) P -> In (s_end z) P -> In (s_start i) P -> In (s_end i) P -> sl (kp e z) * e = 1 ->
  lo (kp e z) <= lo (kp e i) -> lo (kp e i) < hi (kp e z) -> ht (kp e z) (lo (kp e i)) = ht (kp e i) (lo (kp e i)) /\ sl (kp e i) <= sl (kp e z).
Proof.
  intros e P Hsh (a, b) (c, d) Lz Li Pa Pb Pc Pd. cbn [s_start s_end] in *.
  assert (Parts : forall u v, plt u v -> seg_lo (Seg u v) = u /\ seg_hi (Seg u v) = v).
  { intros u v L. destruct (seg_lo_hi (Seg u v)) as [(A & B & _)|(A & B & C)]; [split; assumption|]. exfalso. exact (plt_irrefl _ (plt_trans _ _ _ L C)). }
  destruct (Parts a b Lz) as (A1 & A2), (Parts c d Li) as (C1 & C2). unfold kp, ht. rewrite A1, A2, C1, C2. cbn [lo hi sl ic]. intros Me L U.
  pose proof (proj1 (sheared_lt e P Hsh a b Pa Pb) Lz) as Nz. pose proof (proj1 (sheared_lt e P Hsh c d Pc Pd) Li) as Ni.
  pose proof (slope_eq e a b ltac:(intro K; clear - K Nz; qlra)) as Sz. pose proof (slope_eq e c d ltac:(intro K; clear - K Ni; qlra)) as Si.
  set (m := slope e a b) in *. set (m' := slope e c d) in *.
  assert (Ex : px a = px b).
  { assert (D : m * (px b - px a) = 0) by (unfold pos in Sz; replace (m * (px b + e * py b - (px a + e * py a))) with (m * (px b - px a) + (m * e) * (py b - py a)) in Sz by ring; rewrite Me in Sz; clear - Sz; qlra).
    apply Qcmult_integral in D. destruct D as [D|D]; [rewrite D in Me; assert (K : 0 * e = 0) by ring; rewrite K in Me; discriminate Me|clear - D; qlra]. }
  assert (Ec : px c = px a).
  { assert (K1 : px a <= px c).
    { destruct (Qclt_le_dec (px c) (px a)) as [K|K]; [exfalso|exact K]. pose proof (Hsh c a Pc Pa (or_introl K)) as J. clear - J L. qlra. }
    pose proof (proj2 (sheared_lt e P Hsh c b Pc Pb) U) as K2. destruct K2 as [K2|(K2 & _)]; [clear - K1 K2 Ex; qlra|rewrite K2; symmetry; exact Ex]. }
  assert (Dy : py a < py b) by (destruct Lz as [K|(_ & K)]; [clear - K Ex; qlra|exact K]).
  assert (Dz : pos e b - pos e a = e * (py b - py a)) by (unfold pos; rewrite Ex; ring).
  assert (Pe : 0 < e) by (clear - Dz Nz Dy; destruct (Qclt_le_dec 0 e) as [K|K]; [exact K|exfalso; qnra]).
  assert (Pm : 0 < m) by (clear - Me Pe; destruct (Qclt_le_dec 0 m) as [K|K]; [exact K|exfalso; qnra]).
  split.
  - transitivity (py c); [|ring]. replace (pos e c) with (pos e a + e * (py c - py a)) by (unfold pos; rewrite Ec; ring).
    replace (m * (pos e a + e * (py c - py a)) + (py a - m * pos e a)) with ((m * e) * (py c - py a) + py a) by ring. rewrite Me. ring.
  - destruct (Qclt_le_dec m m') as [K|K]; [exfalso|exact K].
    assert (Dx : 0 <= px d - px c) by (destruct Li as [J|(J & _)]; clear - J; qlra).
    assert (E1 : m * (pos e d - pos e c) = m * (px d - px c) + (py d - py c)) by (unfold pos; replace (m * (px d + e * py d - (px c + e * py c))) with (m * (px d - px c) + (m * e) * (py d - py c)) by ring; rewrite Me; ring).
    assert (Pd' : 0 < pos e d - pos e c) by (clear - Ni; qlra).
    assert (H1 : 0 <= m * (px d - px c)) by (clear - Dx Pm; qnra).
    assert (H2 : 0 < (m' - m) * (pos e d - pos e c)) by (clear - Pd' K; qnra).
    clear - H1 H2 E1 Si. replace ((m' - m) * (pos e d - pos e c)) with (m' * (pos e d - pos e c) - m * (pos e d - pos e c)) in H2 by ring. rewrite Si, E1 in H2. qlra.
Qed.

(** ** Contours followed counterclockwise *)
Section Loop.
Variable evs : list holey_event.
Notation ts := (map h_traced evs).
Notation n := (length evs).
Hypothesis Hpair : TraceThms.paired ts.
Hypothesis Htidy : tidy ts.
Hypothesis Hplanar : planar ts.
Hypothesis Hids : forall i j, (i < n)%nat -> (j < n)%nat -> vx evs i = vx evs j <-> t_start (tev ts i) = t_start (tev ts j).
Hypothesis Hsorted : forall i j, (i < j)%nat -> (j < n)%nat -> ple (t_start (tev ts i)) (t_start (tev ts j)).
Variable L : list nat.
Hypothesis HL : loop n (vx evs) (ov evs) L.
Hypothesis Once : forall x y, In x L -> In y L -> ov evs x <> y.
Hypothesis Hleft : t_left (tev ts (nth 0 L O)) = true.
Hypothesis Hfirst : forall x, In x L -> (nth 0 L O <= x)%nat /\ (nth 0 L O <= ov evs x)%nat.

Lemma first_in : In (nth 0 L O) L.
Proof using HL. apply nth_In. pose proof (lo_ne _ _ _ _ HL) as N. clear - N. destruct L; [contradiction|apply Nat.lt_0_succ]. Qed.
Lemma index_le : forall i j, (i <= j)%nat -> (j < n)%nat -> ple (t_start (tev ts i)) (t_start (tev ts j)).
Proof. intros i j Hij Hj. destruct (Nat.eq_dec i j) as [->|N]; [apply plt_irrefl|]. apply Hsorted; lia. Qed.
Lemma loop_counterclockwise : counterclockwise_at_least (map (edge ts) L).
Proof.
  intros u v w Hu Hw Hleast. set (k := nth 0 L O) in *.
  apply in_map_iff in Hu, Hw. destruct Hu as (a & Ea & Ia), Hw as (b & Eb & Ib). unfold edge in Ea, Eb. injection Ea as A1 A2. injection Eb as B1 B2.
  pose proof (lo_lt _ _ _ _ HL a Ia) as La. pose proof (lo_lt _ _ _ _ HL b Ib) as Lb. pose proof (lo_lt _ _ _ _ HL k first_in) as Lk.
  assert (Hp : forall x, In x L -> (ov evs x < n)%nat /\ t_start (tev ts (ov evs x)) = t_end (tev ts x) /\ ov evs (ov evs x) = x /\ t_end (tev ts (ov evs x)) = t_start (tev ts x)).
  { intros x Hx. pose proof (lo_lt _ _ _ _ HL x Hx) as Lx. destruct (Hpair x) as (O1 & _ & O2 & O3); [rewrite map_length; exact Lx|]. rewrite (l_opp evs x) in O1, O2, O3. rewrite (l_opp evs (ov evs x)) in O2. rewrite map_length in O1.
    split; [exact O1|]. split; [symmetry; exact O3|]. split; [exact O2|]. destruct (Hpair (ov evs x)) as (_ & _ & _ & Q3); [rewrite map_length; exact O1|]. rewrite l_opp, O2 in Q3. exact Q3. }
  assert (Ev : t_start (tev ts k) = v).
  { apply ple_antisym.
    - rewrite <- B1. apply index_le; [exact (proj1 (Hfirst b Ib))|exact Lb].
    - apply ple_lt_eq. destruct (proj1 (Hleast (edge ts k) (in_map _ _ _ first_in))) as [K|K]; cbn in K; auto. }
  assert (b = k) as ->.
  { pose proof (lo_nodup _ _ _ _ HL) as Nd. assert (Ek : vx evs b = vx evs k) by (apply (Hids b k Lb Lk); congruence). pose proof first_in as Ik. fold k in Ik. clear - Nd Ek Ib Ik. revert Ek; revert Ik Ib Nd. generalize k. intros k0
      Ik Ib Nd Ek. destruct (In_nth _ _ O Ik) as (i & Hi & Ei), (In_nth _ _ O Ib) as (j & Hj & Ej). rewrite (proj1 (NoDup_nth (map (vx evs) L) (vx evs O)) Nd j i) in Ej; rewrite ?map_length; try assumption; [congruence|].
    rewrite !map_nth. congruence. }
  destruct (Hp a Ia) as (Lo & S1 & O2 & S2).
  assert (Lt : (k < ov evs a)%nat).
  { pose proof (proj2 (Hfirst a Ia)) as G. fold k in G. pose proof (Once a k Ia first_in) as N. fold k in N. lia. }
  assert (Es : t_start (tev ts k) = t_start (tev ts (ov evs a))) by congruence.
  destruct (td_order ts Htidy k (ov evs a) Lt ltac:(rewrite map_length; exact Lo) Es) as (T1 & T2). specialize (T1 Hleft). fold k in Hleft. rewrite Hleft in T2. rewrite T1 in T2. specialize (T2 eq_refl).
  rewrite Ev, B2, S2, A1 in T2. replace (cross u v w) with (cross v w u); [exact T2|]. unfold cross. ring.
Qed.
Lemma loop_left : left_inside (map (edge ts) L).
Proof.
  apply (simple_left (outline evs L)); [exact (outline_simple evs Hpair Htidy Hplanar Hids L HL Once)|left; symmetry; exact (outline_edges evs Hpair Hids L HL Once)|exact loop_counterclockwise].
Qed.
Lemma loop_way : forall i q, In i L -> inside_segment q (edge ts i) -> inside (map (edge ts) L) q = negb (t_left (tev ts i)).
Proof.
  intros i q Ii Hq. pose proof (lo_lt _ _ _ _ HL i Ii) as Li.
  assert (A : inside (map (edge ts) L) q = true <-> plt (t_end (tev ts i)) (t_start (tev ts i))).
  { apply (loop_left (edge ts i) q (in_map _ _ _ Ii) Hq). intros t Ht N O. apply in_map_iff in Ht. destruct Ht as (j & <- & Ij). destruct Hq as (O1 & Q1 & Q2).
    destruct (td_apart ts Htidy i j q) as (K & _); try (rewrite map_length; try exact Li; exact (lo_lt _ _ _ _ HL j Ij)); try assumption; [intros ->; contradiction|rewrite l_opp; intros E; exact (Once i j Ii Ij (eq_sym E))|].
    destruct K as [K|K]; [exact (Q1 K)|exact (Q2 K)]. }
  destruct (Hpair i ltac:(rewrite map_length; exact Li)) as (O1 & _ & O2 & O3).
  pose proof (td_left ts Htidy i ltac:(rewrite map_length; exact Li)) as Tl.
  destruct (t_left (tev ts i)) eqn:El; cbn [negb] in *.
  - destruct (inside (map (edge ts) L) q) eqn:E; [|reflexivity]. exfalso. pose proof (td_lt ts Htidy i ltac:(rewrite map_length; exact Li) El) as Lt. exact (plt_irrefl _ (plt_trans _ _ _ Lt (proj1 A eq_refl))).
  - apply A. pose proof (td_lt ts Htidy (opp ts i) O1 Tl) as Lt. destruct (Hpair (opp ts i) O1) as (_ & _ & _ & Q3). rewrite O2 in Q3. rewrite Q3 in Lt. rewrite O3. exact Lt.
Qed.
(** Edges of another contour around any point of this one. *)
Lemma loop_around : forall fs, Forall proper fs -> even_occurrences (endpoints_of fs) -> (forall q, on_segments q (map (edge ts) L) -> ~ on_segments q fs) ->
  forall i q, In i L -> on_segment q (edge ts i) -> inside fs q = inside fs (t_start (tev ts (nth 0 L O))).
Proof.
  intros fs Pf Ef Ap.
  assert (Seg_ : forall i q, In i L -> on_segment q (edge ts i) -> inside fs q = inside fs (t_start (tev ts i))).
  { intros i q Ii Oq. apply inside_const; [exact Pf|exact Ef|]. intros k Hk. left. intros x Ox Ok. apply (Ap x); [|exists k; auto]. exists (edge ts i). split; [apply in_map; exact Ii|].
    apply (on_convex (edge ts i) q (t_start (tev ts i)) x Oq); [exact (on_segment_start (edge ts i))|exact Ox]. }
  assert (St : forall j, (j < length L)%nat -> inside fs (t_start (tev ts (nth j L O))) = inside fs (t_start (tev ts (nth 0 L O)))).
  { induction j as [|j IH]; intro Hj; [reflexivity|]. rewrite <- IH by lia. rewrite (loop_link_pts evs Hpair Hids L HL (S j) Hj). unfold Loops.before.
    apply Seg_; [apply nth_In; lia|]. exact (on_segment_end (edge ts _)). }
  intros i q Ii Oq. rewrite (Seg_ i q Ii Oq). destruct (In_nth _ _ O Ii) as (j & Hj & <-). exact (St j Hj).
Qed.
End Loop.

(** ** Contours of a result *)
Definition contours_apart (cs : list contour) : Prop :=
  pairwise (fun c d => forall q, on_segments q (contour_edges (vertices c)) -> ~ on_segments q (contour_edges (vertices d))) cs.
Section Swept.
Variables (op : operation) (E1 E2 : list segment) (x_max : option Qc) (s : state) (pl : list event).
Hypothesis H : shaped_swept op E1 E2 x_max s pl.
Variable events : list event.
Hypothesis Hperm : Permutation events pl.
Notation evs := (result_events s events).
Notation ts := (map (traced_of s events) evs).
Variable f : event -> nat.
Hypothesis Hord : forall a b, In a pl -> In b pl -> ((f a <= f b)%nat <-> ple (ev_start s a) (ev_start s b)).
Notation hs := (map (holey_of s events f) evs).
Variables (p0 : list bool) (mk : marks) (r : relations) (contours : list contour) (done : list (list nat)).
Hypothesis T : tracing s hs (length hs) p0 mk r contours done.
Hypothesis Hdone : Permutation (concat done ++ map (opp ts) (concat done)) (seq 0 (length ts)).
(** Places with what lies right under the starts of pieces found. *)
Hypothesis Hchain : forall Q, exists e, Sheared e Q /\ chained e s pl.
Notation n := (length (lefts s)).
Notation left_at i := (left_of s (h_event (hev hs i))).
Notation g := (seg_of s).
Definition parts (j : nat) : list nat := map (fun i => left_at i) (nth j done []).
Notation m := (length done).

Let Hpair : TraceThms.paired (map h_traced hs).
Proof. rewrite hs_traced. exact (ts_paired _ _ _ _ _ _ H events Hperm). Qed.
Let Htidy : tidy (map h_traced hs).
Proof. rewrite hs_traced. exact (ts_tidy _ _ _ _ _ _ H events Hperm). Qed.
Let Hplanar : planar (map h_traced hs).
Proof. rewrite hs_traced. exact (ts_planar _ _ _ _ _ _ H events Hperm). Qed.
Let Hids := hs_ids s pl events Hperm f Hord.
Let Hsorted := hs_sorted s events f.
Let Hinj := hs_inj _ _ _ _ _ _ H events Hperm f.

Lemma at_done : forall j i, In i (nth j done []) -> (j < m)%nat /\ In i (concat done) /\ (i < length hs)%nat.
Proof.
  intros j i Hi. assert (Hj : (j < m)%nat) by (destruct (Nat.lt_ge_cases j m) as [C|C]; [exact C|rewrite nth_overflow in Hi by exact C; destruct Hi]).
  assert (Ic : In i (concat done)) by (apply in_concat; exists (nth j done []); split; [apply nth_In; exact Hj|exact Hi]).
  split; [exact Hj|]. split; [exact Ic|exact (tr_lt _ _ _ _ _ _ _ _ T i Ic)].
Qed.
Lemma hs_event : forall i, (i < length hs)%nat -> h_event (hev hs i) = nth i evs (EL 0) /\ In (nth i evs (EL 0)) evs.
Proof. intros i Hi. rewrite map_length in Hi. rewrite (hs_at s events f i Hi). split; [reflexivity|apply nth_In; exact Hi]. Qed.
Lemma hs_range : forall i, (i < length hs)%nat -> in_range s (h_event (hev hs i)).
Proof. intros i Hi. destruct (hs_event i Hi) as (-> & I). exact (evs_range _ _ _ _ _ _ H _ Hperm _ I). Qed.
Lemma hs_edge : forall i, (i < length hs)%nat -> edge (map h_traced hs) i = ev_segment s (h_event (hev hs i)).
Proof. intros i Hi. rewrite hs_traced, (proj1 (hs_event i Hi)). apply (ts_edge _ _ _ _ _ _ H events Hperm). rewrite map_length in *. exact Hi. Qed.
Lemma hs_left : forall i, (i < length hs)%nat -> t_left (tev (map h_traced hs) i) = is_left (h_event (hev hs i)).
Proof. intros i Hi. rewrite hs_traced, (proj1 (hs_event i Hi)). rewrite map_length in Hi. rewrite (ts_at s events) by (rewrite map_length; exact Hi). reflexivity. Qed.
Lemma part_seen : forall j x, In x (parts j) -> In (EL x) pl /\ l_result (lft s x) = true.
Proof.
  intros j x Hx. apply in_map_iff in Hx. destruct Hx as (i & <- & Hi). destruct (at_done j i Hi) as (_ & _ & Li). destruct (hs_event i Li) as (-> & I).
  exact (evs_left _ _ _ _ _ _ H events Hperm _ I).
Qed.
Lemma seen_lt : forall x, In (EL x) pl -> (x < n)%nat.
Proof. intros x Hx. exact (events_range _ _ _ _ _ _ H _ Hx). Qed.
Lemma parts_edges : forall j, Polygons.turned (map g (parts j)) (map (edge (map h_traced hs)) (nth j done [])).
Proof.
  intro j. unfold Polygons.turned, parts. set (hts := map h_traced hs). rewrite !map_map. unfold hts. apply Permutation_refl'. apply map_ext_in. intros i Hi. destruct (at_done j i Hi) as (_ & _ & Li).
  rewrite (hs_edge i Li). destruct (ev_segment_cases _ _ _ _ _ _ H _ (hs_range i Li)) as [->| ->]; [reflexivity|symmetry; apply canon_reversed].
Qed.
Lemma loop_at : forall j, (j < m)%nat -> let L := nth j done [] in
  loop (length hs) (vx hs) (ov hs) L /\ (forall x y, In x L -> In y L -> ov hs x <> y)
  /\ is_left (h_event (hev hs (nth 0 L O))) = true /\ (forall x, In x L -> (nth 0 L O <= x)%nat /\ (nth 0 L O <= ov hs x)%nat) /\ In (nth 0 L O) L.
Proof.
  intros j Hj L. destruct (tr_loops _ _ _ _ _ _ _ _ T L (nth_In _ _ Hj)) as (A & B & C & D). split; [exact A|]. split; [exact B|]. split; [exact C|]. split; [exact D|].
  exact (first_in hs L A).
Qed.
Lemma parts_even : forall j, (j < m)%nat -> even_occurrences (endpoints_of (map g (parts j))).
Proof.
  intros j Hj. destruct (loop_at j Hj) as (A & B & _). apply (turned_even _ _ (turned_sym _ _ (parts_edges j))).
  apply (turned_even _ _ (turned_perm _ _ (outline_edges hs Hpair Hids _ A B))). apply contour_even.
Qed.
Lemma parts_nodup : forall j, (j < m)%nat -> NoDup (parts j).
Proof.
  intros j Hj. destruct (loop_at j Hj) as (A & B & _). pose proof (NoDup_map_inv _ _ (lo_nodup _ _ _ _ A)) as Nd. unfold parts.
  assert (I : forall x y, In x (nth j done []) -> In y (nth j done []) -> left_at x = left_at y -> x = y).
  { intros x y Hx Hy E. destruct (Hinj x y (lo_lt _ _ _ _ A x Hx) (lo_lt _ _ _ _ A y Hy) E) as [K|K]; [exact K|]. exfalso. exact (B y x Hy Hx (eq_sym K)). }
  clear - Nd I. induction Nd as [|x l Nx Nd IH]; [constructor|]. cbn. constructor.
  - intro K. apply in_map_iff in K. destruct K as (y & E & Hy). apply Nx. rewrite (I x y (or_introl eq_refl) (or_intror Hy) (eq_sym E)). exact Hy.
  - apply IH. intros a b Ha Hb. apply I; right; assumption.
Qed.
Lemma parts_apart : forall j k x, In x (parts j) -> In x (parts k) -> j = k.
Proof.
  intros j k x Hj Hk. apply in_map_iff in Hj, Hk. destruct Hj as (a & Ea & Ia), Hk as (b & Eb & Ib).
  pose proof (tr_ways _ _ _ _ _ _ _ _ T j a Ia) as A. pose proof (tr_ways _ _ _ _ _ _ _ _ T k b Ib) as B. rewrite Ea in A. rewrite Eb, A in B. congruence.
Qed.
Lemma drawn_at : forall j, (j < m)%nat -> drawn hs (nth j done []) (nth j contours no_contour).
Proof.
  pose proof (tr_drawn _ _ _ _ _ _ _ _ T) as F. clear - F. induction F as [|L c l cs D F IH]; intros j Hj; cbn in Hj; [lia|]. destruct j as [|j]; [exact D|apply IH; lia].
Qed.
Lemma parts_inside : forall j q, (j < m)%nat -> inside (map g (parts j)) q = inside (contour_edges (vertices (nth j contours no_contour))) q.
Proof. intros j q Hj. rewrite (turned_inside _ _ q (parts_edges j)). symmetry. apply (drawn_at j Hj). Qed.
Lemma done_length : m = length contours.
Proof. exact (Forall2_length _ _ _ _ _ (tr_drawn _ _ _ _ _ _ _ _ T)). Qed.
Definition way (x : nat) : bool := match mark_of mk x with Some (b, _) => b | None => false end.
Lemma way_at : forall j i, In i (nth j done []) -> way (left_at i) = negb (is_left (h_event (hev hs i))).
Proof. intros j i Hi. unfold way. rewrite (tr_ways _ _ _ _ _ _ _ _ T j i Hi). reflexivity. Qed.
Lemma piece_lt : forall i, (i < n)%nat -> plt (s_start (g i)) (s_end (g i)).
Proof. exact (left_lt _ _ _ _ _ _ H). Qed.
Lemma part_mid : forall i, (i < length hs)%nat -> inside_segment (mid g (left_at i)) (edge (map h_traced hs) i).
Proof.
  intros i Hi. rewrite (hs_edge i Hi). pose proof (hs_range i Hi) as R. unfold mid.
  assert (Lx : (left_at i < n)%nat).
  { apply seen_lt. destruct (hs_event i Hi) as (-> & I). exact (proj1 (evs_left _ _ _ _ _ _ H events Hperm _ I)). }
  pose proof (middle_inside _ _ (piece_lt _ Lx)) as M. destruct (ev_segment_cases _ _ _ _ _ _ H _ R) as [->| ->]; [exact M|].
  destruct M as (M1 & M2 & M3). split; [apply on_reversed; exact M1|]. split; assumption.
Qed.
Lemma part_way : forall j x, (j < m)%nat -> In x (parts j) -> inside (map g (parts j)) (mid g x) = way x.
Proof.
  intros j x Hj Hx. apply in_map_iff in Hx. destruct Hx as (i & <- & Hi). destruct (at_done j i Hi) as (_ & _ & Li). destruct (loop_at j Hj) as (A & B & C & D & I0).
  rewrite (way_at j i Hi), (turned_inside _ _ _ (parts_edges j)), <- (hs_left i Li).
  apply (loop_way hs Hpair Htidy Hplanar Hids Hsorted _ A B); [|exact D|exact Hi|exact (part_mid i Li)].
  rewrite (hs_left _ (lo_lt _ _ _ _ A _ I0)). exact C.
Qed.
Lemma parts_meet : forall j i k x, (j < m)%nat -> In k (parts j) -> (i < n)%nat -> i <> k -> on_segment x (g i) -> on_segment x (g k) ->
  (endpoint x (g i) /\ endpoint x (g k)) \/ g i = g k.
Proof.
  intros j i k x Hj Hk Hi N Oi Ok. destruct (part_seen j k Hk) as (Ks & Kr). pose proof (seen_lt k Ks) as Hkn.
  destruct (sh_sweep _ _ _ _ _ _ H) as (s0 & out & Hf & Hsw & Hpr & Hla).
  assert (Ko : In k out).
  { refine (selected_out _ s0 Hf (lawful_operands _ _ (proj1 (proj1 (sh_bounds _ _ _ _ _ _ H))) (proj1 (proj2 (sh_bounds _ _ _ _ _ _ H)))) x_max _ _ (op_follows op) (Hreg _ _ _ _ _ _ H) s out pl Hsw Hpr Hla (Hstop _ _ _ _ _ _ H) _ Ks Kr). }
  destruct (sw_apart _ _ _ _ Hsw k i Ko Hi N) as [K|(_ & E & _)]; [left; destruct (K x Ok Oi); auto|right; symmetry; exact E].
Qed.
Lemma results_differ : forall x y, In (EL x) pl -> In (EL y) pl -> l_result (lft s x) = true -> l_result (lft s y) = true -> g x = g y -> x = y.
Proof.
  intros x y Hx Hy Rx Ry E. destruct (Nat.eq_dec x y) as [K|N]; [exact K|exfalso]. apply (result_apart _ _ _ _ _ _ H x y Hx Hy Rx Ry N). rewrite <- E.
  pose proof (piece_lt x (seen_lt x Hx)) as L. exists (s_start (g x)), (s_end (g x)). split; [intro K; rewrite K in L; exact (plt_irrefl _ L)|].
  repeat split; (apply on_segment_start || apply on_segment_end).
Qed.
Lemma meet : forall j j' i k x, (j < m)%nat -> In k (parts j) -> In i (parts j') -> i <> k -> on_segment x (g i) -> on_segment x (g k) -> endpoint x (g i) /\ endpoint x (g k).
Proof.
  intros j j' i k x Hj Hk Hi N Oi Ok. destruct (part_seen j k Hk) as (Ks & Kr), (part_seen j' i Hi) as (Is & Ir).
  destruct (parts_meet j i k x Hj Hk (seen_lt i Is) N Oi Ok) as [K|K]; [exact K|]. elim N. exact (results_differ i k Is Ks Ir Kr K).
Qed.
(** ** Contours do not cross each other *)
Lemma part_side : forall e, Sheared e (flat_map (fun i => [s_start (g i); s_end (g i); mid g i]) (seq 0 n)) -> forall k i, (k < m)%nat -> (i < length hs)%nat -> edges (ov hs) (nth k done []) i = false ->
  side (map h_traced hs) e (edges (ov hs) (nth k done [])) i = inside (map g (parts k)) (mid g (left_at i)).
Proof.
  intros e Hsh k i Hk Hi Zi. set (P := flat_map (fun i => [s_start (g i); s_end (g i); mid g i]) (seq 0 n)) in *.
  set (hts := map h_traced hs) in *.
  assert (Lh : length hts = length hs) by apply map_length.
  assert (Pin : forall i, (i < n)%nat -> In (s_start (g i)) P /\ In (s_end (g i)) P /\ In (mid g i) P).
  { intros x Hx. assert (Q : forall y, In y [s_start (g x); s_end (g x); mid g x] -> In y P) by (intros y Hy; apply in_flat_map; exists x; split; [apply in_seq; lia|exact Hy]).
    split; [|split]; apply Q; cbn; tauto. }
  assert (Hl : forall q, (q < length hs)%nat -> t_left (tev hts q) = is_left (h_event (hev hs q))) by exact hs_left.
  assert (Lt : forall q, (q < length hs)%nat -> (left_at q < n)%nat).
  { intros q Hq. apply seen_lt. destruct (hs_event q Hq) as (-> & I). exact (proj1 (evs_left _ _ _ _ _ _ H events Hperm _ I)). }
  assert (Eop : forall q, opp hts q = ov hs q) by (intro q; apply f_opp).
  assert (Op : forall q, (q < length hs)%nat -> (ov hs q < length hs)%nat /\ ov hs q <> q /\ ov hs (ov hs q) = q) by exact (f_op hs Hpair).
  assert (Lo : forall q, (q < length hs)%nat -> left_at (ov hs q) = left_at q) by exact (hs_op _ _ _ _ _ _ H events Hperm f).
  assert (Fo : forall q, (q < length hs)%nat -> t_left (tev hts (ov hs q)) = negb (t_left (tev hts q))).
  { intros q Hq. rewrite <- Eop. apply (td_left hts Htidy q). rewrite Lh. exact Hq. }
  (* places of edges *)
  assert (Kl : forall q, (q < length hs)%nat -> t_left (tev hts q) = true -> kp e (edge hts q) = kp e (g (left_at q))).
  { intros q Hq Lq. unfold hts. rewrite (hs_edge q Hq). rewrite (Hl q Hq) in Lq. destruct (h_event (hev hs q)) as [x|x]; [reflexivity|discriminate Lq]. }
  assert (Kg : forall q, (q < length hs)%nat -> kp e (edge hts q) = kp e (g (left_at q))).
  { intros q Hq. destruct (t_left (tev hts q)) eqn:Lq; [exact (Kl q Hq Lq)|]. destruct (Op q Hq) as (Hq' & _ & _).
    rewrite <- (Lo q Hq), <- (Kl _ Hq') by (rewrite (Fo q Hq), Lq; reflexivity). symmetry. rewrite <- Eop. apply (K_opp hts Hpair Htidy e q). rewrite Lh. exact Hq. }
  set (Z := edges (ov hs) (nth k done [])) in *.
  unfold side. rewrite Zi, Bool.andb_false_r, Bool.xorb_false_r. unfold under. rewrite (Kg i Hi).
  set (u := fun x => undermost false (kp e (g (left_at i))) (lo (kp e (g (left_at i)))) (kp e (g x))).
  destruct (loop_at k Hk) as (A & B & _).
  assert (Ch : forall q, In q (chosen hts Z) <-> (q < length hs)%nat /\ t_left (tev hts q) = true /\ Z q = true).
  { intro q. unfold chosen. rewrite filter_In, in_seq, Lh, Bool.andb_true_iff. split; [intros (X & Y); split; [lia|exact Y]|intros (X & Y); split; [lia|exact Y]]. }
  rewrite (parity_ext _ (fun q => u (left_at q))) by (intros q Hq; apply Ch in Hq; unfold u; rewrite (Kg q (proj1 Hq)); reflexivity).
  rewrite <- (parity_map _ _ (fun q => left_at q) u).
  assert (Pm : Permutation (map (fun q => left_at q) (chosen hts Z)) (parts k)).
  { apply NoDup_Permutation; [|exact (parts_nodup k Hk)|].
    - assert (Nc : NoDup (chosen hts Z)) by (apply NoDup_filter, seq_NoDup). assert (Hc' : forall q, In q (chosen hts Z) -> (q < length hs)%nat /\ t_left (tev hts q) = true) by (intros q Hq; apply Ch in Hq; tauto).
      revert Nc Hc'. clear Ch. generalize (chosen hts Z) as l0. intros l0 Nc. induction Nc as [|q l Nq Nc IH]; intro Hc'; [constructor|]. cbn [map]. constructor; [|apply IH; intros y Hy; apply Hc'; right; exact Hy].
      intro J. apply in_map_iff in J. destruct J as (y & Ey & Hy). destruct (Hc' q (or_introl eq_refl)) as (Q1 & Q2), (Hc' y (or_intror Hy)) as (Y1 & Y2).
      destruct (Hinj y q Y1 Q1 Ey) as [E|E]; [subst y; exact (Nq Hy)|]. rewrite E, (Fo q Q1), Q2 in Y2. discriminate Y2.
    - intro x. unfold parts. rewrite !in_map_iff. split.
      + intros (q & Eq & Hq). apply Ch in Hq. destruct Hq as (Q1 & _ & Q3). apply edges_spec in Q3. destruct Q3 as [Q3|Q3]; [exists q; auto|]. exists (ov hs q). split; [rewrite (Lo q Q1); exact Eq|exact Q3].
      + intros (q & Eq & Hq). pose proof (lo_lt _ _ _ _ A q Hq) as Q1. destruct (Op q Q1) as (Q2 & _ & Q3). destruct (t_left (tev hts q)) eqn:Lq.
        * exists q. split; [exact Eq|]. apply Ch. split; [exact Q1|]. split; [exact Lq|]. apply edges_spec. left. exact Hq.
        * exists (ov hs q). split; [rewrite (Lo q Q1); exact Eq|]. apply Ch. split; [exact Q2|]. split; [rewrite (Fo q Q1), Lq; reflexivity|]. apply edges_spec. right. rewrite Q3. exact Hq. }
  rewrite (parity_perm _ _ _ Pm).
  pose proof (w_d e P Hsh n g piece_lt Pin m parts (fun j i _ Hx => seen_lt i (proj1 (part_seen j i Hx))) parts_meet parts_even k (left_at i)) as W.
  apply (W (lo (kp e (g (left_at i)))) Hk (Lt i Hi) (Qcle_refl _)).
  exact (g_len e P Hsh n g piece_lt Pin (left_at i) (Lt i Hi)).
Qed.
Theorem part_same : forall j k x y, (j < m)%nat -> (k < m)%nat -> j <> k -> In x (parts j) -> In y (parts j) -> inside (map g (parts k)) (mid g x) = inside (map g (parts k)) (mid g y).
Proof.
  destruct (shear_exists (flat_map (fun i => [s_start (g i); s_end (g i); mid g i]) (seq 0 n) ++ starts (map h_traced hs))) as (e & _ & Hsh').
  assert (Hsh : Sheared e (flat_map (fun i => [s_start (g i); s_end (g i); mid g i]) (seq 0 n))) by (apply (sheared_incl e _ _ Hsh'); intros q Hq; apply in_app_iff; left; exact Hq).
  assert (Hst : Sheared e (starts (map h_traced hs))) by (apply (sheared_incl e _ _ Hsh'); intros q Hq; apply in_app_iff; right; exact Hq). clear Hsh'.
  destruct (connectivity_correct (map h_traced hs)) as (c & Ec & _).
  assert (Gr : grouped (starts (map h_traced hs))) by (rewrite hs_traced; exact (ts_grouped s events)).
  assert (Lh : length (map h_traced hs) = length hs) by apply map_length.
  assert (Eop : forall q, opp (map h_traced hs) q = ov hs q) by (intro q; apply f_opp).
  (* sides of contours *)
  assert (Sd : forall k, (k < m)%nat -> let Z := edges (ov hs) (nth k done []) in closed (length hs) (vx hs) (ov hs) Z /\ sides (length hs) (ov hs) (nx c) Z (side (map h_traced hs) e Z)).
  { intros k Hk Z. destruct (loop_at k Hk) as (A & B & _ & _ & I0).
    assert (Cz : closed (length hs) (vx hs) (ov hs) Z) by exact (loop_closed (length hs) (vx hs) (ov hs) (f_op hs Hpair) _ (lo_lt _ _ _ _ A _ I0) _ A B). split; [exact Cz|].
    pose proof (faces_at (map h_traced hs) (vx hs) c Hpair Htidy Gr) as F. rewrite Lh in F. specialize (F Hids Ec e Hst Z).
    assert (Cz' : closed (length hs) (vx hs) (opp (map h_traced hs)) Z) by (destruct Cz as (C1 & C2); split; [intros i Hi; rewrite Eop; exact (C1 i Hi)|exact C2]).
    destruct (F Cz') as (F1 & F2). split; [intros i Hi; rewrite <- Eop; exact (F1 i Hi)|exact F2]. }
  assert (Dis : forall j k i, j <> k -> In i (nth j done []) -> edges (ov hs) (nth k done []) i = false).
  { intros j k i N Hi. destruct (edges (ov hs) (nth k done []) i) eqn:E; [|reflexivity]. exfalso. apply N. apply (parts_apart j k (left_at i)); unfold parts.
    - apply (in_map (fun i => left_at i)). exact Hi.
    - apply edges_spec in E. destruct E as [E|E]; [apply (in_map (fun i => left_at i)); exact E|]. destruct (at_done j i Hi) as (_ & _ & Li).
      rewrite <- (hs_op _ _ _ _ _ _ H events Hperm f i Li). apply (in_map (fun i => left_at i)). exact E. }
  (* the later contour along the earlier one *)
  assert (Early : forall j k, (j < k)%nat -> (k < m)%nat -> forall x y, In x (nth j done []) -> In y (nth j done []) ->
    side (map h_traced hs) e (edges (ov hs) (nth k done [])) x = side (map h_traced hs) e (edges (ov hs) (nth k done [])) y).
  { intros j k Hj Hk. destruct (Sd k Hk) as (Cz & Sz).
    assert (G : forall x, In x (nth j done []) -> side (map h_traced hs) e (edges (ov hs) (nth k done [])) x = side (map h_traced hs) e (edges (ov hs) (nth k done [])) (nth 0 (nth j done []) O)).
    { apply (tr_same _ _ _ _ _ _ _ _ T c Ec j _ _ ltac:(lia) Cz); [|exact Sz].
      assert (Q : forall i, In i (concat (firstn j done)) -> edges (ov hs) (nth k done []) i = false).
      { intros i Hi. apply in_concat in Hi. destruct Hi as (L & HL & Hi). apply (In_nth _ _ []) in HL. destruct HL as (q & Hq & EL').
        rewrite firstn_length in Hq. assert (Eq : nth q (firstn j done) [] = nth q done []).
        { rewrite <- (firstn_skipn j done) at 2. rewrite app_nth1; [reflexivity|rewrite firstn_length; lia]. }
        apply (Dis q k i); [lia|]. rewrite <- Eq, EL'. exact Hi. }
      intros i Hi Zi. split; intro J; apply Q in J; [congruence|]. rewrite (proj1 Cz i Hi) in J. congruence. }
    intros x y Hx Hy. rewrite (G x Hx), (G y Hy). reflexivity. }
  assert (All : forall j k, (j < m)%nat -> (k < m)%nat -> j <> k -> forall x y, In x (nth j done []) -> In y (nth j done []) ->
    side (map h_traced hs) e (edges (ov hs) (nth k done [])) x = side (map h_traced hs) e (edges (ov hs) (nth k done [])) y).
  { intros j k Hj Hk N. destruct (Nat.lt_trichotomy j k) as [C|[C|C]]; [exact (Early j k C Hk)|contradiction|]. apply same_along.
    destruct (loop_at j Hj) as (A & B & _), (loop_at k Hk) as (A' & B' & _).
    assert (Hring : forall u, (u < length hs)%nat -> exists l, chain (nx c) u (l ++ [u]) /\ NoDup (l ++ [u]) /\ forall x, (x < length hs)%nat -> vx hs x = vx hs u -> In x (l ++ [u])) by exact (f_ring hs Gr Hids c Ec).
    apply (not_across (length hs) (vx hs) (ov hs) (nx c) (f_op hs Hpair) (f_nxt hs Hids c Ec) Hring (nth k done []) (nth j done []) _ (side (map h_traced hs) e (edges (ov hs) (nth j done []))) A' A B' B).
    - intros x Hx. exact (Dis j k x N Hx).
    - exact (proj2 (Sd k Hk)).
    - exact (proj2 (Sd j Hj)).
    - exact (Early k j C Hj). }
  intros j k x y Hj Hk N Hx Hy. unfold parts in Hx, Hy. apply in_map_iff in Hx, Hy. destruct Hx as (a & <- & Ha), Hy as (b & <- & Hb).
  rewrite <- (part_side e Hsh k a Hk (proj2 (proj2 (at_done j a Ha))) (Dis j k a N Ha)), <- (part_side e Hsh k b Hk (proj2 (proj2 (at_done j b Hb))) (Dis j k b N Hb)).
  exact (All j k Hj Hk N a b Ha Hb).
Qed.
(** Each contour lies inside of other ones or outside of them. *)
Let Hrest : forall j k x y, (j < m)%nat -> (k < m)%nat -> j <> k -> In x (parts j) -> In y (parts j) -> inside (map g (parts k)) (mid g x) = inside (map g (parts k)) (mid g y) := part_same.
Notation around := (Nesting.enc g parts (fun j => left_at (nth 0 (nth j done []) O))).
Definition shape_at (k : nat) : list segment := contour_edges (vertices (nth k contours no_contour)).
Lemma around_nested : forall p, (forall j, (j < m)%nat ->
    (internal_at r j = false /\ forall k, (k < m)%nat -> around k j = false)
    \/ exists q, (q < j)%nat /\
       ((internal_at r j = negb (internal_at r q) /\ (internal_at r j = true -> parent_at r j = Some q) /\ forall k, (k < m)%nat -> around k j = (Nat.eqb k q || around k q)%bool)
        \/ (internal_at r j = internal_at r q /\ (internal_at r j = true -> parent_at r j = parent_at r q) /\ forall k, (k < m)%nat -> around k j = around k q)))
  /\ ((forall k, (k < m)%nat -> inside (shape_at k) p = false)
    \/ exists j, (j < m)%nat /\ ((forall k, (k < m)%nat -> inside (shape_at k) p = (Nat.eqb k j || around k j)%bool) \/ forall k, (k < m)%nat -> inside (shape_at k) p = around k j)).
Proof.
  intro p. set (ends := flat_map (fun i => [s_start (g i); s_end (g i)]) (seq 0 n)). set (P := ends ++ map (mid g) (seq 0 n) ++ [p]).
  destruct (Hchain P) as (e & Hsh & Hc).
  assert (Pin : forall i, (i < n)%nat -> In (s_start (g i)) P /\ In (s_end (g i)) P /\ In (mid g i) P).
  { intros i Hi. unfold P, ends. rewrite !in_app_iff. split; [|split].
    - left. apply in_flat_map. exists i. split; [apply in_seq; lia|left; reflexivity].
    - left. apply in_flat_map. exists i. split; [apply in_seq; lia|right; left; reflexivity].
    - right. left. apply in_map. apply in_seq. lia. }
  assert (Kp : forall i, (i < n)%nat -> pc e s i = side_of e g (fun i => l_first (lft s i)) i).
  { intros i Hi. destruct (g_parts n g piece_lt i Hi) as (A & B). unfold side_of, kp, pc. cbn [lo hi sl ic]. rewrite A, B. reflexivity. }
  pose proof (nested e P Hsh n g piece_lt Pin m parts
    (fun j i Hj Hi => seen_lt i (proj1 (part_seen j i Hi))) parts_nodup parts_meet parts_even (fun i => l_first (lft s i))
    (fun x => In (EL x) pl) (fun x => l_result (lft s x)) (fun x => l_below (lft s x)) seen_lt) as K.
  specialize (K ltac:(intros x Sx Ex j Hj Hx; cbv beta in Ex; rewrite (proj2 (part_seen j x Hx)) in Ex; discriminate Ex)).
  specialize (K results_differ (fun x => sl (kp e (g x)) * e = 1)).
  specialize (K ltac:(intros b x Hb Hx Sb L U; exact (kp_steep e P Hsh (g b) (g x) (piece_lt b Hb) (piece_lt x Hx) (proj1 (Pin b Hb)) (proj1 (proj2 (Pin b Hb))) (proj1 (Pin x Hx)) (proj1 (proj2 (Pin x Hx))) Sb L U))).
  specialize (K ltac:(intros x Sx; destruct (Hc x Sx) as (ob & B & E); exists ob; split; [exact (beneath_below n _ _ x ob Kp (seen_lt x Sx) B)|];
    destruct ob as [b|]; [|exact E]; destruct E as (Sb & E); split; [exact Sb|]; rewrite (Kp b (seen_lt b Sb)), (Kp x (seen_lt x Sx)) in E; exact E)).
  specialize (K (fun j x _ Hx => proj1 (part_seen j x Hx))).
  specialize (K way (fun j => left_at (nth 0 (nth j done []) O)) (fun j => internal_at r j) (fun j => parent_at r j)).
  specialize (K (fun j k x _ _ => parts_apart j k x)).
  specialize (K part_way Hrest).
  specialize (K ltac:(intros j Hj; destruct (loop_at j Hj) as (A & B & C & D & I0); split; [unfold parts; apply (in_map (fun i => left_at i)); exact I0|rewrite (way_at j _ I0), C; reflexivity])).
  assert (Hrel : forall j, (j < m)%nat -> match l_below (lft s (left_at (nth 0 (nth j done []) O))) with
    | Some c => exists q, (q < j)%nat /\ In c (parts q) /\ (if way c then internal_at r j = internal_at r q /\ (internal_at r j = true -> parent_at r j = parent_at r q)
        else internal_at r j = negb (internal_at r q) /\ (internal_at r j = true -> parent_at r j = Some q))
    | None => internal_at r j = false end).
  { intros j Hj. destruct (loop_at j Hj) as (A & B & C & D & I0). set (k := nth 0 (nth j done []) O) in *.
    destruct (h_event (hev hs k)) as [i|i] eqn:Ek; [|discriminate C]. cbn [left_of].
    pose proof (tr_nested _ _ _ _ _ _ _ _ T j i Hj Ek) as N. destruct (l_below (lft s i)) as [c|]; [|exact N]. destruct N as (q & x & Hq & Ix & Ex & Rr).
    exists q. split; [exact Hq|]. split; [unfold parts; rewrite <- Ex; apply (in_map (fun i => left_at i)); exact Ix|].
    rewrite <- Ex, (way_at q x Ix). cbn [relation_of] in Rr. destruct (negb (is_left (h_event (hev hs x)))); exact Rr. }
  specialize (K Hrel p ltac:(unfold P; rewrite !in_app_iff; right; right; left; reflexivity)).
  destruct K as (K1 & K2). split; [exact K1|].
  destruct K2 as [K2|(j & Hj & [K2|K2])]; [left|right; exists j; split; [exact Hj|left]|right; exists j; split; [exact Hj|right]];
    intros k Hk; unfold shape_at; rewrite <- (parts_inside k p Hk); exact (K2 k Hk).
Qed.
Lemma around_tree : forall j, (j < m)%nat ->
    (internal_at r j = false /\ forall k, (k < m)%nat -> around k j = false)
    \/ exists q, (q < j)%nat /\
       ((internal_at r j = negb (internal_at r q) /\ (internal_at r j = true -> parent_at r j = Some q) /\ forall k, (k < m)%nat -> around k j = (Nat.eqb k q || around k q)%bool)
        \/ (internal_at r j = internal_at r q /\ (internal_at r j = true -> parent_at r j = parent_at r q) /\ forall k, (k < m)%nat -> around k j = around k q)).
Proof. exact (proj1 (around_nested (Pt 0 0))). Qed.
Lemma on_parts : forall j p, (j < m)%nat -> (on_segments p (shape_at j) <-> exists x, In x (parts j) /\ on_segment p (g x)).
Proof.
  intros j p Hj. unfold shape_at. rewrite (proj2 (proj2 (proj2 (drawn_at j Hj))) p), <- (turned_on _ _ p (parts_edges j)). split.
  - intros (sg & Hs & O). apply in_map_iff in Hs. destruct Hs as (x & <- & Hx). exists x. split; assumption.
  - intros (x & Hx & O). exists (g x). split; [apply in_map; exact Hx|exact O].
Qed.
Lemma parts_proper : forall k, Forall proper (map g (parts k)).
Proof.
  intro k. apply Forall_forall. intros sg Hs. apply in_map_iff in Hs. destruct Hs as (i & <- & Hi). pose proof (piece_lt i (seen_lt i (proj1 (part_seen k i Hi)))) as L. intro E. rewrite E in L. exact (plt_irrefl _ L).
Qed.
(** A point of a contour is inside of the contours around it. *)
Lemma around_on : forall c i p, (c < m)%nat -> (i < m)%nat -> on_segments p (shape_at c) -> ~ on_segments p (shape_at i) -> inside (shape_at i) p = around i c.
Proof.
  intros c i p Hc Hi Oc Ni. assert (N : c <> i) by (intros ->; contradiction). pose proof Ni as Ni'. rewrite (on_parts i p Hi) in Ni'. apply (on_parts c p Hc) in Oc. destruct Oc as (x & Hx & Ox).
  unfold shape_at. rewrite <- (parts_inside i p Hi). destruct (loop_at c Hc) as (A & B & C & D & I0).
  unfold Nesting.enc, d, Nesting.es. rewrite <- (Hrest c i x _ Hc Hi N Hx (in_map (fun i => left_at i) _ _ I0)).
  pose proof (piece_lt x (seen_lt x (proj1 (part_seen c x Hx)))) as L. pose proof (middle_inside _ _ L) as (M1 & M2 & M3). fold (mid g x) in M1, M2, M3.
  apply inside_const; [exact (parts_proper i)|exact (parts_even i Hi)|]. intros sg Hs. left. intros y Oy Os. apply in_map_iff in Hs. destruct Hs as (z & <- & Hz).
  assert (Nz : x <> z) by (intros ->; apply N; exact (parts_apart c i z Hx Hz)).
  assert (Oyx : on_segment y (g x)) by exact (on_convex (g x) p (mid g x) y Ox M1 Oy).
  destruct (meet i c x z y Hi Hz Hx Nz Oyx Os) as (Ey & _).
  apply Ni'. exists z. split; [exact Hz|]. assert (y = p) as <-; [|exact Os].
  assert (Np : p <> mid g x).
  { intros E. rewrite E in Oy. assert (y = mid g x) as -> by (destruct Oy as (u & _ & _ & U1 & U2); cbn [s_start s_end] in U1, U2; apply pt_ext; [rewrite U1|rewrite U2]; ring). destruct Ey as [Ey|Ey]; [exact (M2 Ey)|exact (M3 Ey)]. }
  destruct (g x) as (a, b) eqn:Eg. cbn [s_start s_end] in *. apply (on_segment_lex a b _ L) in Ox, M1. destruct Ox as (_ & P1 & P2), M1 as (_ & Q1 & Q2).
  destruct (lex_between p (mid g x) y Oy Np) as [(_ & Y1 & Y2)|(_ & Y1 & Y2)], Ey as [Ey|Ey]; cbn in Ey; subst y.
  - apply ple_antisym; assumption.
  - elim M3. apply ple_antisym; assumption.
  - elim M2. apply ple_antisym; assumption.
  - apply ple_antisym; assumption.
Qed.
Theorem parity_nested : forall p, parity (fun k => inside (contour_edges (vertices (nth k contours no_contour))) p) (seq 0 (length contours)) = true <->
  exists j, (j < length contours)%nat /\ internal_at r j = false /\ inside (contour_edges (vertices (nth j contours no_contour))) p = true
    /\ forall h, (h < length contours)%nat -> internal_at r h = true -> parent_at r h = Some j -> inside (contour_edges (vertices (nth h contours no_contour))) p = false.
Proof.
  intro p. rewrite <- done_length. destruct (around_nested p) as (Tr & Pn).
  exact (forest m around (fun j => internal_at r j) (fun j => parent_at r j) Tr (fun k => inside (shape_at k) p) Pn).
Qed.
Theorem points_nested : forall p, ~ on_segments p (flat_map polygon_edges (to_polygons r contours)) ->
  (in_polygons (to_polygons r contours) p <-> inside (flat_map polygon_edges (to_polygons r contours)) p = true).
Proof.
  intros p Off. pose proof (tr_related _ _ _ _ _ _ _ _ T) as R. pose proof (polygons_contours _ _ R) as Pm. set (k := length contours) in *.
  assert (Offc : forall j, (j < k)%nat -> ~ on_segments p (contour_edges (vertices (nth j contours no_contour)))).
  { intros j Hj O. apply Off. rewrite polygons_edges. apply on_flat. exists (nth j contours no_contour). split; [|exact O]. apply (Permutation_in _ (Permutation_sym Pm)). apply nth_In. exact Hj. }
  rewrite polygons_edges, (inside_perm _ _ p (Permutation_flat_map _ Pm)), inside_flat.
  rewrite <- (ShapedThms.map_nth_seq _ contours no_contour) at 2. rewrite parity_map. rewrite (parity_nested p). fold k. split.
  - intros (gp & Hg & (B & Hh)). unfold to_polygons in Hg. apply in_flat_map in Hg. destruct Hg as (j & Hj & Hg). apply in_seq in Hj. cbn in Hj.
    destruct (internal_at r j) eqn:Ij; [rewrite (proj1 (proj2 (re_in _ _ R j (proj2 Hj) Ij))) in Hg; destruct Hg|]. destruct Hg as [<-|[]].
    exists j. split; [exact (proj2 Hj)|]. split; [exact Ij|]. split.
    + destruct B as [B|B]; [destruct (Offc j (proj2 Hj) B)|exact B].
    + intros h Hhk Ih Ph. destruct (re_in _ _ R h Hhk Ih) as (_ & _ & q & Eq & _ & _ & Iq). rewrite Ph in Eq. injection Eq as <-.
      destruct (inside (contour_edges (vertices (nth h contours no_contour))) p) eqn:E; [|reflexivity]. exfalso. apply (Hh (nth h contours no_contour)).
      * cbn. apply in_map_iff. exists h. split; [reflexivity|exact Iq].
      * split; [exact (Offc h Hhk)|exact E].
  - intros (j & Hj & Ij & Oj & Hh). exists (polygon_of r contours j). split.
    + unfold to_polygons. apply in_flat_map. exists j. split; [apply in_seq; lia|]. rewrite Ij. left. reflexivity.
    + split; [right; exact Oj|]. intros c Hc (_ & K). cbn in Hc. apply in_map_iff in Hc. destruct Hc as (h & <- & Hc). destruct (re_holes _ _ R j h Hc) as (A & B & C).
      rewrite (Hh h A B C) in K. discriminate K.
Qed.
(** Polygons with nested contours are valid. *)
Lemma to_polygons_map : to_polygons r contours = map (polygon_of r contours) (filter (fun j => negb (internal_at r j)) (seq 0 (length contours))).
Proof.
  pose proof (tr_related _ _ _ _ _ _ _ _ T) as R. unfold to_polygons.
  assert (E : forall l, (forall j, In j l -> (j < length contours)%nat) -> flat_map (fun c => if nth c (are_internal r) false then map (polygon_of r contours) (nth c (hole_ids r) []) else [polygon_of r contours c]) l
    = map (polygon_of r contours) (filter (fun j => negb (internal_at r j)) l)).
  { induction l as [|j l IH]; intro Hl; [reflexivity|]. cbn [flat_map filter]. rewrite IH by (intros k Hk; apply Hl; right; exact Hk).
    change (nth j (are_internal r) false) with (internal_at r j). destruct (internal_at r j) eqn:Ej; [|reflexivity].
    rewrite (proj1 (proj2 (re_in _ _ R j (Hl j (or_introl eq_refl)) Ej))). reflexivity. }
  apply E. intros j Hj. apply in_seq in Hj. lia.
Qed.
Lemma pairwise_of : forall (A : Type) (R : A -> A -> Prop) (h : nat -> A) l, NoDup l -> (forall a b, In a l -> In b l -> a <> b -> R (h a) (h b)) -> pairwise R (map h l).
Proof.
  intros A R h l Nd K i j x y N Ei Ej. rewrite nth_error_map in Ei, Ej. destruct (nth_error l i) as [a|] eqn:Ea; [|discriminate Ei]. destruct (nth_error l j) as [b|] eqn:Eb; [|discriminate Ej].
  injection Ei as <-. injection Ej as <-. apply K; [exact (nth_error_In _ _ Ea)|exact (nth_error_In _ _ Eb)|]. intros <-. apply N.
  apply (proj1 (NoDup_nth_error l) Nd); [apply nth_error_Some; congruence|congruence].
Qed.
Lemma pairwise_infix : forall (A : Type) (R : A -> A -> Prop) a b c, pairwise R (a ++ b ++ c) -> pairwise R b.
Proof.
  intros A R a b c K i j x y N Ei Ej.
  assert (G : forall u z, nth_error b u = Some z -> nth_error (a ++ b ++ c) (length a + u) = Some z).
  { intros u z E. rewrite nth_error_app2 by apply Nat.le_add_r. rewrite Nat.add_comm, Nat.add_sub. rewrite nth_error_app1; [exact E|apply nth_error_Some; congruence]. }
  apply (K (length a + i)%nat (length a + j)%nat x y); [clear - N; lia|exact (G i x Ei)|exact (G j y Ej)].
Qed.
Lemma nodup_infix : forall (A : Type) (a b c : list A), NoDup (a ++ b ++ c) -> NoDup b.
Proof.
  intros A a b c N. assert (N' : NoDup (b ++ c)) by (induction a as [|u a IH]; [exact N|apply IH; inversion N; assumption]).
  clear N. induction b as [|u b IH]; [constructor|]. inversion N' as [|? ? K1 K2]; subst. constructor; [|exact (IH K2)]. intro K. apply K1. apply in_or_app. left. exact K.
Qed.
Lemma holes_nodup : forall j, NoDup (holes_at r j).
Proof.
  intro j. pose proof (re_once _ _ (tr_related _ _ _ _ _ _ _ _ T)) as Nd. destruct (Nat.lt_ge_cases j (length (hole_ids r))) as [L|L]; [|rewrite (nth_overflow (hole_ids r) [] L); constructor].
  destruct (nth_split _ [] L) as (a & b & E & _). rewrite E in Nd. rewrite concat_app in Nd. cbn in Nd. exact (nodup_infix _ _ _ _ Nd).
Qed.
Theorem nested_valid : (forall c, In c contours -> simple_contour (vertices c)) -> non_overlapping (flat_map polygon_edges (to_polygons r contours)) ->
  valid_polygons (to_polygons r contours).
Proof.
  intros Hs Hn. pose proof (tr_related _ _ _ _ _ _ _ _ T) as R. pose proof done_length as Lm.
  assert (Hsh : forall j, (j < m)%nat -> simple_contour (vertices (nth j contours no_contour))) by (intros j Hj; apply Hs, nth_In; lia).
  assert (Bd : forall p k, on_segments p (shape_at k) \/ ~ on_segments p (shape_at k)) by (intros p k; apply on_segments_dec).
  assert (On : forall p c i, (c < m)%nat -> (i < m)%nat -> on_segments p (shape_at c) -> ~ on_segments p (shape_at i) -> inside (shape_at i) p = around i c) by (intros p c i; apply around_on).
  assert (Hpn := fun p => proj2 (around_nested p)). pose proof around_tree as Tr.
  assert (Hh : forall j h, In h (holes_at r j) -> (h < m)%nat /\ internal_at r h = true /\ parent_at r h = Some j) by (intros j h Ih; rewrite Lm; exact (re_holes _ _ R j h Ih)).
  assert (Hh' : forall j h, (h < m)%nat -> internal_at r h = true -> parent_at r h = Some j -> In h (holes_at r j)).
  { intros j h Lh Ih Ph. rewrite Lm in Lh. destruct (re_in _ _ R h Lh Ih) as (_ & _ & q & Eq & _ & _ & Iq). rewrite Ph in Eq. injection Eq as <-. exact Iq. }
  rewrite to_polygons_map in *. set (outer := filter (fun j => negb (internal_at r j)) (seq 0 (length contours))) in *.
  assert (Ho : forall j, In j outer -> (j < m)%nat /\ internal_at r j = false).
  { intros j Hj. apply filter_In in Hj. destruct Hj as (A & B). apply in_seq in A. split; [lia|]. destruct (internal_at r j); [discriminate B|reflexivity]. }
  split; [|split; [|exact Hn]].
  - apply Forall_forall. intros gp Hg. apply in_map_iff in Hg. destruct Hg as (j & <- & Hj). pose proof (Ho j Hj) as (Lj & Ij). cbn [border holes polygon_of].
    split; [exact (Hsh j Lj)|]. cbn [border holes polygon_of]. split; [|split; [|split; [|split]]].
    + apply Forall_forall. intros c Hc. apply in_map_iff in Hc. destruct Hc as (h & <- & Hc). exact (Hsh h (proj1 (Hh j h Hc))).
    + intros c p Hc J. apply in_map_iff in Hc. destruct Hc as (h & <- & Hc). destruct (Hh j h Hc) as (A & B & C).
      exact (hole_within m around _ _ Tr (fun k => inside (shape_at k) p) (fun k => on_segments p (shape_at k)) (Bd p) (Hpn p) (On p) h j A B C J).
    + intros c p Hc J. apply in_map_iff in Hc. destruct Hc as (h & <- & Hc). destruct (Hh j h Hc) as (A & B & C).
      exact (hole_inside m around _ _ Tr (fun k => inside (shape_at k) p) (fun k => on_segments p (shape_at k)) (Hpn p) (On p) h j A B C J).
    + apply pairwise_of; [exact (holes_nodup j)|]. intros a b Ha Hb N p (J1 & J2). destruct (Hh j a Ha) as (A & B & C), (Hh j b Hb) as (A' & B' & C').
      exact (holes_apart m around _ _ Tr (fun k => inside (shape_at k) p) (fun k => on_segments p (shape_at k)) (Hpn p) (On p) a b j A A' N B B' C C' J1 J2).
    + destruct Hn as (Fp & Pw). destruct (in_split _ _ Hj) as (l1 & l2 & E). rewrite E, map_app, flat_map_app in Fp, Pw. cbn [map flat_map] in Fp, Pw.
      split; [apply Forall_app in Fp; destruct Fp as (_ & Fp); apply Forall_app in Fp; exact (proj1 Fp)|exact (pairwise_infix _ _ _ _ _ Pw)].
  - apply pairwise_of; [apply NoDup_filter, seq_NoDup|]. intros a b Ha Hb N p ((J1 & J2) & (J3 & J4)). destruct (Ho a Ha) as (A & B), (Ho b Hb) as (A' & B').
    refine (polygons_apart m around _ _ Tr (fun k => inside (shape_at k) p) (fun k => on_segments p (shape_at k)) (Bd p) (Hpn p) (On p) a b A A' N B B' J1 _ J3 _).
    + intros h Lh Ih Ph J. apply (J2 (nth h contours no_contour)); [|exact J]. cbn. apply (in_map (fun h => nth h contours no_contour)). exact (Hh' a h Lh Ih Ph).
    + intros h Lh Ih Ph J. apply (J4 (nth h contours no_contour)); [|exact J]. cbn. apply (in_map (fun h => nth h contours no_contour)). exact (Hh' b h Lh Ih Ph).
Qed.
End Swept.
