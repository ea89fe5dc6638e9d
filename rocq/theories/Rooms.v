(** Regions of a valid list at points where edges do not cross.
    Proof support only, no part of /repo is modelled here. *)
From Coq Require Import Permutation.
From Verif Require Import QcTac Geom Spec SpecShape SpecSides SpecLocate SpecReach GeomFacts Toward Bounding BoundingThms LoopThms Unique Relation PairFacts PairProofs Contour Filter Parity ShrinkThms RegionThms OrientThms Outline LinearThms LinearComplete EvenOdd Shapes Polygons Sides FilterThms ShapedThms Locate Rectangle CoupledThms CoupledThms Cycle Arranged Surround Faces Flip Reach Relation PairProofs QueueThms Fill Faces.

Notation ends c := (contour_edges (vertices c)).
Definition lone (E : list segment) (m : point) : Prop := forall s t, In s E -> In t E -> on_segment m s -> on_segment m t -> overlap s t.
Definition crossings (E : list segment) : list point := flat_map (fun s => map (segments_intersection s) E) E.
Lemma off_lone : forall E m, ~ on_segments m E -> lone E m.
Proof. intros E m N s t Hs _ O _. exfalso. apply N. exists s. split; assumption. Qed.
Lemma uncrossed : forall E m, Forall proper E -> ~ In m (crossings E) -> lone E m.
Proof.
  intros E m Pr N s t Hs Ht Os Ot. rewrite Forall_forall in Pr. pose proof (Pr s Hs) as Ps. pose proof (Pr t Ht) as Pt.
  assert (Nm : m <> segments_intersection s t) by (intros ->; apply N, in_flat_map; exists s; split; [exact Hs|apply in_map, Ht]).
  destruct (overlapping (segments_relation s t)) eqn:Ov; [exact (overlapping_overlap s t Ps Pt Ov)|].
  destruct (segments_relation s t) eqn:R; try discriminate Ov.
  - pose proof (segments_relation_spec s t Ps Pt) as K. rewrite R in K. inversion K as [| | | | | |D]. exfalso. exact (D m (conj Os Ot)).
  - destruct (meeting_point s t Ps Pt (or_intror R)) as (A & B). exists m, (segments_intersection s t). auto.
  - destruct (meeting_point s t Ps Pt (or_introl R)) as (A & B). exists m, (segments_intersection s t). auto.
Qed.
Lemma near_off : forall es p q cuts, Forall proper es -> ~ on_segments p es -> p <> q ->
  exists m, inside_segment m (Seg p q) /\ ~ In m cuts /\ forall x, on_segment x (Seg p m) -> ~ on_segments x es.
Proof.
  intros es p q cuts Pe N Npq. destruct (avoid_segments p q es Pe N) as (l & L0 & L1 & L).
  assert (Nq : p <> toward p q l).
  { intro E. apply Npq. assert (X : l * (px q - px p) = 0) by (apply (f_equal px) in E; unfold toward in E; cbn in E; clear - E; qlra).
    assert (Y : l * (py q - py p) = 0) by (apply (f_equal py) in E; unfold toward in E; cbn in E; clear - E; qlra).
    apply Qcmult_integral in X. apply Qcmult_integral in Y. apply pt_ext; [destruct X as [X|X]|destruct Y as [Y|Y]]; try (rewrite X in L0; discriminate L0); try (rewrite Y in L0; discriminate L0); [clear - X; qlra|clear - Y; qlra]. }
  destruct (approach p (toward p q l) (q :: cuts) Nq) as (m & (Om & Mp & _) & Nm & _). exists m.
  destruct Om as (t & T0 & T1 & X & Y). cbn [s_start s_end] in X, Y, Mp. split; [|split].
  - split; [|cbn [s_start s_end]; split; [exact Mp|intros ->; apply Nm; left; reflexivity]].
    exists (t * l). split; [apply mul_nonneg; [exact T0|qlra]|]. split.
    { assert (A : 0 <= (1 - t) * l) by (apply mul_nonneg; qlra). clear - A L1. qlra. }
    cbn [s_start s_end]. unfold toward in *. cbn [px py] in *. rewrite X, Y. split; ring.
  - intro K. apply Nm. right. exact K.
  - intros x Ox Os. destruct Ox as (u & U0 & U1 & X' & Y'). cbn [s_start s_end] in X', Y'. apply (L (u * (t * l))).
    + assert (0 <= t * l) by (apply mul_nonneg; [exact T0|qlra]). apply mul_nonneg; assumption.
    + assert (A : 0 <= t * l) by (apply mul_nonneg; [exact T0|qlra]). assert (B : 0 <= (1 - u) * (t * l)) by (apply mul_nonneg; [qlra|exact A]). assert (C : 0 <= (1 - t) * l) by (apply mul_nonneg; qlra). clear - A B C. qlra.
    + replace (toward p q (u * (t * l))) with x; [exact Os|]. apply pt_ext; unfold toward in *; cbn [px py] in *; [rewrite X', X|rewrite Y', Y]; ring.
Qed.
(** From a point of a segment along it. *)
Lemma near_in : forall es k p cuts, Forall proper es -> proper k -> on_segment p k -> ~ on_segments p es ->
  exists m, inside_segment m k /\ ~ In m cuts /\ forall x, on_segment x (Seg p m) -> ~ on_segments x es.
Proof.
  intros es k p cuts Pe Pk Op N. assert (Q : exists q, endpoint q k /\ p <> q).
  { destruct (pt_eq_dec p (s_start k)) as [->|J]; [exists (s_end k); split; [right; reflexivity|exact Pk]|exists (s_start k); split; [left; reflexivity|exact J]]. }
  destruct Q as (q & Eq_ & Npq). destruct (near_off es p q (s_start k :: s_end k :: cuts) Pe N Npq) as (m & (Om & _) & Nm & Off). exists m. split; [|split].
  - assert (Oq : on_segment q k) by (destruct Eq_ as [->| ->]; [apply on_segment_start|apply on_segment_end]).
    split; [exact (sub_on k p q m Op Oq Om)|]. split; intros E; apply Nm; [left|right; left]; symmetry; exact E.
  - intro K. apply Nm. right. right. exact K.
  - exact Off.
Qed.
Lemma closure : forall L k cuts, Forall proper L -> proper k -> (forall x, inside_segment x k -> ~ In x cuts -> on_segments x L) ->
  forall p, on_segment p k -> on_segments p L.
Proof.
  intros L k cuts PL Pk A p Op. destruct (on_segments_dec p L) as [O|O]; [exact O|exfalso].
  destruct (near_in L k p cuts PL Pk Op O) as (m & Im & Nm & Off). apply (Off m (on_segment_end (Seg p m))). exact (A m Im Nm).
Qed.
Lemma room_closure : forall c k, simple_contour (vertices c) -> proper k -> (forall x, inside_segment x k -> in_contour c x) ->
  forall p, on_segment p k -> in_contour c p.
Proof.
  intros c k Hc Pk A p Op. destruct (on_segments_dec p (ends c)) as [O|O]; [left; exact O|right].
  destruct (near_in (ends c) k p [] (simple_proper _ Hc) Pk Op O) as (m & Im & _ & Off).
  rewrite (inside_const (ends c) p m (simple_proper _ Hc) (contour_even _)).
  - destruct (A m Im) as [K|K]; [exfalso; exact (Off m (on_segment_end (Seg p m)) K)|exact K].
  - intros s Hs. left. intros x Ox Os. apply (Off x Ox). exists s. split; assumption.
Qed.

Section Rooms.
Variable rs : list contour.
Hypothesis V : valid_regions rs.
Notation E := (flat_map (fun c => ends c) rs).
Let Vs : forall c, In c rs -> simple_contour (vertices c) := proj1 (Forall_forall _ _) (proj1 V).
Lemma rooms_proper : Forall proper E.
Proof. exact (proj1 (proj2 (proj2 V))). Qed.
Lemma room_edges : forall c s, In c rs -> In s (ends c) -> In s E.
Proof. intros c s Hc Hs. apply in_flat_map. exists c. split; assumption. Qed.
Lemma contour_eq : forall c c' : contour, {c = c'} + {c <> c'}.
Proof. intros [a] [b]. destruct (list_eq_dec pt_eq_dec a b) as [->|N]; [left; reflexivity|right; congruence]. Qed.
Lemma rooms_apart : forall c c' p, In c rs -> In c' rs -> c <> c' -> inside_contour c p -> in_contour c' p -> False.
Proof.
  intros c c' p Hc Hc' N A B. destruct (In_nth_error _ _ Hc) as (i & Ei). destruct (In_nth_error _ _ Hc') as (j & Ej).
  refine (proj1 (proj2 V) i j c c' _ Ei Ej p (conj A B)). intros ->. congruence.
Qed.
Lemma rooms_nodup : NoDup rs.
Proof.
  apply NoDup_nth_error. intros i j Hi Eij. destruct (Nat.eq_dec i j) as [E|N]; [exact E|exfalso].
  destruct (nth_error rs i) as [c|] eqn:Ei; [|apply nth_error_Some in Hi; contradiction]. pose proof (nth_error_In _ _ Ei) as Hc. pose proof (Vs c Hc) as Sc.
  destruct (vertices c) as [|v vs] eqn:Ev; [destruct Sc as (Z & _); cbn in Z; lia|]. rewrite <- Ev in *.
  assert (Ov : on_segments v (ends c)) by (assert (Iv : In v (vertices c)) by (rewrite Ev; left; reflexivity); exact (vertex_edge c v Iv)).
  destruct (some_inside (vertices c) v Sc Ov) as (q & Nq & Iq). apply (proj1 (proj2 V) i j c c N Ei (eq_sym Eij) q). split; [split; assumption|right; exact Iq].
Qed.
Lemma rooms_overlap : forall c c' s t, In c rs -> In c' rs -> c <> c' -> In s (ends c) -> In t (ends c') -> ~ overlap s t.
Proof.
  intros c c' s t Hc Hc' N Hs Ht Ov.
  assert (W : forall l, pairwise (fun a b => ~ overlap a b) (flat_map (fun c => ends c) l) -> In c l -> In c' l -> False); [|exact (W rs (proj2 (proj2 (proj2 V))) Hc Hc')].
  assert (So : forall a b, overlap a b -> overlap b a) by (intros a b (p & q & X); exists p, q; tauto).
  assert (Cr : forall (a b : list segment) x y, pairwise (fun a b => ~ overlap a b) (a ++ b) -> In x a -> In y b -> ~ overlap x y).
  { clear. intros a b x y P Hx Hy. destruct (In_nth_error _ _ Hx) as (i & Ei). destruct (In_nth_error _ _ Hy) as (j & Ej).
    assert (Li : (i < length a)%nat) by (apply nth_error_Some; congruence).
    apply (P i (length a + j)%nat); [lia|rewrite nth_error_app1 by exact Li; exact Ei|rewrite nth_error_app2 by lia; replace (length a + j - length a)%nat with j by lia; exact Ej]. }
  assert (Tl : forall (a b : list segment), pairwise (fun a b => ~ overlap a b) (a ++ b) -> pairwise (fun a b => ~ overlap a b) b).
  { clear. intros a b P i j x y N Ei Ej. apply (P (length a + i)%nat (length a + j)%nat); [lia| |]; rewrite nth_error_app2 by lia; [replace (length a + i - length a)%nat with i by lia|replace (length a + j - length a)%nat with j by lia]; assumption. }
  intro l. induction l as [|x l IH]; intros P I J; [destruct I|]. cbn [flat_map] in P. destruct I as [->|I], J as [J|J].
  - exact (N J).
  - apply (Cr _ _ s t P Hs); [apply in_flat_map; exists c'; split; assumption|exact Ov].
  - subst x. apply (Cr _ _ t s P Ht); [apply in_flat_map; exists c; split; assumption|exact (So _ _ Ov)].
  - exact (IH (Tl _ _ P) I J).
Qed.
Lemma room_unique : forall c c' m, In c rs -> In c' rs -> lone E m -> in_contour c m -> in_contour c' m -> c = c'.
Proof.
  intros c c' m Hc Hc' Lm A B. destruct (contour_eq c c') as [Ec|N]; [exact Ec|exfalso].
  destruct (on_segments_dec m (ends c)) as [O|O].
  - destruct (on_segments_dec m (ends c')) as [O'|O'].
    + destruct O as (s & Hs & Os), O' as (t & Ht & Ot). apply (rooms_overlap c c' s t Hc Hc' N Hs Ht). apply Lm; [exact (room_edges c s Hc Hs)|exact (room_edges c' t Hc' Ht)|exact Os|exact Ot].
    + apply (rooms_apart c' c m Hc' Hc (not_eq_sym N)); [|exact A]. split; [exact O'|]. destruct B as [B|B]; [contradiction|exact B].
  - apply (rooms_apart c c' m Hc Hc' N); [|exact B]. split; [exact O|]. destruct A as [A|A]; [contradiction|exact A].
Qed.
Lemma above_in : forall c m, In c rs -> inside_above (ends c) m = true -> in_contour c m.
Proof.
  intros c m Hc A. destruct (on_segments_dec m (ends c)) as [O|O]; [left; exact O|right]. rewrite (Arranged.above_off _ _ (simple_proper _ (Vs c Hc)) O) in A. exact A.
Qed.
Lemma room_sides : forall c m, In c rs -> lone E m -> in_contour c m -> inside E m = inside (ends c) m /\ inside_above E m = inside_above (ends c) m.
Proof.
  intros c m Hc Lm A. destruct (in_split _ _ Hc) as (l1 & l2 & El).
  assert (Oth : forall c', In c' (l1 ++ l2) -> inside (ends c') m = false /\ inside_above (ends c') m = false).
  { intros c' H'. assert (Hc' : In c' rs) by (rewrite El; apply in_app_or in H'; apply in_or_app; cbn; tauto).
    assert (N : c <> c'). { intros <-. pose proof rooms_nodup as Nd. rewrite El in Nd. apply NoDup_remove_2 in Nd. exact (Nd H'). }
    split; apply not_true_iff_false; intro K; apply N; apply (room_unique c c' m Hc Hc' Lm A); [right; exact K|exact (above_in c' m Hc' K)]. }
  rewrite inside_flat, above_parity, parity_flat. rewrite El. rewrite !parity_app. cbn [parity]. split.
  - rewrite (parity_none _ l1), (parity_none _ l2); [rewrite xorb_false_r, xorb_false_l; reflexivity| |]; intros c' H'; apply Oth, in_or_app; auto.
  - rewrite (parity_none _ l1), (parity_none _ l2); [rewrite xorb_false_r, xorb_false_l, <- above_parity; reflexivity| |]; intros c' H'; rewrite <- above_parity; apply Oth, in_or_app; auto.
Qed.
Lemma some_room : forall m, inside E m = true \/ inside_above E m = true -> exists c, In c rs /\ in_contour c m.
Proof.
  assert (P : forall (f : contour -> bool), parity f rs = true -> exists c, In c rs /\ f c = true).
  { intros f H. destruct (existsb f rs) eqn:Ex; [apply existsb_exists in Ex; exact Ex|]. rewrite parity_none in H; [discriminate H|]. intros c Hc. apply not_true_iff_false. intro K.
    assert (X : existsb f rs = true) by (apply existsb_exists; exists c; split; assumption). congruence. }
  intros m [A|A].
  - rewrite inside_flat in A. destruct (P _ A) as (c & Hc & K). exists c. split; [exact Hc|right; exact K].
  - rewrite above_parity, parity_flat in A. destruct (P _ A) as (c & Hc & K). exists c. split; [exact Hc|]. rewrite <- above_parity in K. exact (above_in c m Hc K).
Qed.
End Rooms.
