(** Contours are determined by points of their edges, but for straight vertices,
    the first vertex and the direction.
    Proof support only, no part of /repo is modelled here. *)
From Coq Require Import Permutation.
From Verif Require Import QcTac Geom Spec SpecShape SpecSides SpecNest SpecTurn SpecReach GeomFacts EvenOdd Flip Toward Relation PairFacts Parity EvenStraight Outline Faces ShrinkThms RegionThms OrientThms Shapes Polygons Sides Unique Reach.

Lemma cross_swap : forall a b c, cross a b c = - cross c b a.
Proof. intros a b c. unfold cross. ring. Qed.
Lemma cross_line : forall p q a b, cross (lerp p q a) p (lerp p q b) = 0.
Proof. intros p q a b. unfold cross, lerp. cbn [px py]. ring. Qed.
Lemma lerp_inside : forall p q a b c, p <> q -> a < c -> c < b -> inside_segment (lerp p q c) (Seg (lerp p q a) (lerp p q b)).
Proof.
  intros p q a b c N A B. split; [apply lerp_on; split; qlra|]. cbn [s_start s_end].
  split; intro Z; apply lerp_inj in Z; try exact N; [rewrite Z in A; exact (Qclt_not_eq _ _ A eq_refl)|rewrite Z in B; exact (Qclt_not_eq _ _ B eq_refl)].
Qed.
Lemma inside_sym : forall a b m, inside_segment m (Seg a b) -> inside_segment m (Seg b a).
Proof. intros a b m (O & A & B). split; [apply on_segment_sym; exact O|]. cbn in *. split; assumption. Qed.
(** Parameters of endpoints are on different sides of a point inside. *)
Lemma inside_params : forall p q a b, p <> q -> inside_segment p (Seg (lerp p q a) (lerp p q b)) -> (a < 0 /\ 0 < b) \/ (b < 0 /\ 0 < a).
Proof.
  intros p q a b N (O & A & B). cbn [s_start s_end] in A, B. assert (Za : a <> 0) by (intros ->; apply A; symmetry; apply lerp_0). assert (Zb : b <> 0) by (intros ->; apply B; symmetry; apply lerp_0).
  rewrite <- (lerp_0 p q) in O at 1. apply on_lerp in O. destruct O as (w & W0 & W1 & E). rewrite lerp_lerp in E. apply lerp_inj in E; [|exact N].
  destruct (Qc_lt_total a 0) as [Ka|[Ka|Ka]]; [|contradiction|]; destruct (Qc_lt_total b 0) as [Kb|[Kb|Kb]]; try contradiction; auto; exfalso.
  - destruct (Qclt_le_dec w 1) as [J|J].
    + assert (X : 0 < (1 - w) * - a) by (apply mul_pos; qlra). assert (Y : 0 <= w * - b) by (apply mul_nonneg; qlra). assert (Z : (1 - w) * - a + w * - b = - (a + w * (b - a))) by ring. rewrite <- E in Z. clear - X Y Z. qlra.
    + assert (w = 1) as -> by (apply Qcle_antisym; assumption). clear - E Kb. qlra.
  - destruct (Qclt_le_dec w 1) as [J|J].
    + assert (X : 0 < (1 - w) * a) by (apply mul_pos; qlra). assert (Y : 0 <= w * b) by (apply mul_nonneg; qlra). assert (Z : (1 - w) * a + w * b = a + w * (b - a)) by ring. rewrite <- E in Z. clear - X Y Z. qlra.
    + assert (w = 1) as -> by (apply Qcle_antisym; assumption). clear - E Kb. qlra.
Qed.
Lemma same_edge : forall s t m q, q <> m -> inside_segment m s -> inside_segment m t -> on_segment q s -> on_segment q t ->
  (forall v, endpoint v t -> ~ inside_segment v s) -> (forall v, endpoint v s -> ~ inside_segment v t) -> t = s \/ t = reversed s.
Proof.
  intros (a, b) (c, d) m q N Ms Mt Qs Qt Ts St. apply not_eq_sym in N.
  destruct (on_line (Seg a b) m q a N (proj1 Ms) Qs (on_segment_start (Seg a b))) as (ta & Ea). destruct (on_line (Seg a b) m q b N (proj1 Ms) Qs (on_segment_end (Seg a b))) as (tb & Eb).
  destruct (on_line (Seg c d) m q c N (proj1 Mt) Qt (on_segment_start (Seg c d))) as (tc & Ec). destruct (on_line (Seg c d) m q d N (proj1 Mt) Qt (on_segment_end (Seg c d))) as (td & Ed).
  subst a b c d.
  assert (Key : forall a b c d, a < 0 -> 0 < b -> c < 0 -> 0 < d ->
    (forall v, v = lerp m q c \/ v = lerp m q d -> ~ inside_segment v (Seg (lerp m q a) (lerp m q b))) ->
    (forall v, v = lerp m q a \/ v = lerp m q b -> ~ inside_segment v (Seg (lerp m q c) (lerp m q d))) -> a = c /\ b = d).
  { intros a b c d A B C D T S. split.
    - destruct (Qc_lt_total a c) as [K|[K|K]]; [exfalso|exact K|exfalso].
      + apply (T (lerp m q c) (or_introl eq_refl)), lerp_inside; [exact N|exact K|clear - B C; qlra].
      + apply (S (lerp m q a) (or_introl eq_refl)), lerp_inside; [exact N|exact K|clear - A D; qlra].
    - destruct (Qc_lt_total b d) as [K|[K|K]]; [exfalso|exact K|exfalso].
      + apply (S (lerp m q b) (or_intror eq_refl)), lerp_inside; [exact N|clear - B C; qlra|exact K].
      + apply (T (lerp m q d) (or_intror eq_refl)), lerp_inside; [exact N|clear - A D; qlra|exact K]. }
  unfold endpoint in Ts, St. cbn [s_start s_end] in Ts, St.
  apply (inside_params m q) in Ms; [|exact N]. apply (inside_params m q) in Mt; [|exact N]. unfold reversed. cbn [s_start s_end].
  destruct Ms as [(A & B)|(B & A)], Mt as [(C & D)|(D & C)].
  - left. destruct (Key ta tb tc td A B C D Ts St) as (<- & <-). reflexivity.
  - right. destruct (Key ta tb td tc A B D C) as (<- & <-); [intros v [K|K]; apply Ts; auto|intros v K I; apply inside_sym in I; exact (St v K I)|]. reflexivity.
  - right. destruct (Key tb ta tc td B A C D) as (<- & <-); [intros v K I; apply inside_sym in I; exact (Ts v K I)|intros v [K|K]; apply St; auto|]. reflexivity.
  - left. destruct (Key tb ta td tc B A D C) as (<- & <-); [intros v [K|K] I; apply inside_sym in I; apply (Ts v); auto|intros v [K|K] I; apply inside_sym in I; apply (St v); auto|]. reflexivity.
Qed.

(** ** Two contours with the same points of edges *)
Notation same_points vs vs' := (forall p, on_segments p (contour_edges vs) <-> on_segments p (contour_edges vs')).
Notation angular vs := (forall j, lt j (length vs) -> ~ straight vs j).
(** Close to a point inside of an edge there are points of this edge only. *)
Lemma near_inside : forall vs s m u, simple_contour vs -> In s (contour_edges vs) -> inside_segment m s -> soon (fun t => on_segments (lerp m u t) (contour_edges vs) -> on_segment (lerp m u t) s).
Proof.
  intros vs s m u Hv Hs (O & A & B). pose proof (simple_proper vs Hv) as Pr. rewrite Forall_forall in Pr.
  assert (K : forall k, In k (contour_edges vs) -> soon (fun t => on_segment (lerp m u t) k -> on_segment (lerp m u t) s)).
  { intros k Hk. destruct (on_segment_dec m k) as [Ok|Ok].
    - destruct (segment_eq_dec k s) as [->|N]; [apply soon_true; auto|exfalso]. destruct (simple_meet vs Hv s k m Hs Hk (not_eq_sym N) O Ok) as ([E|E] & _); contradiction.
    - apply (soon_imp (fun t => ~ on_segment (lerp m u t) k)); [intros t _ X Y; contradiction|]. apply soon_off; [exact (Pr k Hk)|]. intro X. contradiction. }
  apply soon_all in K. revert K. apply soon_imp. intros t _ K (k & Hk & Ok). exact (K k Hk Ok).
Qed.
Section Corners.
Variables vs vs' : list point.
Hypothesis Hv : simple_contour vs.
Hypothesis Hv' : simple_contour vs'.
Hypothesis Sm : same_points vs vs'.
Hypothesis An' : angular vs'.
Lemma toward_on : forall vs s m u, simple_contour vs -> In s (contour_edges vs) -> inside_segment m s -> u <> m -> (forall x, on_segment x (Seg m u) -> on_segments x (contour_edges vs)) ->
  exists t, 0 < t /\ on_segment (lerp m u t) s /\ on_segment (lerp m u t) (Seg m u).
Proof.
  intros ws s m u W Hs I N K. destruct (near_inside ws s m u W Hs I) as (t & T0 & T1 & T). assert (On : on_segment (lerp m u t) (Seg m u)) by (apply on_lerp; exists t; split; [qlra|split; [qlra|reflexivity]]).
  exists t. split; [exact T0|]. split; [|exact On]. apply T; [exact T0|apply Qcle_refl|]. apply K, On.
Qed.
Lemma vertex_not_inside : forall s v, In s (contour_edges vs) -> In v vs' -> ~ inside_segment v s.
Proof.
  intros s v Hs Iv I. apply In_nth with (d := Pt 0 0) in Iv. destruct Iv as (i & Hi & E). change (nth i vs' (Pt 0 0)) with (vertex vs' i) in E.
  set (u := vertex vs' (before (length vs') i)). set (w := vertex vs' (after (length vs') i)).
  assert (I1 : In (Seg u v) (contour_edges vs')) by (apply (in_edge_at vs'); exists i; split; [exact Hi|unfold u; rewrite <- E; reflexivity]).
  assert (I2 : In (Seg v w) (contour_edges vs')).
  { apply (in_edge_at vs'). exists (after (length vs') i). split; [apply after_lt, Hi|]. unfold w. rewrite <- E. unfold edge_at, RegionThms.edge_at. rewrite before_after by exact Hi. reflexivity. }
  pose proof (simple_proper vs' Hv') as Pr. rewrite Forall_forall in Pr. pose proof (Pr _ I1) as P1. pose proof (Pr _ I2) as P2. unfold proper in P1, P2. cbn [s_start s_end] in P1, P2.
  destruct (toward_on vs s v u Hv Hs I P1) as (t & T0 & Ot & _); [intros x Hx; apply Sm; exists (Seg u v); split; [exact I1|apply on_segment_sym; exact Hx]|].
  destruct (toward_on vs s v w Hv Hs I (not_eq_sym P2)) as (r & R0 & Or & _); [intros x Hx; apply Sm; exists (Seg v w); split; [exact I2|exact Hx]|].
  apply (An' i Hi). unfold straight. fold u w. rewrite E.
  assert (N : v <> lerp v u t) by (intro Z; symmetry in Z; apply lerp_eq0 in Z; [rewrite Z in T0; discriminate T0|auto]).
  destruct (on_line s v (lerp v u t) (lerp v w r) N (proj1 I) Ot Or) as (z & Z).
  assert (X : t * r * cross u v w = cross (lerp v u t) v (lerp v w r)) by (unfold cross, lerp; cbn [px py]; ring).
  rewrite Z in X. assert (Y : cross (lerp v u t) v (lerp v (lerp v u t) z) = 0) by (unfold cross, lerp; cbn [px py]; ring). rewrite Y in X.
  apply Qcmult_integral in X. destruct X as [X|X]; [exfalso|exact X]. apply Qcmult_integral in X. destruct X as [X|X]; [rewrite X in T0; discriminate T0|rewrite X in R0; discriminate R0].
Qed.
Lemma endpoint_vertex : forall vs s v, In s (contour_edges vs) -> endpoint v s -> In v vs.
Proof.
  intros ws s v Hs E. apply in_edge_at in Hs. destruct Hs as (i & Hi & ->). destruct E as [->| ->]; unfold edge_at, RegionThms.edge_at; cbn [s_start s_end]; apply vertex_in; [apply before_lt|]; exact Hi.
Qed.
End Corners.
Section Same.
Variables vs vs' : list point.
Hypothesis Hv : simple_contour vs.
Hypothesis Hv' : simple_contour vs'.
Hypothesis Sm : same_points vs vs'.
Hypothesis An : angular vs.
Hypothesis An' : angular vs'.
Let Sm' : same_points vs' vs := fun p => iff_sym (Sm p).
Lemma vertex_same : forall v, In v vs -> In v vs'.
Proof.
  intros v Iv. assert (O : on_segments v (contour_edges vs)).
  { apply In_nth with (d := Pt 0 0) in Iv. destruct Iv as (i & Hi & E). exists (edge_at vs i). split; [apply (in_edge_at vs); exists i; split; [exact Hi|reflexivity]|]. rewrite <- E. apply (on_segment_end (edge_at vs i)). }
  apply Sm in O. destruct O as (s & Hs & O). destruct (pt_eq_dec v (s_start s)) as [E|E]; [apply (endpoint_vertex vs' s v Hs); left; exact E|].
  destruct (pt_eq_dec v (s_end s)) as [E'|E']; [apply (endpoint_vertex vs' s v Hs); right; exact E'|]. exfalso. exact (vertex_not_inside vs' vs Hv' Hv Sm' An s v Hs Iv (conj O (conj E E'))).
Qed.
Lemma edge_same : forall s, In s (contour_edges vs) -> In s (contour_edges vs') \/ In (reversed s) (contour_edges vs').
Proof.
  intros s Hs. pose proof (proj1 (Forall_forall _ _) (simple_proper vs Hv) s Hs) as Ps. destruct (midpoint_inside s Ps) as (m & M).
  destruct (proj1 (Sm m)) as (t & Ht & Ot); [exists s; split; [exact Hs|apply M]|].
  assert (Mt : inside_segment m t).
  { split; [exact Ot|]. split; intro E; apply (vertex_not_inside vs vs' Hv Hv' Sm An' s m Hs); try exact M; apply (endpoint_vertex vs' t m Ht); [left|right]; exact E. }
  assert (Nm : s_end s <> m) by (intro E; apply (proj2 (proj2 M)); auto).
  destruct (toward_on vs' t m (s_end s) Hv' Ht Mt Nm) as (r & R0 & Or & Or').
  { intros x Hx. apply Sm. exists s. split; [exact Hs|]. exact (on_convex s m (s_end s) x (proj1 M) (on_segment_end s) Hx). }
  assert (Nr : lerp m (s_end s) r <> m) by (intro Z; apply lerp_eq0 in Z; [rewrite Z in R0; discriminate R0|auto]).
  destruct (same_edge s t m (lerp m (s_end s) r) Nr M Mt (on_convex s m (s_end s) _ (proj1 M) (on_segment_end s) Or') Or) as [<-|<-].
  - intros v E. apply (vertex_not_inside vs vs' Hv Hv' Sm An' s v Hs). exact (endpoint_vertex vs' t v Ht E).
  - intros v E. apply (vertex_not_inside vs' vs Hv' Hv Sm' An t v Ht). exact (endpoint_vertex vs s v Hs E).
  - left. exact Ht.
  - right. exact Ht.
Qed.
End Same.
(** Ends of edges at a vertex are its neighbours. *)
Lemma neighbours : forall vs i y, simple_contour vs -> (i < length vs)%nat -> In (Seg (vertex vs i) y) (contour_edges vs) \/ In (Seg y (vertex vs i)) (contour_edges vs) ->
  y = vertex vs (before (length vs) i) \/ y = vertex vs (after (length vs) i).
Proof.
  intros vs i y Hv Hi [K|K]; apply in_contour_edges in K; destruct K as (j & Hj & E1 & E2); pose proof (proj1 (proj2 Hv)) as Nd.
  - right. apply vertex_inj in E1; [|exact Nd|exact Hi|apply before_lt; exact Hj]. rewrite E2, E1, after_before by exact Hj. reflexivity.
  - left. apply vertex_inj in E2; [|exact Nd|exact Hi|exact Hj]. rewrite E1, E2. reflexivity.
Qed.
Lemma starts_vertex : forall c, starts_least c -> forall q, In q (vertices c) -> q = vertex (vertices c) 0 \/ plt (vertex (vertices c) 0) q.
Proof. intros (vs) S q Hq. unfold starts_least in S. cbn [vertices] in *. destruct vs as [|v vs]; [destruct S|]. destruct Hq as [<-|Hq]; [left; reflexivity|right; exact (S q Hq)]. Qed.
Lemma first_turn : forall c, counterclockwise c -> starts_least c -> 0 < cross (vertex (vertices c) (length (vertices c) - 1)) (vertex (vertices c) 0) (vertex (vertices c) 1).
Proof.
  intros c (Hv & Cc) St. pose proof (proj1 Hv) as L. apply Cc.
  - apply in_contour_edges. exists 0%nat. split; [lia|]. split; reflexivity.
  - apply in_contour_edges. exists 1%nat. split; [lia|]. split; reflexivity.
  - intros e He. split; apply (starts_vertex c St), (endpoint_vertex _ e _ He); [left|right]; reflexivity.
Qed.
Theorem contour_unique : forall c c', counterclockwise c -> counterclockwise c' -> starts_least c -> starts_least c' -> angular (vertices c) -> angular (vertices c') ->
  same_points (vertices c) (vertices c') -> c = c'.
Proof.
  intros c c' Cc Cc' St St' An An' Sm. pose proof (proj1 Cc) as Hv. pose proof (proj1 Cc') as Hv'. pose proof (first_turn c Cc St) as T. pose proof (first_turn c' Cc' St') as T'.
  assert (Iv : forall v, In v (vertices c) <-> In v (vertices c')).
  { intro v. split; apply vertex_same; try assumption. intro p. symmetry. apply Sm. }
  assert (Ln : length (vertices c) = length (vertices c')).
  { apply Nat.le_antisymm; apply NoDup_incl_length; [apply Hv|intros v K; apply Iv, K|apply Hv'|intros v K; apply Iv, K]. }
  assert (E0 : vertex (vertices c) 0 = vertex (vertices c') 0).
  { assert (L : (0 < length (vertices c))%nat) by (pose proof (proj1 Hv); lia). assert (L' : (0 < length (vertices c'))%nat) by (rewrite <- Ln; exact L).
    destruct (starts_vertex c St (vertex (vertices c') 0)) as [E|E]; [apply Iv, vertex_in, L'|symmetry; exact E|].
    destruct (starts_vertex c' St' (vertex (vertices c) 0)) as [E'|E']; [apply Iv, vertex_in, L|exact E'|]. exfalso. exact (plt_irrefl _ (plt_trans _ _ _ E E')). }
  pose proof (edge_same _ _ Hv Hv' Sm An An') as Es. clear St St' Cc Cc' Iv.
  destruct c as (vs), c' as (vs'). cbn [vertices] in *. f_equal. assert (L3 : (3 <= length vs)%nat) by apply Hv.
  assert (Nb : forall i j, (j < length vs')%nat -> (i < length vs)%nat -> vertex vs i = vertex vs' j ->
    (vertex vs (after (length vs) i) = vertex vs' (before (length vs') j) \/ vertex vs (after (length vs) i) = vertex vs' (after (length vs') j))).
  { intros i j Hj Hi E. apply neighbours; [exact Hv'|exact Hj|]. rewrite <- E.
    apply (Es (Seg (vertex vs i) (vertex vs (after (length vs) i)))). apply in_contour_edges. exists (after (length vs) i). split; [apply after_lt, Hi|]. rewrite before_after by exact Hi. split; reflexivity. }
  assert (A0 : after (length vs) 0 = 1%nat) by (unfold after; destruct (Nat.eqb_spec 1 (length vs)); [lia|reflexivity]).
  assert (E1 : vertex vs 1 = vertex vs' 1).
  { destruct (Nb 0%nat 0%nat) as [K|K]; [lia|lia|exact E0| |rewrite <- Ln, !A0 in K; exact K].
    rewrite A0 in K. cbn [before] in K. exfalso.
    assert (E : vertex vs (length vs - 1) = vertex vs' 1).
    { destruct (neighbours vs' 0%nat (vertex vs (length vs - 1)) Hv' ltac:(lia)) as [J|J].
      - rewrite <- E0. destruct (Es (Seg (vertex vs (length vs - 1)) (vertex vs 0))) as [X|X]; [apply in_contour_edges; exists 0%nat; split; [lia|split; reflexivity]|right; exact X|left; exact X].
      - cbn [before] in J. rewrite <- K in J. apply vertex_inj in J; [lia|apply Hv|lia|lia].
      - rewrite <- Ln, A0 in J. exact J. }
    rewrite cross_swap, E, K, E0 in T. clear - T T'. qlra. }
  assert (All : forall i, (S i < length vs)%nat -> vertex vs i = vertex vs' i /\ vertex vs (S i) = vertex vs' (S i)).
  { induction i as [|i IH]; intro Hi; [split; assumption|]. destruct (IH ltac:(lia)) as (Ea & Eb). split; [exact Eb|].
    assert (Af : after (length vs) (S i) = S (S i)) by (unfold after; destruct (Nat.eqb_spec (S (S i)) (length vs)); [lia|reflexivity]).
    destruct (Nb (S i) (S i)) as [K|K]; [lia|lia|exact Eb| |rewrite <- Ln, !Af in K; exact K].
    rewrite Af in K. cbn [before] in K. rewrite <- Ea in K. apply vertex_inj in K; [lia|apply Hv|lia|lia]. }
  apply (nth_ext vs vs' (Pt 0 0) (Pt 0 0) Ln). intros i Hi. destruct i as [|i]; [exact E0|]. exact (proj2 (All i Hi)).
Qed.
