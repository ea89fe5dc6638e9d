(** Points on edges of operands belong to results exactly when they are reached
    from inside.  Proof support only, no part of /repo is modelled here. *)
From Coq Require Import Permutation.
From Verif Require Import QcTac Geom Spec SpecShape SpecSides SpecNest SpecReach GeomFacts EvenOdd Flip Toward Relation PairFacts Parity EvenStraight Outline Faces Shapes Polygons Sides Unique.

(** ** What holds for small numbers *)
Definition soon (P : Qc -> Prop) : Prop := exists t0, 0 < t0 /\ t0 < 1 /\ forall t, 0 < t -> t <= t0 -> P t.
Lemma soon_and : forall P Q, soon P -> soon Q -> soon (fun t => P t /\ Q t).
Proof.
  intros P Q (a & A0 & A1 & A) (b & B0 & B1 & B). destruct (Qclt_le_dec a b) as [K|K].
  - exists a. split; [exact A0|]. split; [exact A1|]. intros t T0 T1. split; [apply A; assumption|apply B; [exact T0|qlra]].
  - exists b. split; [exact B0|]. split; [exact B1|]. intros t T0 T1. split; [apply A; [exact T0|qlra]|apply B; assumption].
Qed.
Lemma soon_imp : forall P Q : Qc -> Prop, (forall t, 0 < t -> P t -> Q t) -> soon P -> soon Q.
Proof. intros P Q K (a & A0 & A1 & A). exists a. split; [exact A0|]. split; [exact A1|]. intros t T0 T1. apply K; [exact T0|]. apply A; assumption. Qed.
Lemma soon_true : forall P : Qc -> Prop, (forall t, 0 < t -> P t) -> soon P.
Proof. intros P K. exists (/ (1 + 1)). split; [reflexivity|]. split; [reflexivity|]. intros t T0 _. exact (K t T0). Qed.
Lemma soon_all : forall (A : Type) (P : A -> Qc -> Prop) l, (forall a, In a l -> soon (P a)) -> soon (fun t => forall a, In a l -> P a t).
Proof.
  intros A P l. induction l as [|a l IH]; intro K; [apply soon_true; intros t _ b []|].
  apply (soon_imp (fun t => P a t /\ forall b, In b l -> P b t)); [intros t _ (X & Y) b [<-|Hb]; [exact X|exact (Y b Hb)]|].
  apply soon_and; [apply K; left; reflexivity|apply IH; intros b Hb; apply K; right; exact Hb].
Qed.
Lemma soon_pos : forall c d, 0 < c -> soon (fun t => 0 < c + t * d).
Proof.
  intros c d C. destruct (Qclt_le_dec d 0) as [K|K].
  - assert (N : 0 < c - d) by qlra. exists (c / (1 + 1) / (c - d)).
    assert (E : c / (1 + 1) / (c - d) * (c - d) = c / (1 + 1)) by (assert (Nz : c - d <> 0) by (intro Z; rewrite Z in N; discriminate N); field; split; [discriminate|exact Nz]).
    assert (H2 : c / (1 + 1) + c / (1 + 1) = c) by (field; discriminate).
    set (h := c / (1 + 1)) in *. set (t0 := h / (c - d)) in *. clearbody h t0.
    assert (T0 : 0 < t0).
    { destruct (Qclt_le_dec 0 t0) as [J|J]; [exact J|exfalso]. assert (Z : 0 <= - t0 * (c - d)) by (apply mul_nonneg; qlra). replace (- t0 * (c - d)) with (- (t0 * (c - d))) in Z by ring. rewrite E in Z. clear - Z H2 C. qlra. }
    split; [exact T0|]. split.
    + destruct (Qclt_le_dec t0 1) as [J|J]; [exact J|exfalso]. assert (Z : 0 <= (t0 - 1) * (c - d)) by (apply mul_nonneg; qlra). replace ((t0 - 1) * (c - d)) with (t0 * (c - d) - (c - d)) in Z by ring. rewrite E in Z. clear - Z H2 C K. qlra.
    + intros t P L. assert (Z : 0 <= (t0 - t) * - d) by (apply mul_nonneg; qlra). assert (W : 0 < t0 * c) by (apply mul_pos; assumption).
      replace (t0 * (c - d)) with (t0 * c + t0 * - d) in E by ring. replace ((t0 - t) * - d) with (t0 * - d + t * d) in Z by ring. clear - Z W E H2 C. qlra.
  - apply soon_true. intros t P. assert (Z : 0 <= t * d) by (apply mul_nonneg; [qlra|exact K]). qlra.
Qed.

(** ** Lines *)
Definition aff (f : Qc * Qc * Qc) (x : point) : Qc := let '(a, b, c) := f in a * px x + b * py x + c.
Lemma aff_lerp : forall f p q t, aff f (lerp p q t) = aff f p + t * (aff f q - aff f p).
Proof. intros ((a, b), c) p q t. cbn. ring. Qed.
Lemma aff_between : forall f p q x, 0 < aff f p -> 0 < aff f q -> on_segment x (Seg p q) -> 0 < aff f x.
Proof.
  intros f p q x P Q O. apply on_lerp in O. destruct O as (t & T0 & T1 & ->). rewrite aff_lerp. set (u := aff f p) in *. set (v := aff f q) in *. clearbody u v.
  destruct (Qclt_le_dec t 1) as [K|K].
  - assert (A : 0 < (1 - t) * u) by (apply mul_pos; [qlra|exact P]). assert (B : 0 <= t * v) by (apply mul_nonneg; [exact T0|qlra]). replace (u + t * (v - u)) with ((1 - t) * u + t * v) by ring. clear - A B. qlra.
  - assert (t = 1) as -> by (apply Qcle_antisym; assumption). replace (u + 1 * (v - u)) with v by ring. exact Q.
Qed.
Definition line_of (s : segment) : Qc * Qc * Qc :=
  (- (py (s_end s) - py (s_start s)), px (s_end s) - px (s_start s), (py (s_end s) - py (s_start s)) * px (s_start s) - (px (s_end s) - px (s_start s)) * py (s_start s)).
Lemma aff_line : forall s x, aff (line_of s) x = cross (s_start s) (s_end s) x.
Proof. intros s x. unfold aff, line_of, cross. ring. Qed.
Definition opposite (f : Qc * Qc * Qc) : Qc * Qc * Qc := let '(a, b, c) := f in (- a, - b, - c).
Lemma aff_opposite : forall f x, aff (opposite f) x = - aff f x.
Proof. intros ((a, b), c) x. cbn. ring. Qed.
Lemma on_cross : forall x s, on_segment x s -> cross (s_start s) (s_end s) x = 0.
Proof. intros x s (t & _ & _ & X & Y). unfold cross. rewrite X, Y. ring. Qed.
(** A point off a segment is separated from it. *)
Lemma separated : forall p s, proper s -> ~ on_segment p s -> exists f, 0 < aff f p /\ forall x, on_segment x s -> aff f x <= 0.
Proof.
  intros p s Ps Off. destruct (Qc_lt_total (cross (s_start s) (s_end s) p) 0) as [K|[K|K]].
  - exists (opposite (line_of s)). rewrite aff_opposite, aff_line. split; [qlra|]. intros x Hx. rewrite aff_opposite, aff_line, (on_cross x s Hx). qlra.
  - destruct s as [a b]. cbn [s_start s_end] in K. unfold proper in Ps. cbn [s_start s_end] in Ps.
    set (dx := px b - px a). set (dy := py b - py a). set (D := (dx, dy, - (dx * px a + dy * py a))).
    assert (Ed : forall x, aff D x = dx * (px x - px a) + dy * (py x - py a)) by (intro x; unfold aff, D; ring).
    assert (L : 0 < dx * dx + dy * dy).
    { destruct (Qc_lt_total dx 0) as [J|[J|J]]; [|destruct (Qc_lt_total dy 0) as [I|[I|I]]|].
      - clear - J. assert (0 < dx * dx) by (replace (dx * dx) with (- dx * - dx) by ring; apply mul_pos; qlra). qnra.
      - rewrite J. replace (0 * 0 + dy * dy) with (- dy * - dy) by ring. apply mul_pos; qlra.
      - exfalso. apply Ps. apply pt_ext; [unfold dx in J; qlra|unfold dy in I; qlra].
      - rewrite J. replace (0 * 0 + dy * dy) with (dy * dy) by ring. apply mul_pos; qlra.
      - clear - J. assert (0 < dx * dx) by (apply mul_pos; qlra). qnra. }
    assert (On : forall x, on_segment x (Seg a b) -> 0 <= aff D x /\ aff D x <= dx * dx + dy * dy).
    { intros x (t & T0 & T1 & X & Y). cbn [s_start s_end] in X, Y. rewrite Ed.
      assert (E : dx * (px x - px a) + dy * (py x - py a) = t * (dx * dx + dy * dy)) by (rewrite X, Y; unfold dx, dy; ring). rewrite E.
      set (l := dx * dx + dy * dy) in *. clearbody l. assert (0 <= t * l) by (apply mul_nonneg; [exact T0|qlra]). assert (0 <= (1 - t) * l) by (apply mul_nonneg; qlra). replace ((1 - t) * l) with (l - t * l) in H0 by ring. split; qlra. }
    set (l := dx * dx + dy * dy) in *.
    destruct (Qclt_le_dec (aff D p) 0) as [J|J]; [|destruct (Qclt_le_dec l (aff D p)) as [I|I]].
    + exists (opposite D). rewrite aff_opposite. split; [qlra|]. intros x Hx. rewrite aff_opposite. destruct (On x Hx). qlra.
    + exists (dx, dy, - (dx * px a + dy * py a) - l). assert (Es : forall x, aff (dx, dy, - (dx * px a + dy * py a) - l) x = aff D x - l) by (intro x; unfold aff, D; ring).
      rewrite Es. split; [qlra|]. intros x Hx. rewrite Es. destruct (On x Hx). qlra.
    + exfalso. apply Off. assert (Nl : l <> 0) by (intro Z; rewrite Z in L; discriminate L).
      exists (aff D p / l). assert (E : aff D p / l * l = aff D p) by (field; exact Nl). set (t := aff D p / l) in *. clearbody t.
      assert (Cr : dx * (py p - py a) = dy * (px p - px a)) by (unfold cross in K; unfold dx, dy; clear - K; qlra).
      split; [|split; [|split]]; cbn [s_start s_end].
      * destruct (Qclt_le_dec t 0) as [Z|Z]; [|exact Z]. exfalso. assert (W : 0 < - t * l) by (apply mul_pos; [qlra|exact L]). replace (- t * l) with (- (t * l)) in W by ring. rewrite E in W. clear - W J. qlra.
      * destruct (Qclt_le_dec 1 t) as [Z|Z]; [|exact Z]. exfalso. assert (W : 0 < (t - 1) * l) by (apply mul_pos; [qlra|exact L]). replace ((t - 1) * l) with (t * l - l) in W by ring. rewrite E in W. clear - W I. qlra.
      * assert (W : l * (px p - px a - t * dx) = 0).
        { replace (l * (px p - px a - t * dx)) with (l * (px p - px a) - t * l * dx) by ring. rewrite E, Ed. unfold l. replace ((dx * dx + dy * dy) * (px p - px a) - (dx * (px p - px a) + dy * (py p - py a)) * dx) with (dy * (dy * (px p - px a) - dx * (py p - py a))) by ring. rewrite Cr. ring. }
        apply Qcmult_integral in W. destruct W as [W|W]; [contradiction|]. fold dx. clear - W. qlra.
      * assert (W : l * (py p - py a - t * dy) = 0).
        { replace (l * (py p - py a - t * dy)) with (l * (py p - py a) - t * l * dy) by ring. rewrite E, Ed. unfold l. replace ((dx * dx + dy * dy) * (py p - py a) - (dx * (px p - px a) + dy * (py p - py a)) * dy) with (dx * (dx * (py p - py a) - dy * (px p - px a))) by ring. rewrite Cr. ring. }
        apply Qcmult_integral in W. destruct W as [W|W]; [contradiction|]. fold dy. clear - W. qlra.
  - exists (line_of s). rewrite aff_line. split; [exact K|]. intros x Hx. rewrite aff_line, (on_cross x s Hx). qlra.
Qed.

(** ** Close to a point *)
Definition across (s : segment) (p q : point) : Prop := on_segment p s -> exists f, (forall x, on_segment x s -> aff f x = 0) /\ aff f q <> 0.
Lemma soon_off : forall p q s, proper s -> across s p q -> soon (fun t => ~ on_segment (lerp p q t) s).
Proof.
  intros p q s Ps Ac. destruct (on_segment_dec p s) as [O|O].
  - apply soon_true. intros t T K. destruct (Ac O) as (f & F & N). apply N. apply F in K. apply F in O. rewrite aff_lerp, O in K.
    assert (Z : t * aff f q = 0) by (rewrite <- K; ring). apply Qcmult_integral in Z. destruct Z as [Z|Z]; [|exact Z]. exfalso. rewrite Z in T. discriminate T.
  - destruct (separated p s Ps O) as (f & F & G). apply (soon_imp (fun t => 0 < aff f p + t * (aff f q - aff f p))); [|exact (soon_pos _ _ F)].
    intros t _ P K. apply G in K. rewrite aff_lerp in K. exact (Qcle_not_lt _ _ K P).
Qed.
Lemma soon_off_all : forall p q es, Forall proper es -> (forall s, In s es -> across s p q) -> soon (fun t => ~ on_segments (lerp p q t) es).
Proof.
  intros p q es Pr Ac. apply (soon_imp (fun t => forall s, In s es -> ~ on_segment (lerp p q t) s)); [intros t _ K (s & Hs & O); exact (K s Hs O)|].
  apply soon_all. intros s Hs. apply soon_off; [exact (proj1 (Forall_forall _ _) Pr s Hs)|exact (Ac s Hs)].
Qed.
Lemma above_all : forall l : list Qc, exists k, forall v, In v l -> v < k.
Proof.
  induction l as [|a l (k & K)]; [exists 0; intros v []|]. destruct (Qclt_le_dec a k) as [J|J].
  - exists k. intros v [<-|Hv]; [exact J|exact (K v Hv)].
  - exists (a + 1). intros v [<-|Hv]; [qlra|]. pose proof (K v Hv). qlra.
Qed.
Lemma some_direction : forall p es, Forall proper es -> exists q, q <> p /\ forall s, In s es -> across s p q.
Proof.
  intros p es Pr. destruct (above_all (map (fun s => (py (s_end s) - py (s_start s)) / (px (s_end s) - px (s_start s))) es)) as (k & K).
  exists (Pt (px p + 1) (py p + k)). split.
  - intro E. apply (f_equal px) in E. cbn in E. clear - E. qlra.
  - intros s Hs O. exists (line_of s). split; [intros x Hx; rewrite aff_line; exact (on_cross x s Hx)|]. rewrite aff_line. intro Z. apply on_cross in O. pose proof (proj1 (Forall_forall _ _) Pr s Hs) as Ps. specialize (K _ (in_map _ _ _ Hs)). cbn beta in K.
    destruct s as [a b]. unfold proper in Ps. cbn [s_start s_end] in *. unfold cross in O, Z. cbn [px py] in Z.
    assert (E : (px b - px a) * k - (py b - py a) = 0) by (clear - O Z; rewrite <- O in Z; qlra).
    destruct (Qc_eq_dec (px b - px a) 0) as [N|N].
    + rewrite N in E. apply Ps. apply pt_ext; [clear - N; qlra|]. clear - E. assert (Q : 0 * k = 0) by ring. rewrite Q in E. qlra.
    + assert (F : (py b - py a) / (px b - px a) = k) by (assert (G : py b - py a = (px b - px a) * k) by (clear - E; qlra); rewrite G; field; exact N). rewrite F in K. exact (Qclt_not_eq _ _ K eq_refl).
Qed.

(** ** Close to an edge *)
Definition beside (p u : point) (h : Qc) : point := Pt (px u - h * (py u - py p)) (py u + h * (px u - px p)).
Definition tilt (f : Qc * Qc * Qc) (p u : point) : Qc := let '(a, b, _) := f in b * (px u - px p) - a * (py u - py p).
Lemma aff_beside : forall f p u h, aff f (beside p u h) = aff f u + h * tilt f p u.
Proof. intros ((a, b), c) p u h. cbn. ring. Qed.
Lemma tilt_opposite : forall f p u, tilt (opposite f) p u = - tilt f p u.
Proof. intros ((a, b), c) p u. cbn. ring. Qed.
Lemma tilt_along : forall s p u, proper s -> p <> u -> aff (line_of s) p = 0 -> aff (line_of s) u = 0 -> tilt (line_of s) p u <> 0.
Proof.
  intros [a b] p u Ps N P U Z. unfold proper in Ps. unfold aff, line_of, tilt in *. cbn [s_start s_end] in *.
  set (dx := px b - px a) in *. set (dy := py b - py a) in *. set (x := px u - px p) in *. set (y := py u - py p) in *.
  assert (C : dx * y = dy * x) by (unfold x, y; clear - P U; qlra).
  assert (D : dx * x + dy * y = 0) by (clear - Z; qlra).
  assert (E1 : (dx * dx + dy * dy) * x = 0) by (replace ((dx * dx + dy * dy) * x) with (dx * (dx * x + dy * y) - dy * (dx * y - dy * x)) by ring; rewrite D, C; ring).
  assert (E2 : (dx * dx + dy * dy) * y = 0) by (replace ((dx * dx + dy * dy) * y) with (dy * (dx * x + dy * y) + dx * (dx * y - dy * x)) by ring; rewrite D, C; ring).
  assert (F : dx * dx + dy * dy <> 0).
  { intro F. apply Ps. assert (Sq : forall v : Qc, 0 <= v * v).
    { intro v. destruct (Qclt_le_dec v 0) as [J|J]; [replace (v * v) with (- v * - v) by ring; apply mul_nonneg; qlra|apply mul_nonneg; exact J]. }
    pose proof (Sq dx) as S1. pose proof (Sq dy) as S2. assert (X : dx * dx = 0) by (clear - F S1 S2; qlra). assert (Y : dy * dy = 0) by (clear - F S1 S2; qlra).
    apply Qcmult_integral in X, Y. assert (dx = 0) by (destruct X; assumption). assert (dy = 0) by (destruct Y; assumption). apply pt_ext; [unfold dx in *; clear - H; qlra|unfold dy in *; clear - H0; qlra]. }
  apply Qcmult_integral in E1, E2. destruct E1 as [E1|E1]; [contradiction|]. destruct E2 as [E2|E2]; [contradiction|]. apply N. apply pt_ext; [unfold x in E1; clear - E1; qlra|unfold y in E2; clear - E2; qlra].
Qed.
(** Segments through [p] either go along [u] or leave points beside [u] on one side. *)
Lemma narrow : forall p u es, Forall proper es -> p <> u -> exists h, 0 < h /\ forall k, In k es -> on_segment p k ->
  (aff (line_of k) u = 0 /\ tilt (line_of k) p u <> 0)
  \/ exists f, aff f p = 0 /\ (forall x, on_segment x k -> aff f x = 0) /\ 0 < aff f (beside p u h) /\ 0 < aff f (beside p u (- h)).
Proof.
  intros p u es Pr N.
  assert (S : soon (fun h => forall k, In k es -> on_segment p k -> (aff (line_of k) u = 0 /\ tilt (line_of k) p u <> 0)
    \/ exists f, aff f p = 0 /\ (forall x, on_segment x k -> aff f x = 0) /\ 0 < aff f (beside p u h) /\ 0 < aff f (beside p u (- h)))).
  { apply soon_all. intros k Hk. pose proof (proj1 (Forall_forall _ _) Pr k Hk) as Pk.
    assert (G : forall f, (forall x, on_segment x k -> aff f x = 0) -> 0 < aff f u -> soon (fun h => on_segment p k -> (aff (line_of k) u = 0 /\ tilt (line_of k) p u <> 0)
      \/ exists f, aff f p = 0 /\ (forall x, on_segment x k -> aff f x = 0) /\ 0 < aff f (beside p u h) /\ 0 < aff f (beside p u (- h)))).
    { intros f F U. apply (soon_imp (fun h => 0 < aff f u + h * tilt f p u /\ 0 < aff f u + h * - tilt f p u)); [|apply soon_and; apply soon_pos; exact U].
      intros h _ (A & B) O. right. exists f. split; [exact (F p O)|]. split; [exact F|]. rewrite !aff_beside. split; [exact A|]. replace (- h * tilt f p u) with (h * - tilt f p u) by ring. exact B. }
    assert (L : forall x, on_segment x k -> aff (line_of k) x = 0) by (intros x Hx; rewrite aff_line; exact (on_cross x k Hx)).
    destruct (Qc_lt_total (aff (line_of k) u) 0) as [K|[K|K]].
    - apply (G (opposite (line_of k))); [intros x Hx; rewrite aff_opposite, (L x Hx); ring|rewrite aff_opposite; qlra].
    - apply soon_true. intros h _ O. left. split; [exact K|]. exact (tilt_along k p u Pk N (L p O) K).
    - exact (G (line_of k) L K). }
  destruct S as (h & H0 & _ & H). exists h. split; [exact H0|]. exact (H h H0 (Qcle_refl h)).
Qed.
Definition narrow_for (p u : point) (h : Qc) (k : segment) : Prop := on_segment p k ->
  (aff (line_of k) u = 0 /\ tilt (line_of k) p u <> 0)
  \/ exists f, aff f p = 0 /\ (forall x, on_segment x k -> aff f x = 0) /\ 0 < aff f (beside p u h) /\ 0 < aff f (beside p u (- h)).
Lemma narrow_across : forall p u h k, 0 < h -> narrow_for p u h k -> across k p (beside p u h) /\ across k p (beside p u (- h)).
Proof.
  intros p u h k H K. assert (N0 : forall v : Qc, 0 < v -> v <> 0) by (intros v V E; rewrite E in V; discriminate V).
  assert (G : on_segment p k -> exists f, (forall x, on_segment x k -> aff f x = 0) /\ aff f (beside p u h) <> 0 /\ aff f (beside p u (- h)) <> 0).
  { intro O. destruct (K O) as [(U & T)|(f & _ & F & A & B)].
    - exists (line_of k). split; [intros x Hx; rewrite aff_line; exact (on_cross x k Hx)|]. rewrite !aff_beside, U. set (v := tilt (line_of k) p u) in *. clearbody v.
      split; intro Z; assert (W : h * v = 0) by (clear - Z; qlra); apply Qcmult_integral in W; destruct W as [W|W]; [exact (N0 h H W)|exact (T W)|exact (N0 h H W)|exact (T W)].
    - exists f. split; [exact F|]. split; apply N0; assumption. }
  split; intro O; destruct (G O) as (f & F & A & B); exists f; split; assumption.
Qed.
(** The segment between the points beside [u] moved close to [p]. *)
Lemma soon_between : forall p u h k, 0 < h -> proper k -> p <> u -> narrow_for p u h k ->
  soon (fun t => forall x, on_segment x (Seg (lerp p (beside p u h) t) (lerp p (beside p u (- h)) t)) -> on_segment x k -> on_segment p k /\ x = lerp p u t).
Proof.
  intros p u h k H Pk N K. destruct (on_segment_dec p k) as [O|O].
  - apply soon_true. intros t T x Hx Ok. split; [exact O|]. destruct (K O) as [(U & W)|(f & P & F & A & B)].
    + apply on_lerp in Hx. destruct Hx as (v & V0 & V1 & ->). assert (L : aff (line_of k) p = 0) by (rewrite aff_line; exact (on_cross p k O)).
      apply on_cross in Ok. rewrite <- aff_line in Ok. rewrite aff_lerp, !aff_lerp, !aff_beside, L, U in Ok. set (w := tilt (line_of k) p u) in *.
      assert (Z : t * h * w * (1 - (v + v)) = 0) by (rewrite <- Ok; ring). clearbody w.
      apply Qcmult_integral in Z. destruct Z as [Z|Z]; [apply Qcmult_integral in Z; destruct Z as [Z|Z]; [apply Qcmult_integral in Z; destruct Z as [Z|Z]; [rewrite Z in T; discriminate T|rewrite Z in H; discriminate H]|contradiction]|].
      unfold lerp, beside. cbn [px py]. assert (V : v + v = 1) by (clear - Z; qlra).
      apply pt_ext; cbn [px py]; [transitivity (px p + t * (px u - px p) - t * h * (py u - py p) * (1 - (v + v)))|transitivity (py p + t * (py u - py p) + t * h * (px u - px p) * (1 - (v + v)))]; try ring; rewrite V; ring.
    + exfalso. apply F in Ok. assert (M : forall q, 0 < aff f q -> 0 < aff f (lerp p q t)) by (intros q Q; rewrite aff_lerp, P; replace (0 + t * (aff f q - 0)) with (t * aff f q) by ring; apply mul_pos; assumption).
      pose proof (aff_between f _ _ x (M _ A) (M _ B) Hx) as Z. rewrite Ok in Z. discriminate Z.
  - destruct (separated p k Pk O) as (f & F & G).
    apply (soon_imp (fun t => 0 < aff f p + t * (aff f (beside p u h) - aff f p) /\ 0 < aff f p + t * (aff f (beside p u (- h)) - aff f p))); [|apply soon_and; apply soon_pos; exact F].
    intros t _ (A & B) x Hx Ok. exfalso. rewrite <- aff_lerp in A, B. pose proof (aff_between f _ _ x A B Hx) as Z. apply G in Ok. exact (Qcle_not_lt _ _ Ok Z).
Qed.

(** ** Regions *)
Section Closed.
Variables (G E : list segment) (R : point -> Prop).
Hypothesis HG : non_overlapping G.
Hypothesis Ev : even_occurrences (endpoints_of G).
Hypothesis HE : Forall proper E.
Hypothesis Sub : forall p, on_segments p G -> on_segments p E.
Hypothesis HR : forall p, ~ on_segments p E -> (inside G p = true <-> R p).
Notation Q := (fun p => ~ on_segments p E /\ R p).
Lemma same_side : forall p q, (forall x, on_segment x (Seg p q) -> ~ on_segments x G) -> inside G p = inside G q.
Proof. intros p q K. apply inside_const; [exact (proj1 HG)|exact Ev|]. intros s Hs. left. intros x Hx O. apply (K x Hx). exists s. auto. Qed.
Lemma reached_in : forall p, reached Q p -> in_region G p.
Proof.
  intros p (q & N & K). destruct (on_segments_dec p G) as [O|O]; [left; exact O|right].
  destruct (soon_off_all p q G (proj1 HG)) as (t & T0 & T1 & T).
  { intros s Hs Op. exfalso. apply O. exists s. auto. }
  assert (M : Q (lerp p q t)).
  { apply K; [apply on_lerp; exists t; split; [qlra|split; [qlra|reflexivity]]|]. intro Z. apply lerp_eq0 in Z; [rewrite Z in T0; discriminate T0|auto]. }
  rewrite (same_side p (lerp p q t)); [apply HR; apply M|].
  intros x Hx. replace p with (lerp p q 0) in Hx at 1 by apply lerp_0. apply on_lerp in Hx. destruct Hx as (v & V0 & V1 & ->). rewrite lerp_lerp.
  destruct (Qclt_le_dec 0 (0 + v * (t - 0))) as [J|J].
  - apply T; [exact J|]. assert (0 <= (1 - v) * t) by (apply mul_nonneg; qlra). replace ((1 - v) * t) with (t - v * t) in H by ring. replace (0 + v * (t - 0)) with (v * t) by ring. qlra.
  - assert (Z : 0 + v * (t - 0) = 0). { apply Qcle_antisym; [exact J|]. replace (0 + v * (t - 0)) with (v * t) by ring. apply mul_nonneg; qlra. } rewrite Z, lerp_0. exact O.
Qed.
Lemma reached_by : forall p q t, q <> p -> 0 < t -> t < 1 -> (forall u, 0 < u -> u <= t -> ~ on_segments (lerp p q u) E) -> inside G (lerp p q t) = true -> reached Q p.
Proof.
  intros p q t N T0 T1 Off I. exists (lerp p q t). split; [intro Z; apply lerp_eq0 in Z; [rewrite Z in T0; discriminate T0|auto]|].
  intros x Hx Nx. replace p with (lerp p q 0) in Hx at 1 by apply lerp_0. apply on_lerp in Hx. destruct Hx as (v & V0 & V1 & ->). rewrite lerp_lerp in *. replace (0 + v * (t - 0)) with (v * t) in * by ring.
  assert (U0 : 0 < v * t).
  { apply mul_pos; [|exact T0]. destruct (Qclt_le_dec 0 v) as [J|J]; [exact J|exfalso]. apply Nx. assert (v = 0) as -> by (apply Qcle_antisym; assumption). replace (0 * t) with 0 by ring. apply lerp_0. }
  assert (U1 : v * t <= t). { assert (Z : 0 <= (1 - v) * t) by (apply mul_nonneg; qlra). replace ((1 - v) * t) with (t - v * t) in Z by ring. qlra. }
  set (w := v * t) in *. clearbody w. split; [apply Off; assumption|]. apply HR; [apply Off; assumption|]. rewrite <- I. apply same_side.
  intros x Hx Og. apply Sub in Og. apply on_lerp in Hx. destruct Hx as (z & Z0 & Z1 & ->). rewrite lerp_lerp in Og. apply (Off (w + z * (t - w))); [| |exact Og].
  - assert (0 <= z * (t - w)) by (apply mul_nonneg; qlra). qlra.
  - assert (W : 0 <= (1 - z) * (t - w)) by (apply mul_nonneg; qlra). replace ((1 - z) * (t - w)) with (t - (w + z * (t - w))) in W by ring. qlra.
Qed.
Lemma in_reached_off : forall p, ~ on_segments p G -> inside G p = true -> reached Q p.
Proof.
  intros p O I. destruct (some_direction p E HE) as (q & N & Ac). destruct (soon_off_all p q E HE Ac) as (t & T0 & T1 & T).
  apply (reached_by p q t N T0 T1 T). rewrite <- I. symmetry. apply same_side. intros x Hx Og.
  replace p with (lerp p q 0) in Hx at 1 by apply lerp_0. apply on_lerp in Hx. destruct Hx as (v & V0 & V1 & ->). rewrite lerp_lerp in Og. replace (0 + v * (t - 0)) with (v * t) in Og by ring.
  destruct (Qclt_le_dec 0 v) as [J|J].
  - apply Sub in Og. apply (T (v * t)); [apply mul_pos; assumption| |exact Og]. assert (Z : 0 <= (1 - v) * t) by (apply mul_nonneg; qlra). replace ((1 - v) * t) with (t - v * t) in Z by ring. qlra.
  - assert (v = 0) as -> by (apply Qcle_antisym; assumption). replace (0 * t) with 0 in Og by ring. rewrite lerp_0 in Og. exact (O Og).
Qed.
Lemma in_reached_on : forall p, on_segments p G -> reached Q p.
Proof.
  intros p (s & Hs & O). pose proof (proj1 (Forall_forall _ _) (proj1 HG) s Hs) as Ps.
  assert (U : exists u, u <> p /\ on_segment u s).
  { destruct (pt_eq_dec p (s_start s)) as [->|N]; [exists (s_end s); split; [exact (not_eq_sym Ps)|apply on_segment_end]|exists (s_start s); split; [auto|apply on_segment_start]]. }
  destruct U as (u & Nu & Ou). destruct (in_split _ _ Hs) as (l1 & l2 & El).
  assert (Pm : Permutation G (s :: l1 ++ l2)) by (rewrite El; apply Permutation_sym, Permutation_middle). set (r := l1 ++ l2) in *.
  assert (Pr : Forall proper (s :: r)) by (exact (Permutation_Forall Pm (proj1 HG))).
  assert (Nov : forall k, In k r -> ~ overlap s k).
  { pose proof (LinearThms.pairwise_perm _ _ _ _ (fun a b N K => N (overlap_sym _ _ K)) Pm (proj2 HG)) as Pw. intros k Hk. apply In_nth_error in Hk. destruct Hk as (i & Hi). exact (Pw 0%nat (S i) s k ltac:(discriminate) eq_refl Hi). }
  assert (PE : Forall proper (E ++ s :: r)) by (apply Forall_app; split; assumption).
  destruct (narrow p u (E ++ s :: r) PE (not_eq_sym Nu)) as (h & H0 & H).
  assert (HN : forall k, In k (E ++ s :: r) -> narrow_for p u h k) by (intros k Hk Ok; exact (H k Hk Ok)).
  set (q1 := beside p u h) in *. set (q2 := beside p u (- h)) in *.
  assert (S1 : soon (fun t => ~ on_segments (lerp p q1 t) E)).
  { apply soon_off_all; [exact HE|]. intros k Hk. apply (narrow_across p u h k H0). apply HN. apply in_or_app. left. exact Hk. }
  assert (S2 : soon (fun t => ~ on_segments (lerp p q2 t) E)).
  { apply soon_off_all; [exact HE|]. intros k Hk. apply (narrow_across p u h k H0). apply HN. apply in_or_app. left. exact Hk. }
  assert (S3 : soon (fun t => forall k, In k (s :: r) -> forall x, on_segment x (Seg (lerp p q1 t) (lerp p q2 t)) -> on_segment x k -> on_segment p k /\ x = lerp p u t)).
  { apply soon_all. intros k Hk. apply soon_between; [exact H0|exact (proj1 (Forall_forall _ _) Pr k Hk)|exact (not_eq_sym Nu)|]. apply HN. apply in_or_app. right. exact Hk. }
  destruct (soon_and _ _ S3 (soon_and _ _ S1 S2)) as (t & T0 & T1 & T).
  pose proof (fun t A B => proj1 (proj2 (T t A B))) as O1. pose proof (fun t A B => proj2 (proj2 (T t A B))) as O2. destruct (T t T0 (Qcle_refl t)) as (O3 & _). clear T S1 S2 S3.
  assert (Nb : forall k : Qc, k <> 0 -> beside p u k <> p).
  { intros k Nk Z. apply Nu. pose proof (f_equal px Z) as X. pose proof (f_equal py Z) as Y. unfold beside in X, Y. cbn [px py] in X, Y. set (x := px u - px p) in *. set (y := py u - py p) in *.
    assert (A : x = k * y) by (unfold x in *; clear - X; qlra). assert (B : y = - (k * x)) by (unfold y in *; clear - Y; qlra).
    assert (C : (1 + k * k) * x = 0) by (rewrite B in A; replace ((1 + k * k) * x) with (x - k * - (k * x)) by ring; rewrite <- A; ring).
    assert (Sk : 0 < 1 + k * k). { destruct (Qclt_le_dec k 0) as [J|J]; [assert (0 <= - k * - k) by (apply mul_nonneg; qlra)|assert (0 <= k * k) by (apply mul_nonneg; exact J)]; qlra. }
    apply Qcmult_integral in C. destruct C as [C|C]; [rewrite C in Sk; discriminate Sk|]. rewrite C in B. apply pt_ext; [unfold x in C; clear - C; qlra|unfold y in B; clear - B; qlra]. }
  assert (Nh : h <> 0) by (intro Z; rewrite Z in H0; discriminate H0). assert (Nh' : - h <> 0) by (intro Z; apply Nh; clear - Z; qlra).
  assert (Cm : lerp p u t = lerp (lerp p q1 t) (lerp p q2 t) (/ (1 + 1))).
  { unfold lerp, q1, q2, beside. cbn [px py]. apply pt_ext; cbn [px py]; field; discriminate. }
  assert (Cs : inside_segment (lerp p u t) s).
  { apply (between_inside s p u); [exact (not_eq_sym Nu)|exact O|exact Ou|]. split; [apply on_lerp; exists t; split; [qlra|split; [qlra|reflexivity]]|]. cbn [s_start s_end].
    split; intro Z; [apply lerp_eq0 in Z; [rewrite Z in T0; discriminate T0|auto]|apply lerp_eq1 in Z; [rewrite Z in T1; discriminate T1|auto]]. }
  assert (F : inside (s :: r) (lerp p q1 t) = negb (inside (s :: r) (lerp p q2 t))).
  { apply (flip s r (lerp p u t)); [exact Pr|apply (Shapes.even_perm (endpoints_of G)); [unfold endpoints_of; apply Permutation_flat_map; exact Pm|exact Ev]|exact Cs| | |].
    - split; [rewrite Cm; apply on_lerp; exists (/ (1 + 1)); split; [discriminate|split; [discriminate|reflexivity]]|]. cbn [s_start s_end].
      assert (Ap : forall k, k <> 0 -> lerp p u t <> lerp p (beside p u k) t).
      { intros k Nk Z. apply (Nb k Nk). pose proof (f_equal px Z) as X. pose proof (f_equal py Z) as Y. unfold lerp, beside in X, Y. cbn [px py] in X, Y. exfalso. apply Nu.
        assert (A : t * k * (py u - py p) = 0) by (clear - X; qlra). assert (B : t * k * (px u - px p) = 0) by (clear - Y; qlra).
        assert (Ntk : t * k <> 0) by (intro W; apply Qcmult_integral in W; destruct W as [W|W]; [rewrite W in T0; discriminate T0|exact (Nk W)]).
        apply Qcmult_integral in A, B. destruct A as [A|A]; [contradiction|]. destruct B as [B|B]; [contradiction|]. apply pt_ext; [clear - B; qlra|clear - A; qlra]. }
      split; apply Ap; assumption.
    - intros x Hx Ox. exact (proj2 (O3 s (or_introl eq_refl) x Hx Ox)).
    - intros k Hk x Hx Ox. destruct (O3 k (or_intror Hk) x Hx Ox) as (Opk & ->). apply (Nov k Hk). exists p, (lerp p u t). split; [intro Z; symmetry in Z; apply lerp_eq0 in Z; [rewrite Z in T0; discriminate T0|auto]|].
      split; [exact O|]. split; [exact Opk|]. split; [exact (proj1 Cs)|exact Ox]. }
  rewrite <- !(inside_perm _ _ _ Pm) in F. destruct (inside G (lerp p q1 t)) eqn:I1.
  - exact (reached_by p q1 t (Nb h Nh) T0 T1 O1 I1).
  - assert (I2 : inside G (lerp p q2 t) = true) by (destruct (inside G (lerp p q2 t)); [reflexivity|discriminate F]). exact (reached_by p q2 t (Nb (- h) Nh') T0 T1 O2 I2).
Qed.
Theorem region_reached : forall p, in_region G p <-> reached Q p.
Proof.
  intro p. split; [|exact (reached_in p)]. intros [O|I]; [exact (in_reached_on p O)|]. destruct (on_segments_dec p G) as [O|O]; [exact (in_reached_on p O)|exact (in_reached_off p O I)].
Qed.
End Closed.
