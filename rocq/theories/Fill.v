(** Contours lying in contours, lists of segments having the same points.
    Proof support only, no part of /repo is modelled here. *)
From Coq Require Import Permutation.
From Verif Require Import QcTac Geom Spec SpecShape SpecSides SpecLocate SpecReach GeomFacts Toward Bounding BoundingThms LoopThms Unique Relation PairFacts PairProofs Contour Filter Parity ShrinkThms RegionThms OrientThms Outline LinearThms LinearComplete EvenOdd Shapes Polygons Sides FilterThms ShapedThms Locate Rectangle CoupledThms CoupledThms Cycle Arranged Surround Faces Flip Reach.

(** ** Crossings of a vertical line *)
Definition level (s : segment) (x : Qc) : Qc :=
  py (s_start s) + (x - px (s_start s)) / (px (s_end s) - px (s_start s)) * (py (s_end s) - py (s_start s)).
Definition off_ends (x : Qc) (es : list segment) : Prop := forall s, In s es -> x <> px (s_start s) /\ x <> px (s_end s).
Lemma level_on : forall s p, px p <> px (s_start s) -> px p <> px (s_end s) -> on_segment p s -> py p = level s (px p).
Proof.
  intros [a b] p N1 N2 (t & T0 & T1 & X & Y). cbn [s_start s_end] in *. unfold level. cbn [s_start s_end].
  assert (D : px b - px a <> 0). { intro Z. apply N1. rewrite X, Z. ring. }
  rewrite Y. assert (E : (px p - px a) / (px b - px a) = t) by (rewrite X; field; exact D). rewrite E. reflexivity.
Qed.
Lemma under_level : forall s p, px p <> px (s_start s) -> px p <> px (s_end s) ->
  (passes_under s p = true <-> on_segment (Pt (px p) (level s (px p))) s /\ level s (px p) < py p).
Proof.
  intros [a b] p N1 N2. cbn [s_start s_end] in *.
  assert (Lx : forall u, px p <> px u -> lex_ltb p u = Qc_ltb (px p) (px u)).
  { intros u N. unfold lex_ltb. destruct (Qc_eqb_spec (px p) (px u)) as [E|E]; [contradiction|]. cbn. rewrite orb_false_r. reflexivity. }
  unfold passes_under. cbn [s_start s_end]. rewrite (Lx a N1), (Lx b N2).
  assert (Crs : forall u v, px v - px u <> 0 -> cross u v p = (px v - px u) * (py p - level (Seg u v) (px p))).
  { intros u v D. unfold cross, level. cbn [s_start s_end]. field. exact D. }
  assert (Lv : forall u v, px v - px u <> 0 -> level (Seg u v) (px p) = level (Seg v u) (px p)).
  { intros u v D. assert (D' : px u - px v <> 0) by (intro Z; apply D; clear - Z; qlra). unfold level. cbn [s_start s_end]. field. split; assumption. }
  assert (On : forall u v, px v - px u <> 0 -> (on_segment (Pt (px p) (level (Seg u v) (px p))) (Seg u v) <-> 0 <= (px p - px u) / (px v - px u) /\ (px p - px u) / (px v - px u) <= 1)).
  { intros u v D. split.
    - intros (t & T0 & T1 & X & _). cbn in X. assert (E : (px p - px u) / (px v - px u) = t) by (rewrite X; field; exact D). rewrite E. split; assumption.
    - intros (T0 & T1). exists ((px p - px u) / (px v - px u)). split; [exact T0|]. split; [exact T1|]. cbn. split; [field; exact D|]. unfold level. cbn [s_start s_end]. reflexivity. }
  destruct (Qc_lt_total (px a) (px b)) as [K|[K|K]].
  - assert (D : px b - px a <> 0) by (intro Z; clear - Z K; qlra). rewrite (On a b D), (Crs a b D). set (h := level (Seg a b) (px p)). clearbody h.
    assert (Q : (px p - px a) / (px b - px a) * (px b - px a) = px p - px a) by (field; exact D). set (t := (px p - px a) / (px b - px a)) in *. clearbody t.
    assert (M : 0 < (px b - px a) * (py p - h) <-> h < py p).
    { split; intro J; [|apply mul_pos; qlra]. destruct (Qclt_le_dec h (py p)) as [L|L]; [exact L|exfalso]. assert (0 <= (px b - px a) * (h - py p)) by (apply mul_nonneg; qlra). clear - H J. qlra. }
    destruct (Qc_ltb_spec (px p) (px a)) as [A|A], (Qc_ltb_spec (px p) (px b)) as [B|B]; cbn [negb andb orb].
    + split; [discriminate|]. intros ((T & _) & _). exfalso. assert (0 <= t * (px b - px a)) by (apply mul_nonneg; qlra). rewrite Q in H. clear - H A. qlra.
    + exfalso. clear - A B K. apply B. qlra.
    + rewrite orb_false_r. destruct (Qc_ltb_spec 0 ((px b - px a) * (py p - h))) as [J|J].
      * split; [intros _|reflexivity]. split; [|apply M, J]. split.
        -- destruct (Qclt_le_dec t 0) as [L|L]; [exfalso|exact L]. assert (0 < (- t) * (px b - px a)) by (apply mul_pos; qlra). apply A. clear - H Q. qlra.
        -- destruct (Qclt_le_dec 1 t) as [L|L]; [exfalso|exact L]. assert (0 < (t - 1) * (px b - px a)) by (apply mul_pos; qlra). clear - H Q B. qlra.
      * split; [discriminate|]. intros (_ & L). apply M in L. elim (J L).
    + split; [discriminate|]. intros ((_ & T) & _). exfalso. assert (0 <= (1 - t) * (px b - px a)) by (apply mul_nonneg; qlra). apply B. apply Qcle_lt_or_eq in H. assert (Z : px p <= px b) by (destruct H; clear - Q H; qlra). apply Qcle_lt_or_eq in Z. destruct Z as [Z|Z]; [exact Z|contradiction].
  - rewrite <- K. assert (F : negb (Qc_ltb (px p) (px a)) && Qc_ltb (px p) (px a) = false) by (destruct (Qc_ltb (px p) (px a)); reflexivity). rewrite F. cbn. split; [discriminate|].
    intros ((t & T0 & T1 & X & _) & _). cbn in X. exfalso. apply N1. rewrite X, <- K. ring.
  - assert (D : px a - px b <> 0) by (intro Z; clear - Z K; qlra). assert (D' : px b - px a <> 0) by (intro Z; clear - Z K; qlra). rewrite (On a b D'), (Crs b a D), <- (Lv a b D'). set (h := level (Seg a b) (px p)). clearbody h.
    assert (Q : (px p - px a) / (px b - px a) * (px b - px a) = px p - px a) by (field; exact D'). set (t := (px p - px a) / (px b - px a)) in *. clearbody t.
    assert (M : 0 < (px a - px b) * (py p - h) <-> h < py p).
    { split; intro J; [|apply mul_pos; qlra]. destruct (Qclt_le_dec h (py p)) as [L|L]; [exact L|exfalso]. assert (0 <= (px a - px b) * (h - py p)) by (apply mul_nonneg; qlra). clear - H J. qlra. }
    destruct (Qc_ltb_spec (px p) (px a)) as [A|A], (Qc_ltb_spec (px p) (px b)) as [B|B]; cbn [negb andb orb].
    + split; [discriminate|]. intros ((_ & T) & _). exfalso. assert (0 <= (1 - t) * (px a - px b)) by (apply mul_nonneg; qlra). clear - H B Q. qlra.
    + destruct (Qc_ltb_spec 0 ((px a - px b) * (py p - h))) as [J|J].
      * split; [intros _|reflexivity]. split; [|apply M, J]. split.
        -- destruct (Qclt_le_dec t 0) as [L|L]; [exfalso|exact L]. assert (0 < (- t) * (px a - px b)) by (apply mul_pos; qlra). clear - H Q A. qlra.
        -- destruct (Qclt_le_dec 1 t) as [L|L]; [exfalso|exact L]. assert (0 < (t - 1) * (px a - px b)) by (apply mul_pos; qlra). apply B. clear - H Q. qlra.
      * split; [discriminate|]. intros (_ & L). apply M in L. elim (J L).
    + exfalso. clear - A B K. apply A. qlra.
    + split; [discriminate|]. intros ((T & _) & _). exfalso. assert (0 <= t * (px a - px b)) by (apply mul_nonneg; qlra). apply A. assert (Z : px p <= px a) by (clear - Q H; qlra). apply Qcle_lt_or_eq in Z. destruct Z as [Z|Z]; [exact Z|contradiction].
Qed.

(** Heights of crossings below of a point. *)
Definition levels (es : list segment) (p : point) : list Qc := map (fun s => level s (px p)) (filter (fun s => passes_under s p) es).
Lemma levels_in : forall es p y, off_ends (px p) es -> (In y (levels es p) <-> on_segments (Pt (px p) y) es /\ y < py p).
Proof.
  intros es p y Off. unfold levels. rewrite in_map_iff. split.
  - intros (s & <- & Hs). apply filter_In in Hs. destruct Hs as (Hs & Ps). destruct (Off s Hs) as (N1 & N2). apply (under_level s p N1 N2) in Ps. split; [exists s; tauto|tauto].
  - intros ((s & Hs & O) & L). destruct (Off s Hs) as (N1 & N2). pose proof (level_on s (Pt (px p) y) N1 N2 O) as E. cbn [px py] in E. exists s. split; [symmetry; exact E|]. apply filter_In. split; [exact Hs|].
    apply (under_level s p N1 N2). rewrite <- E. split; assumption.
Qed.
Lemma pairwise_tail : forall (A : Type) (R : A -> A -> Prop) a l, pairwise R (a :: l) -> pairwise R l.
Proof. intros A R a l H i j x y N Ex Ey. apply (H (S i) (S j)); [lia|exact Ex|exact Ey]. Qed.
Lemma levels_nodup : forall es p, off_ends (px p) es -> pairwise only_ends es -> NoDup (levels es p).
Proof.
  induction es as [|s es IH]; intros p Off Pw; [constructor|]. unfold levels. cbn [filter].
  assert (Off' : off_ends (px p) es) by (intros t Ht; apply Off; right; exact Ht).
  specialize (IH p Off' (pairwise_tail _ _ _ _ Pw)). destruct (passes_under s p) eqn:E; [|exact IH]. cbn [map]. constructor; [|exact IH].
  change (map _ (filter _ es)) with (levels es p). intro K. apply (levels_in es p _ Off') in K. destruct K as ((t & Ht & O) & _). destruct (Off s (or_introl eq_refl)) as (N1 & N2).
  apply (under_level s p N1 N2) in E. apply In_nth_error in Ht. destruct Ht as (i & Ei). destruct (Pw 0%nat (S i) s t ltac:(discriminate) eq_refl Ei _ (proj1 E) O) as ([Z|Z] & _); apply (f_equal px) in Z; cbn in Z; congruence.
Qed.
(** Segments having the same points. *)
Theorem same_crossings : forall es fs p, off_ends (px p) es -> off_ends (px p) fs -> pairwise only_ends es -> pairwise only_ends fs ->
  (forall y, on_segments (Pt (px p) y) es <-> on_segments (Pt (px p) y) fs) -> inside es p = inside fs p.
Proof.
  intros es fs p O1 O2 P1 P2 K. unfold inside. f_equal. rewrite <- (map_length (fun s => level s (px p)) (filter _ es)), <- (map_length (fun s => level s (px p)) (filter _ fs)).
  apply Permutation_length, NoDup_Permutation; [exact (levels_nodup es p O1 P1)|exact (levels_nodup fs p O2 P2)|].
  intro y. change (In y (levels es p) <-> In y (levels fs p)). rewrite !levels_in by assumption. rewrite K. reflexivity.
Qed.
(** Close to any point off segments there is one off given vertical lines. *)
Lemma generic_near : forall es p xs, Forall proper es -> ~ on_segments p es ->
  exists q, ~ In (px q) xs /\ forall x, on_segment x (Seg p q) -> ~ on_segments x es.
Proof.
  intros es p xs Pe N. set (w := Pt (px p + 1) (py p)). destruct (avoid_segments p w es Pe N) as (l & L0 & L1 & L).
  assert (Nq : p <> toward p w l). { intro E. apply (f_equal px) in E. unfold toward, w in E. cbn in E. clear - E L0. qlra. }
  destruct (approach p (toward p w l) (map (fun x => Pt x (py p)) xs) Nq) as (m & (Om & _) & Nm & _). exists m.
  destruct Om as (t & T0 & T1 & X & Y). cbn [s_start s_end] in X, Y. split.
  - intro K. apply Nm. apply in_map_iff. exists (px m). split; [|exact K]. apply pt_ext; [reflexivity|]. rewrite Y. unfold toward, w. cbn. ring.
  - intros x Ox Os. destruct Ox as (u & U0 & U1 & X' & Y'). cbn [s_start s_end] in X', Y'. apply (L (u * (t * l))).
    + assert (0 <= t * l) by (apply mul_nonneg; [exact T0|qlra]). apply mul_nonneg; assumption.
    + assert (A : 0 <= t * l) by (apply mul_nonneg; [exact T0|qlra]). assert (B : 0 <= (1 - u) * (t * l)) by (apply mul_nonneg; [qlra|exact A]). assert (C : 0 <= (1 - t) * l) by (apply mul_nonneg; qlra). clear - A B C. qlra.
    + replace (toward p w (u * (t * l))) with x; [exact Os|]. apply pt_ext; unfold toward in *; cbn [px py] in *; [rewrite X', X|rewrite Y', Y]; ring.
Qed.
Definition xs_of (es : list segment) : list Qc := flat_map (fun s => [px (s_start s); px (s_end s)]) es.
Lemma off_xs : forall x es, ~ In x (xs_of es) -> off_ends x es.
Proof.
  intros x es N s Hs. split; intro E; apply N; unfold xs_of; apply in_flat_map; exists s; (split; [exact Hs|cbn; auto]).
Qed.
Theorem same_inside : forall es fs, Forall proper es -> Forall proper fs -> even_occurrences (endpoints_of es) -> even_occurrences (endpoints_of fs) ->
  pairwise only_ends es -> pairwise only_ends fs -> (forall p, on_segments p es <-> on_segments p fs) ->
  forall p, ~ on_segments p es -> inside es p = inside fs p.
Proof.
  intros es fs E1 E2 V1 V2 P1 P2 K p N. destruct (generic_near es p (xs_of es ++ xs_of fs) E1 N) as (q & Nq & Q).
  rewrite (inside_const es p q E1 V1), (inside_const fs p q E2 V2).
  - apply same_crossings; [apply off_xs; intro J; apply Nq, in_or_app; left; exact J|apply off_xs; intro J; apply Nq, in_or_app; right; exact J|exact P1|exact P2|]. intro y. apply K.
  - intros s Hs. left. intros x Ox O. apply (Q x Ox). apply K. exists s. split; assumption.
  - intros s Hs. left. intros x Ox O. apply (Q x Ox). exists s. split; assumption.
Qed.

(** ** Contours in contours *)
Lemma simple_only_ends : forall vs, simple_contour vs -> pairwise only_ends (contour_edges vs).
Proof. intros vs (_ & _ & H) i j a b N Ea Eb p A B. exact (H i j a b N Ea Eb p A B). Qed.
Lemma simple_apart : forall vs, simple_contour vs -> non_overlapping (contour_edges vs).
Proof.
  intros vs H. split; [exact (simple_proper vs H)|]. intros i j a b N Ea Eb. apply only_ends_apart. exact (simple_only_ends vs H i j a b N Ea Eb).
Qed.
Lemma some_inside : forall vs p, simple_contour vs -> on_segments p (contour_edges vs) -> exists q, ~ on_segments q (contour_edges vs) /\ inside (contour_edges vs) q = true.
Proof.
  intros vs p H O.
  destruct (in_reached_on (contour_edges vs) (contour_edges vs) (fun q => inside (contour_edges vs) q = true) (simple_apart vs H) (contour_even vs) (simple_proper vs H)
    (fun _ K => K) (fun _ _ => conj (fun K => K) (fun K => K)) p O) as (q & N & K).
  exists q. apply K; [apply (on_segment_end (Seg p q))|exact N].
Qed.
Section Fill.
Variables r c : contour.
Hypothesis Hr : simple_contour (vertices r).
Hypothesis Hc : simple_contour (vertices c).
Theorem loop_in : (forall p, on_segments p (edges r) -> in_contour c p) -> forall p, in_contour r p -> in_contour c p.
Proof.
  intros On p [O|I]; [exact (On p O)|]. change (contour_edges (vertices r)) with (edges r) in I.
  pose proof (simple_proper _ Hc) as Pc. pose proof (simple_proper _ Hr) as Pr.
  destruct (on_segments_dec p (edges c)) as [O|O]; [left; exact O|right]. change (contour_edges (vertices c)) with (edges c).
  destruct (boundary_arranged Minus r c Hr Hc) as (L & cuts & Lp & La & Le & Li & Ls & At & Src).
  assert (Sd : forall k m, In k L -> on_segment m k -> ~ In m cuts ->
    xorb (op_holds Minus (inside (edges r) m) (inside (edges c) m)) (op_holds Minus (inside_above (edges r) m) (inside_above (edges c) m)) = true).
  { intros k m Hk Om Nm. specialize (Ls m Nm). destruct (xorb _ _); [reflexivity|exfalso]. unfold segments_through in Ls.
    rewrite Forall_forall in Lp. assert (J : In k (filter (fun s => passes_through s m) L)) by (apply filter_In; split; [exact Hk|apply (Sides.through_spec k m (Lp k Hk)), Om]).
    destruct (filter (fun s => passes_through s m) L); [destruct J|discriminate Ls]. }
  assert (Lw : forall k, In k L -> exists sg, In sg (contour_edges (vertices c)) /\ within k sg).
  { intros k Hk. destruct (Src k Hk) as ([|] & sg & Hs & W); [|exists sg; split; assumption].
    destruct (approach (s_start k) (s_end k) cuts (proj1 (Forall_forall _ _) Lp k Hk)) as (m & (Om & _) & Nm & _). assert (Om' : on_segment m k) by (destruct k; exact Om).
    destruct (on_segments_dec m (edges c)) as [Oc|Oc]; [exact (At k m false Hk Om' Nm Oc)|exfalso].
    pose proof (Sd k m Hk Om' Nm) as S. rewrite (above_off (edges c) m Pc Oc) in S.
    destruct (On m) as [K|K]; [exists sg; split; [exact Hs|apply W, Om']|exact (Oc K)|]. change (contour_edges (vertices c)) with (edges c) in K. rewrite K in S.
    cbn in S. destruct (inside (edges r) m), (inside_above (edges r) m); discriminate S. }
  destruct (none_or_all (vertices c) L Hc Lp Lw La Le) as [E|All].
  - pose proof (Li p) as K. rewrite E, I in K. cbn in K. destruct (inside (edges c) p); [reflexivity|discriminate K].
  - exfalso. assert (Sm : forall q, on_segments q (edges c) <-> on_segments q L).
    { intro q. split; [apply All|]. intros (k & Hk & Ok). destruct (Lw k Hk) as (sg & Hs & W). exists sg. split; [exact Hs|apply W, Ok]. }
    destruct (vertices c) as [|v vs] eqn:Ev; [destruct Hc as (Z & _); cbn in Z; lia|]. rewrite <- Ev in *.
    assert (Ov : on_segments v (contour_edges (vertices c))).
    { assert (Iv : In v (vertices c)) by (rewrite Ev; left; reflexivity). exact (vertex_edge c v Iv). }
    destruct (some_inside (vertices c) v Hc Ov) as (q & Nq & Iq).
    pose proof (same_inside (edges c) L Pc Lp (contour_even _) Le (simple_only_ends _ Hc) La Sm q Nq) as K. rewrite (Li q) in K. change (contour_edges (vertices c)) with (edges c) in *. rewrite Iq in K. cbn in K. destruct (inside (edges r) q); discriminate K.
Qed.
End Fill.
