(** Lists of segments with the same points have the same parity of numbers of
    ends at any point.  Proof support only, no part of /repo is modelled here. *)
From Coq Require Import Permutation.
From Verif Require Import QcTac Geom Spec SpecShape SpecSides SpecReach GeomFacts EvenOdd Faces Flip Toward Relation PairFacts Parity Outline Shapes Unique Cycle Flip Polygons Reach Fill Sides TracedLoops.

(** ** Distances *)
Definition mag (x : Qc) : Qc := if Qc_ltb x 0 then - x else x.
Lemma mag_cases : forall x, (x < 0 /\ mag x = - x) \/ (0 <= x /\ mag x = x).
Proof. intro x. unfold mag. destruct (Qc_ltb_spec x 0) as [K|K]; [left; split; [exact K|reflexivity]|right; split; [qlra|reflexivity]]. Qed.
Lemma mag_nonneg : forall x, 0 <= mag x.
Proof. intro x. destruct (mag_cases x) as [(A & ->)|(A & ->)]; qlra. Qed.
Lemma mag_zero : forall x, mag x = 0 -> x = 0.
Proof. intros x E. destruct (mag_cases x) as [(A & B)|(A & B)]; rewrite B in E; [|exact E]. exfalso. clear B. qlra. Qed.
Lemma mag_scale : forall t x, 0 <= t -> mag (t * x) = t * mag x.
Proof.
  intros t x T. destruct (mag_cases x) as [(A & ->)|(A & ->)], (mag_cases (t * x)) as [(B & ->)|(B & ->)].
  - ring.
  - assert (0 <= t * - x) by (apply mul_nonneg; qlra). assert (t * x = 0) by (apply Qcle_antisym; qlra). replace (t * - x) with (- (t * x)) by ring. rewrite H0. ring.
  - exfalso. assert (0 <= t * x) by (apply mul_nonneg; qlra). exact (Qcle_not_lt _ _ H B).
  - reflexivity.
Qed.
Lemma mag_bound : forall a x, 0 <= a * x + mag a * mag x.
Proof.
  intros a x. destruct (mag_cases a) as [(A & ->)|(A & ->)], (mag_cases x) as [(B & ->)|(B & ->)].
  - assert (0 <= - a * - x) by (apply mul_nonneg; qlra). replace (- a * - x) with (a * x) in * by ring. qlra.
  - replace (a * x + - a * x) with 0 by ring. apply Qcle_refl.
  - replace (a * x + a * - x) with 0 by ring. apply Qcle_refl.
  - assert (0 <= a * x) by (apply mul_nonneg; assumption). qlra.
Qed.
Definition norm (v p : point) : Qc := mag (px p - px v) + mag (py p - py v).
Lemma norm_nonneg : forall v p, 0 <= norm v p.
Proof. intros v p. unfold norm. pose proof (mag_nonneg (px p - px v)). pose proof (mag_nonneg (py p - py v)). qlra. Qed.
Lemma norm_self : forall v, norm v v = 0.
Proof. intro v. unfold norm. replace (px v - px v) with 0 by ring. replace (py v - py v) with 0 by ring. reflexivity. Qed.
Lemma norm_pos : forall v p, p <> v -> 0 < norm v p.
Proof.
  intros v p N. pose proof (norm_nonneg v p) as K. apply Qcle_lt_or_eq in K. destruct K as [K|K]; [exact K|exfalso]. apply N. unfold norm in K.
  pose proof (mag_nonneg (px p - px v)) as A. pose proof (mag_nonneg (py p - py v)) as B.
  assert (X : mag (px p - px v) = 0) by (clear - K A B; qlra). assert (Y : mag (py p - py v) = 0) by (clear - K A B; qlra). apply mag_zero in X, Y. apply pt_ext; [clear - X; qlra|clear - Y; qlra].
Qed.
Lemma norm_lerp : forall v u t, 0 <= t -> norm v (lerp v u t) = t * norm v u.
Proof.
  intros v u t T. unfold norm, lerp. cbn [px py]. replace (px v + t * (px u - px v) - px v) with (t * (px u - px v)) by ring. replace (py v + t * (py u - py v) - py v) with (t * (py u - py v)) by ring.
  rewrite !mag_scale by exact T. ring.
Qed.
Definition tip (v u : point) (d : Qc) : point := lerp v u (d / norm v u).
Lemma tip_ratio : forall v u d, u <> v -> 0 < d -> 0 < d / norm v u /\ d / norm v u * norm v u = d.
Proof.
  intros v u d N D. pose proof (norm_pos v u N) as P. assert (Nz : norm v u <> 0) by (intro Z; rewrite Z in P; discriminate P).
  assert (E : d / norm v u * norm v u = d) by (field; exact Nz). split; [|exact E].
  destruct (Qclt_le_dec 0 (d / norm v u)) as [K|K]; [exact K|exfalso]. set (t := d / norm v u) in *. clearbody t. assert (0 <= - t * norm v u) by (apply mul_nonneg; qlra). clear - H E D. qlra.
Qed.
Lemma tip_norm : forall v u d, u <> v -> 0 < d -> norm v (tip v u d) = d.
Proof. intros v u d N D. destruct (tip_ratio v u d N D) as (P & E). unfold tip. rewrite norm_lerp by (clear - P; qlra). exact E. Qed.
Lemma tip_on : forall v u d, u <> v -> 0 < d -> d <= norm v u -> on_segment (tip v u d) (Seg v u).
Proof.
  intros v u d N D L. destruct (tip_ratio v u d N D) as (P & E). apply on_lerp. exists (d / norm v u). split; [clear - P; qlra|]. split; [|reflexivity].
  pose proof (norm_pos v u N) as Q. set (t := d / norm v u) in *. clearbody t. destruct (Qclt_le_dec 1 t) as [K|K]; [exfalso|exact K]. assert (0 < (t - 1) * norm v u) by (apply mul_pos; qlra). clear - H E L. qlra.
Qed.
Lemma tip_only : forall v u d p, u <> v -> on_segment p (Seg v u) -> norm v p = d -> p = tip v u d.
Proof.
  intros v u d p N O E. apply on_lerp in O. destruct O as (t & T0 & T1 & ->). rewrite norm_lerp in E by exact T0. unfold tip. f_equal. rewrite <- E.
  pose proof (norm_pos v u N) as P. assert (Nz : norm v u <> 0) by (intro Z; rewrite Z in P; discriminate P). field. exact Nz.
Qed.

Section At.
Variable v : point.
Definition good (d : Qc) (s : segment) : Prop :=
  (on_segment v s -> forall u, endpoint u s -> u <> v -> d < norm v u) /\ (~ on_segment v s -> forall p, norm v p = d -> ~ on_segment p s).
Lemma soon_less : forall c, 0 < c -> soon (fun t => t < c).
Proof. intros c C. apply (soon_imp (fun t => 0 < c + t * - (1))); [intros t _ K; clear - K; qlra|apply soon_pos, C]. Qed.
Lemma soon_good : forall s, proper s -> soon (fun d => good d s).
Proof.
  intros s Ps. destruct (on_segment_dec v s) as [O|O].
  - assert (K : forall u, soon (fun d => u <> v -> d < norm v u)).
    { intro u. destruct (pt_eq_dec u v) as [E|E]; [apply soon_true; intros t _ N; contradiction|]. apply (soon_imp (fun t => t < norm v u)); [intros t _ L _; exact L|]. apply soon_less, norm_pos, E. }
    apply (soon_imp _ _ (fun t T H => H)). apply (soon_imp (fun d => (s_start s <> v -> d < norm v (s_start s)) /\ (s_end s <> v -> d < norm v (s_end s)))); [|apply soon_and; apply K].
    intros d _ (A & B). split; [intros _ u [->| ->]; assumption|intro N; contradiction].
  - destruct (separated v s Ps O) as (((a, b), c) & F & G).
    apply (soon_imp (fun d => 0 < aff (a, b, c) v + d * - (mag a + mag b))); [|apply soon_pos, F].
    intros d D K. split; [intro; contradiction|]. intros _ p E Op. apply G in Op. cbn [aff] in *. unfold norm in E. set (x := px p - px v) in *. set (y := py p - py v) in *.
    assert (Ex : px p = px v + x) by (unfold x; ring). assert (Ey : py p = py v + y) by (unfold y; ring). rewrite Ex, Ey in Op.
    pose proof (mag_bound a x) as M1. pose proof (mag_bound b y) as M2. assert (M3 : 0 <= mag a * mag y) by (apply mul_nonneg; apply mag_nonneg). assert (M4 : 0 <= mag b * mag x) by (apply mul_nonneg; apply mag_nonneg).
    rewrite <- E in K. clear - K Op M1 M2 M3 M4. revert K Op M1 M2 M3 M4. generalize (mag a) (mag b) (mag x) (mag y). intros A B X Y K Op M1 M2 M3 M4.
    assert (S : a * px v + b * py v + c + (a * x + b * y) <= 0) by (replace (a * px v + b * py v + c + (a * x + b * y)) with (a * (px v + x) + b * (py v + y) + c) by ring; exact Op).
    replace ((X + Y) * - (A + B)) with (- (A * X + B * Y + A * Y + B * X)) in K by ring. generalize dependent (A * X). generalize dependent (B * Y). generalize dependent (A * Y). generalize dependent (B * X). intros. qlra.
Qed.
Definition germs (d : Qc) (s : segment) : list point :=
  if passes_through s v then (if pt_eq_dec (s_start s) v then [] else [tip v (s_start s) d]) ++ (if pt_eq_dec (s_end s) v then [] else [tip v (s_end s) d]) else [].
Lemma split_at : forall s p, on_segment v s -> on_segment p s -> on_segment p (Seg v (s_start s)) \/ on_segment p (Seg v (s_end s)).
Proof.
  intros [a b] p (t & T0 & T1 & X & Y) (u & U0 & U1 & X' & Y'). cbn [s_start s_end] in *. assert (Ev : v = lerp a b t) by (apply pt_ext; assumption). assert (Ep : p = lerp a b u) by (apply pt_ext; assumption).
  rewrite Ev, Ep. destruct (Qclt_le_dec t u) as [K|K].
  - right. replace (Seg (lerp a b t) b) with (Seg (lerp a b t) (lerp a b 1)) by (rewrite lerp_1; reflexivity). apply lerp_on. split; [clear - K; qlra|exact U1].
  - left. apply (on_reversed (Seg a (lerp a b t))). replace (Seg a (lerp a b t)) with (Seg (lerp a b 0) (lerp a b t)) by (rewrite lerp_0; reflexivity). apply lerp_on. split; assumption.
Qed.
Lemma through_dec : forall s, proper s -> (passes_through s v = true /\ on_segment v s) \/ (passes_through s v = false /\ ~ on_segment v s).
Proof. intros s Ps. pose proof (Sides.through_spec s v Ps) as K. destruct (passes_through s v); [left; split; [reflexivity|apply K; reflexivity]|right; split; [reflexivity|]]. intro O. apply K in O. discriminate O. Qed.
Lemma germs_in : forall d s p, proper s -> 0 < d -> good d s -> (In p (germs d s) <-> on_segment p s /\ norm v p = d).
Proof.
  intros d s p Ps D (G1 & G2). unfold germs. destruct (through_dec s Ps) as [(-> & O)|(-> & O)].
  - specialize (G1 O). rewrite in_app_iff. split.
    + intros [K|K].
      * destruct (pt_eq_dec (s_start s) v) as [E|E]; [destruct K|]. destruct K as [<-|[]]. split; [|apply tip_norm; assumption].
        apply (sub_on s v (s_start s)); [exact O|apply on_segment_start|]. apply tip_on; [exact E|exact D|]. pose proof (G1 _ (or_introl eq_refl) E) as L. clear - L. qlra.
      * destruct (pt_eq_dec (s_end s) v) as [E|E]; [destruct K|]. destruct K as [<-|[]]. split; [|apply tip_norm; assumption].
        apply (sub_on s v (s_end s)); [exact O|apply on_segment_end|]. apply tip_on; [exact E|exact D|]. pose proof (G1 _ (or_intror eq_refl) E) as L. clear - L. qlra.
    + intros (Op & E). assert (Nz : p <> v) by (intros ->; rewrite norm_self in E; rewrite <- E in D; discriminate D).
      assert (Deg : forall u, u = v -> ~ on_segment p (Seg v u)) by (intros u -> (t & _ & _ & X & Y); apply Nz; cbn in X, Y; apply pt_ext; [rewrite X; ring|rewrite Y; ring]).
      destruct (split_at s p O Op) as [K|K]; [left; destruct (pt_eq_dec (s_start s) v) as [Z|Z]|right; destruct (pt_eq_dec (s_end s) v) as [Z|Z]].
      * elim (Deg _ Z K). * left. symmetry. apply tip_only; assumption. * elim (Deg _ Z K). * left. symmetry. apply tip_only; assumption.
  - split; [intros []|]. intros (Op & E). elim (G2 O p E Op).
Qed.
Lemma germs_nodup : forall d s, 0 < d -> proper s -> good d s -> NoDup (germs d s).
Proof.
  intros d s D Ps G. unfold germs. destruct (through_dec s Ps) as [(-> & O)|(-> & O)]; [|constructor]. destruct (pt_eq_dec (s_start s) v) as [E|E], (pt_eq_dec (s_end s) v) as [F|F]; cbn [app]; try (repeat constructor; intros []; fail).
  constructor; [|repeat constructor; intros []]. intros [K|[]]. destruct (tip_ratio v _ d E D) as (R1 & _). destruct (tip_ratio v _ d F D) as (R2 & _). unfold tip in K. set (t := d / norm v (s_start s)) in *. set (t' := d / norm v (s_end s)) in *. clearbody t t'.
  destruct O as (z & Z0 & Z1 & X & Y). destruct s as [a b]. unfold proper in Ps. cbn [s_start s_end] in *. pose proof (f_equal px K) as Kx. pose proof (f_equal py K) as Ky. unfold lerp in Kx, Ky. cbn [px py] in Kx, Ky.
  assert (Hx : (t' * (1 - z) + t * z) * (px b - px a) = 0) by (transitivity (px v + t' * (px b - px v) - (px v + t * (px a - px v))); [rewrite X; ring|first [rewrite Kx; ring|rewrite <- Kx; ring]]).
  assert (Hy : (t' * (1 - z) + t * z) * (py b - py a) = 0) by (transitivity (py v + t' * (py b - py v) - (py v + t * (py a - py v))); [rewrite Y; ring|first [rewrite Ky; ring|rewrite <- Ky; ring]]).
  assert (Pz : 0 < t' * (1 - z) + t * z).
  { destruct (Qclt_le_dec z 1) as [L|L]; [assert (0 < t' * (1 - z)) by (apply mul_pos; [exact R2|qlra]); assert (0 <= t * z) by (apply mul_nonneg; qlra); qlra|].
    assert (z = 1) as -> by (apply Qcle_antisym; assumption). replace (t' * (1 - 1) + t * 1) with t by ring. exact R1. }
  assert (Nz : t' * (1 - z) + t * z <> 0) by (intro Q; rewrite Q in Pz; discriminate Pz).
  apply Qcmult_integral in Hx, Hy. destruct Hx as [Hx|Hx]; [contradiction|]. destruct Hy as [Hy|Hy]; [contradiction|]. apply Ps. apply pt_ext; [clear - Hx; qlra|clear - Hy; qlra].
Qed.
Lemma germs_parity : forall d s, proper s -> Nat.odd (length (germs d s)) = Nat.odd (count_occ pt_eq_dec [s_start s; s_end s] v).
Proof.
  intros d s Ps. unfold germs. cbn [count_occ]. destruct (through_dec s Ps) as [(-> & O)|(-> & O)]; unfold proper in Ps.
  - destruct (pt_eq_dec (s_start s) v), (pt_eq_dec (s_end s) v); try reflexivity; exfalso; apply Ps; congruence.
  - destruct (pt_eq_dec (s_start s) v) as [E|E]; [exfalso; apply O; rewrite <- E; apply on_segment_start|]. destruct (pt_eq_dec (s_end s) v) as [F|F]; [exfalso; apply O; rewrite <- F; apply on_segment_end|]. reflexivity.
Qed.
Lemma all_germs_parity : forall d es, Forall proper es -> Nat.odd (length (flat_map (germs d) es)) = Nat.odd (count_occ pt_eq_dec (endpoints_of es) v).
Proof.
  intros d es P. induction P as [|s es Ps P IH]; [reflexivity|]. unfold endpoints_of in *. cbn [flat_map]. rewrite app_length, count_occ_app, !Nat.odd_add, IH, germs_parity by exact Ps. reflexivity.
Qed.
Lemma all_germs_in : forall d es p, Forall proper es -> 0 < d -> (forall s, In s es -> good d s) -> (In p (flat_map (germs d) es) <-> on_segments p es /\ norm v p = d).
Proof.
  intros d es p P D G. rewrite in_flat_map. pose proof (proj1 (Forall_forall _ _) P) as Pr. split.
  - intros (s & Hs & K). apply (germs_in d s p (Pr s Hs) D (G s Hs)) in K. split; [exists s; tauto|tauto].
  - intros ((s & Hs & O) & E). exists s. split; [exact Hs|]. apply (germs_in d s p (Pr s Hs) D (G s Hs)). split; assumption.
Qed.
Lemma all_germs_nodup : forall d es, 0 < d -> Forall proper es -> (forall s, In s es -> good d s) -> pairwise only_ends es -> NoDup (flat_map (germs d) es).
Proof.
  intros d es D P. induction P as [|s es Ps P IH]; intros G Pw; [constructor|]. cbn [flat_map]. apply TracedLoops.NoDup_app_intro.
  - apply germs_nodup; [exact D|exact Ps|apply G; left; reflexivity].
  - apply IH; [intros t Ht; apply G; right; exact Ht|exact (pairwise_tail _ _ _ _ Pw)].
  - intros p A B. apply (germs_in d s p Ps D (G s (or_introl eq_refl))) in A. apply (all_germs_in d es p P D (fun t Ht => G t (or_intror Ht))) in B. destruct A as (A & E), B as ((t & Ht & B) & _).
    apply In_nth_error in Ht. destruct Ht as (i & Ei). destruct (Pw 0%nat (S i) s t ltac:(discriminate) eq_refl Ei p A B) as (Ep & _).
    destruct (G s (or_introl eq_refl)) as (G1 & G2). destruct (on_segment_dec v s) as [O|O]; [|exact (G2 O p E A)].
    destruct (pt_eq_dec p v) as [->|N]; [rewrite norm_self in E; rewrite <- E in D; discriminate D|]. pose proof (G1 O p Ep N) as L. rewrite E in L. exact (Qclt_not_eq _ _ L eq_refl).
Qed.
End At.

Theorem same_ends_parity : forall es fs, Forall proper es -> Forall proper fs -> pairwise only_ends es -> pairwise only_ends fs ->
  (forall p, on_segments p es <-> on_segments p fs) ->
  forall v, Nat.odd (count_occ pt_eq_dec (endpoints_of es) v) = Nat.odd (count_occ pt_eq_dec (endpoints_of fs) v).
Proof.
  intros es fs P1 P2 W1 W2 K v.
  assert (S : soon (fun d => forall s, In s (es ++ fs) -> good v d s)).
  { apply soon_all. intros s Hs. apply soon_good. apply in_app_or in Hs. destruct Hs as [Hs|Hs]; [exact (proj1 (Forall_forall _ _) P1 s Hs)|exact (proj1 (Forall_forall _ _) P2 s Hs)]. }
  destruct S as (d & D0 & _ & D). specialize (D d D0 (Qcle_refl d)).
  assert (G1 : forall s, In s es -> good v d s) by (intros s Hs; apply D, in_or_app; left; exact Hs). assert (G2 : forall s, In s fs -> good v d s) by (intros s Hs; apply D, in_or_app; right; exact Hs).
  rewrite <- (all_germs_parity v d es P1), <- (all_germs_parity v d fs P2). f_equal. apply Permutation_length, NoDup_Permutation; [apply all_germs_nodup; assumption|apply all_germs_nodup; assumption|].
  intro p. rewrite !all_germs_in by assumption. rewrite K. reflexivity.
Qed.
Theorem same_even : forall es fs, Forall proper es -> Forall proper fs -> pairwise only_ends es -> pairwise only_ends fs ->
  (forall p, on_segments p es <-> on_segments p fs) -> even_occurrences (endpoints_of es) -> even_occurrences (endpoints_of fs).
Proof.
  intros es fs P1 P2 W1 W2 K E v. pose proof (same_ends_parity es fs P1 P2 W1 W2 K v) as O. specialize (E v). rewrite <- Nat.negb_odd in *. rewrite <- O. exact E.
Qed.
