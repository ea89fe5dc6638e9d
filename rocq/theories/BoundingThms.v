(** Proofs about bounding.py. *)
From Verif Require Import QcTac Geom Spec GeomFacts Relation PairFacts PairProofs PairThms Unique LoopThms Bounding Toward.

Ltac breflect :=
  repeat match goal with
  | |- context [Qc_ltb ?a ?b] => destruct (Qc_ltb_spec a b)
  | |- context [Qc_leb ?a ?b] => destruct (Qc_leb_spec a b)
  | |- context [Qc_eqb ?a ?b] => destruct (Qc_eqb_spec a b)
  end; cbn.

Lemma Qc_leb_true : forall a b, Qc_leb a b = true <-> a <= b.
Proof. intros a b. destruct (Qc_leb_spec a b); split; auto; try discriminate; intro; contradiction. Qed.
Lemma Qc_ltb_true : forall a b, Qc_ltb a b = true <-> a < b.
Proof. intros a b. destruct (Qc_ltb_spec a b); split; auto; try discriminate; intro; contradiction. Qed.
Lemma Qc_eqb_true : forall a b, Qc_eqb a b = true <-> a = b.
Proof. intros a b. destruct (Qc_eqb_spec a b); split; auto; try discriminate; intro; contradiction. Qed.
Ltac btrue := rewrite ?andb_true_iff, ?orb_true_iff, ?andb_true_iff, ?orb_true_iff, ?negb_true_iff, ?Qc_leb_true, ?Qc_ltb_true, ?Qc_eqb_true.
Ltac btrue_in H := rewrite ?andb_true_iff, ?orb_true_iff, ?andb_true_iff, ?orb_true_iff, ?negb_true_iff, ?Qc_leb_true, ?Qc_ltb_true, ?Qc_eqb_true in H.

Lemma Qc_max_le : forall a b c, Qc_max a b <= c <-> a <= c /\ b <= c.
Proof. intros a b c. unfold Qc_max. destruct (Qc_ltb_spec a b); split; try split; try qlra; intros [? ?]; qlra. Qed.
Lemma Qc_min_ge : forall a b c, c <= Qc_min a b <-> c <= a /\ c <= b.
Proof. intros a b c. unfold Qc_min. destruct (Qc_ltb_spec b a); split; try split; try qlra; intros [? ?]; qlra. Qed.

Lemma disjoint_intersects : forall a b, disjoint_with a b = negb (intersects_with a b).
Proof.
  intros a b. unfold disjoint_with, intersects_with, Qc_leb.
  rewrite !negb_andb, !negb_involutive.
  destruct (Qc_ltb (max_x a) (min_x b)), (Qc_ltb (max_x b) (min_x a)),
    (Qc_ltb (max_y a) (min_y b)), (Qc_ltb (max_y b) (min_y a)); reflexivity.
Qed.

Theorem intersects_with_points : forall a b, wf_box a -> wf_box b ->
  (intersects_with a b = true <-> exists p, in_box p a /\ in_box p b).
Proof.
  intros a b [A1 A2] [B1 B2]. unfold intersects_with, in_box. btrue. split.
  - intros [[[H1 H2] H3] H4].
    exists (Pt (Qc_max (min_x a) (min_x b)) (Qc_max (min_y a) (min_y b))). cbn.
    unfold Qc_max. destruct (Qc_ltb_spec (min_x a) (min_x b)), (Qc_ltb_spec (min_y a) (min_y b));
      repeat split; qlra.
  - intros (p & H & J). repeat split; qlra.
Qed.

Theorem disjoint_with_points : forall a b, wf_box a -> wf_box b ->
  (disjoint_with a b = true <-> forall p, ~ (in_box p a /\ in_box p b)).
Proof.
  intros a b A B. rewrite disjoint_intersects, negb_true_iff.
  pose proof (intersects_with_points a b A B) as H.
  destruct (intersects_with a b); split.
  - discriminate.
  - intro J. exfalso. destruct (proj1 H eq_refl) as (p & X). exact (J p X).
  - intros _ p X. assert (false = true) by (apply H; exists p; exact X). discriminate.
  - reflexivity.
Qed.

Theorem is_subset_of_points : forall a b, wf_box a ->
  (is_subset_of a b = true <-> forall p, in_box p a -> in_box p b).
Proof.
  intros a b [A1 A2]. unfold is_subset_of, in_box. btrue. split.
  - intros [[[H1 H2] H3] H4] p (J1 & J2 & J3 & J4). repeat split; qlra.
  - intros H. pose proof (H (Pt (min_x a) (min_y a))) as H1. pose proof (H (Pt (max_x a) (max_y a))) as H2.
    cbn in H1, H2. destruct H1 as (X1 & X2 & X3 & X4); [repeat split; qlra|].
    destruct H2 as (Y1 & Y2 & Y3 & Y4); [repeat split; qlra|]. repeat split; assumption.
Qed.

Theorem within_of_points : forall a b, wf_box a ->
  (within_of a b = true <-> forall p, in_box p a -> inside_box p b).
Proof.
  intros a b [A1 A2]. unfold within_of, in_box, inside_box. btrue. split.
  - intros [[[H1 H2] H3] H4] p (J1 & J2 & J3 & J4). repeat split; qlra.
  - intros H. pose proof (H (Pt (min_x a) (min_y a))) as H1. pose proof (H (Pt (max_x a) (max_y a))) as H2.
    cbn in H1, H2. destruct H1 as (X1 & X2 & X3 & X4); [repeat split; qlra|].
    destruct H2 as (Y1 & Y2 & Y3 & Y4); [repeat split; qlra|]. repeat split; assumption.
Qed.

Definition half (a b : Qc) : Qc := (a + b) * / (1 + 1).
Lemma half_eq : forall a b, half a b * (1 + 1) = a + b.
Proof. intros a b. unfold half. field. discriminate. Qed.

(** Two overlapping intervals with interior have a common interior point. *)
Lemma interval_mid : forall a b c d : Qc, a < b -> c < d -> a < d -> c < b ->
  exists x, a < x /\ x < b /\ c < x /\ x < d.
Proof.
  intros a b c d H1 H2 H3 H4.
  exists (half (Qc_max a c) (Qc_min b d)). pose proof (half_eq (Qc_max a c) (Qc_min b d)) as E.
  remember (half (Qc_max a c) (Qc_min b d)) as h. clear Heqh.
  unfold Qc_max, Qc_min in E. destruct (Qc_ltb_spec a c), (Qc_ltb_spec d b); repeat split; qlra.
Qed.

Theorem touches_with_points : forall a b, solid_box a -> solid_box b ->
  (touches_with a b = true <->
   (exists p, in_box p a /\ in_box p b) /\ forall p, ~ (inside_box p a /\ inside_box p b)).
Proof.
  intros a b [A1 A2] [B1 B2].
  rewrite <- (intersects_with_points a b) by (split; qlra).
  unfold touches_with, intersects_with. btrue. split.
  - intros H. assert (X : (min_x a = max_x b \/ max_x a = min_x b \/ min_y a = max_y b \/ min_y b = max_y a)) by tauto.
    split.
    + destruct H as [[[H|H] [J K]]|[[J K] [H|H]]]; repeat split; qlra.
    + intros p [(P1 & P2 & P3 & P4) (Q1 & Q2 & Q3 & Q4)]. destruct X as [X|[X|[X|X]]]; qlra.
  - intros [[[[H1 H2] H3] H4] N].
    destruct (Qc_eq_dec (min_x a) (max_x b)) as [E1|E1]; [left; auto|].
    destruct (Qc_eq_dec (max_x a) (min_x b)) as [E2|E2]; [left; auto|].
    destruct (Qc_eq_dec (min_y a) (max_y b)) as [E3|E3]; [right; auto|].
    destruct (Qc_eq_dec (min_y b) (max_y a)) as [E4|E4]; [right; auto|].
    exfalso.
    assert (L1 : min_x a < max_x b) by (apply Qcle_lt_or_eq in H2; destruct H2; [assumption|contradiction]).
    assert (L2 : min_x b < max_x a) by (apply Qcle_lt_or_eq in H1; destruct H1 as [H1|H1]; [assumption|elim E2; auto]).
    assert (L3 : min_y a < max_y b) by (apply Qcle_lt_or_eq in H4; destruct H4; [assumption|contradiction]).
    assert (L4 : min_y b < max_y a) by (apply Qcle_lt_or_eq in H3; destruct H3; [assumption|contradiction]).
    destruct (interval_mid _ _ _ _ A1 B1 L1 L2) as (x & X1 & X2 & X3 & X4).
    destruct (interval_mid _ _ _ _ A2 B2 L3 L4) as (y & Y1 & Y2 & Y3 & Y4).
    apply (N (Pt x y)). unfold inside_box. cbn. auto 10.
Qed.

Theorem coupled_with_sound : forall a b, wf_box a -> wf_box b ->
  many (fun p => in_box p a /\ in_box p b) -> coupled_with a b = true.
Proof.
  intros a b [A1 A2] [B1 B2] (p & q & N & [(P1 & P2 & P3 & P4) (P5 & P6 & P7 & P8)]
    & [(Q1 & Q2 & Q3 & Q4) (Q5 & Q6 & Q7 & Q8)]).
  unfold coupled_with. apply andb_true_intro. split.
  - unfold intersects_with. btrue. repeat split; qlra.
  - destruct (touches_with a b) eqn:T; [|reflexivity]. cbn.
    unfold touches_with in T. unfold edges_overlap_with. btrue. btrue_in T.
    destruct (Qc_eq_dec (px p) (px q)) as [E|E].
    + assert (F : py p <> py q) by (intro F; apply N, pt_ext; assumption).
      assert (Y1 : min_y a < max_y b) by (destruct (Qc_lt_total (py p) (py q)) as [J|[J|J]]; [qlra|contradiction|qlra]).
      assert (Y2 : min_y b < max_y a) by (destruct (Qc_lt_total (py p) (py q)) as [J|[J|J]]; [qlra|contradiction|qlra]).
      left. split; [|auto]. destruct T as [[T _]|[_ [T|T]]]; [exact T|exfalso; qlra|exfalso; qlra].
    + assert (Y1 : min_x a < max_x b) by (destruct (Qc_lt_total (px p) (px q)) as [J|[J|J]]; [qlra|contradiction|qlra]).
      assert (Y2 : min_x b < max_x a) by (destruct (Qc_lt_total (px p) (px q)) as [J|[J|J]]; [qlra|contradiction|qlra]).
      right. split; [auto|]. destruct T as [[[T|T] _]|[_ T]]; [exfalso; qlra|exfalso; qlra|exact T].
Qed.

Lemma interval_two : forall a b c d : Qc, a < b -> c < d -> a < d -> c < b ->
  exists x y, x < y /\ a <= x /\ x <= b /\ c <= x /\ x <= d /\ a <= y /\ y <= b /\ c <= y /\ y <= d.
Proof.
  intros a b c d H1 H2 H3 H4. exists (Qc_max a c), (Qc_min b d).
  unfold Qc_max, Qc_min. destruct (Qc_ltb_spec a c), (Qc_ltb_spec d b); repeat split; qlra.
Qed.

Theorem coupled_with_points : forall a b, solid_box a -> solid_box b ->
  (coupled_with a b = true <-> many (fun p => in_box p a /\ in_box p b)).
Proof.
  intros a b [A1 A2] [B1 B2]. split; [|apply coupled_with_sound; split; qlra].
  unfold coupled_with. btrue. intros [I H].
  unfold intersects_with in I. btrue_in I. destruct I as [[[I1 I2] I3] I4].
  assert (X : (min_x a < max_x b /\ min_x b < max_x a) \/ (min_y a < max_y b /\ min_y b < max_y a)).
  { destruct H as [T|E].
    - left. destruct (Qc_eq_dec (min_x a) (max_x b)) as [E1|E1].
      { exfalso. assert (touches_with a b = true); [|congruence]. unfold touches_with. btrue. auto. }
      destruct (Qc_eq_dec (max_x a) (min_x b)) as [E2|E2].
      { exfalso. assert (touches_with a b = true); [|congruence]. unfold touches_with. btrue. auto. }
      split; [apply Qcle_lt_or_eq in I2; destruct I2; [assumption|contradiction]|].
      apply Qcle_lt_or_eq in I1; destruct I1 as [I1|I1]; [assumption|elim E2; auto].
    - unfold edges_overlap_with in E. btrue_in E. destruct E as [[_ E]|[E _]]; [right|left]; exact E. }
  destruct X as [[X1 X2]|[X1 X2]].
  - destruct (interval_two _ _ _ _ A1 B1 X1 X2) as (x & y & L & K).
    exists (Pt x (Qc_max (min_y a) (min_y b))), (Pt y (Qc_max (min_y a) (min_y b))).
    split; [intro J; injection J as J; qlra|]. unfold in_box; cbn. unfold Qc_max.
    destruct (Qc_ltb_spec (min_y a) (min_y b)); repeat split; qlra.
  - destruct (interval_two _ _ _ _ A2 B2 X1 X2) as (x & y & L & K).
    exists (Pt (Qc_max (min_x a) (min_x b)) x), (Pt (Qc_max (min_x a) (min_x b)) y).
    split; [intro J; injection J as J; qlra|]. unfold in_box; cbn. unfold Qc_max.
    destruct (Qc_ltb_spec (min_x a) (min_x b)); repeat split; qlra.
Qed.

Theorem edges_overlap_with_points : forall a b, solid_box a -> solid_box b ->
  (edges_overlap_with a b = true <->
   many (fun p => in_box p a /\ in_box p b) /\ forall p, ~ (inside_box p a /\ inside_box p b)).
Proof.
  intros a b SA SB. assert (SA' := SA). assert (SB' := SB). destruct SA' as [A1 A2], SB' as [B1 B2].
  assert (E2T : edges_overlap_with a b = true -> touches_with a b = true).
  { unfold edges_overlap_with, touches_with. btrue. intros [[H [J K]]|[[J K] H]]; [left|right]; repeat split; auto; qlra. }
  assert (E2I : edges_overlap_with a b = true -> intersects_with a b = true).
  { intro E. apply (intersects_with_points a b); [split; qlra|split; qlra|].
    apply touches_with_points in E2T; auto. apply E2T. }
  split.
  - intro E. split.
    + apply coupled_with_points; auto. unfold coupled_with. rewrite E, (E2I E), orb_true_r. reflexivity.
    + pose proof (E2T E) as T. apply touches_with_points in T; auto. apply T.
  - intros [M N]. assert (T : touches_with a b = true).
    { apply touches_with_points; auto. split; [|exact N]. destruct M as (p & _ & _ & Hp & _). exists p. exact Hp. }
    apply coupled_with_points in M; auto. unfold coupled_with in M. rewrite T in M. cbn in M.
    apply andb_true_iff in M. apply M.
Qed.

(** ** Segments and boxes *)
Lemma segment_box_wf : forall s, wf_box (segment_box s).
Proof. intros s. split; cbn; unfold Qc_min, Qc_max; breflect; qlra. Qed.

Lemma on_segment_box : forall p s, on_segment p s -> in_box p (segment_box s).
Proof.
  intros p s (t & T0 & T1 & X & Y). unfold in_box. cbn. rewrite X, Y.
  unfold Qc_min, Qc_max. breflect; repeat split; qnra.
Qed.

Lemma segment_box_subset : forall s b,
  is_subset_of (segment_box s) b = true <-> in_box (s_start s) b /\ in_box (s_end s) b.
Proof.
  intros s b. unfold is_subset_of, in_box. cbn. btrue. rewrite !Qc_max_le, !Qc_min_ge. tauto.
Qed.

Lemma in_box_convex : forall s b, in_box (s_start s) b -> in_box (s_end s) b ->
  forall p, on_segment p s -> in_box p b.
Proof.
  intros s b (A1 & A2 & A3 & A4) (B1 & B2 & B3 & B4) p (t & T0 & T1 & X & Y).
  unfold in_box. rewrite X, Y. repeat split; qnra.
Qed.

Lemma edges_vertices_in : forall b, wf_box b -> forall e, In e (to_edges b) -> in_box (s_start e) b /\ in_box (s_end e) b.
Proof.
  intros b [W1 W2] e He. cbn in He. destruct He as [<-|[<-|[<-|[<-|[]]]]]; unfold in_box; cbn; repeat split; qlra.
Qed.
Lemma edges_in : forall b, wf_box b -> forall e p, In e (to_edges b) -> on_segment p e -> in_box p b.
Proof.
  intros b W e p He Hp. destruct (edges_vertices_in b W e He) as [A B]. exact (in_box_convex e b A B p Hp).
Qed.

Lemma on_horizontal : forall x0 x1 y p, x0 <= px p -> px p <= x1 -> py p = y -> on_segment p (Seg (Pt x0 y) (Pt x1 y)).
Proof.
  intros x0 x1 y p H1 H2 H3. unfold on_segment. cbn.
  destruct (Qc_eq_dec x0 x1) as [E|E].
  - exists 0. subst x1. repeat split; try qlra.
  - assert (N : x1 - x0 <> 0) by (intro; apply E; qlra).
    assert (Q : (px p - x0) / (x1 - x0) * (x1 - x0) = px p - x0) by (field; exact N).
    assert (D : 0 < x1 - x0) by (destruct (Qc_lt_total x0 x1) as [J|[J|J]]; [qlra|contradiction|qlra]).
    exists ((px p - x0) / (x1 - x0)). set (t := (px p - x0) / (x1 - x0)) in *.
    split; [destruct (Qclt_le_dec t 0); [exfalso; qnra|assumption]|].
    split; [destruct (Qclt_le_dec 1 t); [exfalso; qnra|assumption]|]. split; [rewrite Q; qring|rewrite H3; qring].
Qed.
Lemma on_vertical : forall y0 y1 x p, y0 <= py p -> py p <= y1 -> px p = x -> on_segment p (Seg (Pt x y0) (Pt x y1)).
Proof.
  intros x0 x1 y p H1 H2 H3. unfold on_segment. cbn.
  destruct (Qc_eq_dec x0 x1) as [E|E].
  - exists 0. subst x1. repeat split; try qlra.
  - assert (N : x1 - x0 <> 0) by (intro; apply E; qlra).
    assert (Q : (py p - x0) / (x1 - x0) * (x1 - x0) = py p - x0) by (field; exact N).
    assert (D : 0 < x1 - x0) by (destruct (Qc_lt_total x0 x1) as [J|[J|J]]; [qlra|contradiction|qlra]).
    exists ((py p - x0) / (x1 - x0)). set (t := (py p - x0) / (x1 - x0)) in *.
    split; [destruct (Qclt_le_dec t 0); [exfalso; qnra|assumption]|].
    split; [destruct (Qclt_le_dec 1 t); [exfalso; qnra|assumption]|]. split; [rewrite H3; qring|rewrite Q; qring].
Qed.

Lemma boundary_edge : forall b p, in_box p b ->
  px p = min_x b \/ px p = max_x b \/ py p = min_y b \/ py p = max_y b ->
  exists e, In e (to_edges b) /\ on_segment p e.
Proof.
  intros b p (A1 & A2 & A3 & A4) [H|[H|[H|H]]].
  - exists (Seg (Pt (min_x b) (min_y b)) (Pt (min_x b) (max_y b))). split; [cbn; auto|apply on_vertical; auto].
  - exists (Seg (Pt (max_x b) (min_y b)) (Pt (max_x b) (max_y b))). split; [cbn; auto|apply on_vertical; auto].
  - exists (Seg (Pt (min_x b) (min_y b)) (Pt (max_x b) (min_y b))). split; [cbn; auto|apply on_horizontal; auto].
  - exists (Seg (Pt (min_x b) (max_y b)) (Pt (max_x b) (max_y b))). split; [cbn; auto|apply on_horizontal; auto].
Qed.

(** First zero of a finite set of affine functions that are not negative at zero. *)
Lemma first_exit : forall l : list (Qc * Qc), (forall u v, In (u, v) l -> 0 <= v) ->
  exists m, 0 <= m /\ m <= 1 /\ (forall u v, In (u, v) l -> 0 <= u * m + v)
    /\ (m = 1 \/ exists u v, In (u, v) l /\ u * m + v = 0).
Proof.
  induction l as [|[u v] l IH]; intros H.
  - exists 1. split; [qlra|]. split; [apply Qcle_refl|]. split; [intros u v []|auto].
  - destruct IH as (m & M0 & M1 & M2 & M3); [intros; apply (H u0 v0); cbn; auto|].
    destruct (Qclt_le_dec (u * m + v) 0) as [J|J].
    + pose proof (H u v (or_introl eq_refl)) as V.
      assert (U : u < 0) by (destruct (Qclt_le_dec u 0); [assumption|exfalso; qnra]).
      assert (N : u <> 0) by (intro E; rewrite E in U; qlra).
      assert (E : u * (- v / u) + v = 0) by (field; exact N).
      set (r := - v / u) in *.
      assert (R0 : 0 <= r) by (destruct (Qclt_le_dec r 0); [exfalso; qnra|assumption]).
      assert (R1 : r <= m) by (destruct (Qclt_le_dec m r); [exfalso; qnra|assumption]).
      exists r. split; [exact R0|]. split; [qlra|]. split.
      * intros u' v' [I|I]; [injection I as <- <-; rewrite E; apply Qcle_refl|].
        pose proof (M2 u' v' I) as A. pose proof (H u' v' (or_intror I)) as B.
        destruct (Qclt_le_dec u' 0); [assert (0 <= (- u') * (m - r)) by (apply Qcmult_le_0_compat; qlra); qlra
          |assert (0 <= u' * r) by (apply Qcmult_le_0_compat; qlra); qlra].
      * right. exists u, v. split; [cbn; auto|exact E].
    + exists m. split; [exact M0|]. split; [exact M1|]. split.
      * intros u' v' [I|I]; [injection I as <- <-; exact J|auto].
      * destruct M3 as [M3|(u' & v' & I & E)]; [auto|right; exists u', v'; cbn; auto].
Qed.

(** Going from a point of the box to a point out of it one meets an edge. *)
Lemma exit_edge : forall b p q, in_box p b -> ~ in_box q b ->
  exists x, in_box x b /\ (exists m, 0 <= m /\ m <= 1 /\ x = toward p q m)
    /\ (px x = min_x b \/ px x = max_x b \/ py x = min_y b \/ py x = max_y b).
Proof.
  intros b p q (P1 & P2 & P3 & P4) N.
  destruct (first_exit [(px q - px p, px p - min_x b); (- (px q - px p), max_x b - px p);
                        (py q - py p, py p - min_y b); (- (py q - py p), max_y b - py p)])
    as (m & M0 & M1 & M2 & M3).
  { intros u v [I|[I|[I|[I|[]]]]]; injection I as <- <-; qlra. }
  assert (IB : in_box (toward p q m) b).
  { unfold in_box, toward. cbn.
    pose proof (M2 _ _ (or_introl eq_refl)) as X1.
    pose proof (M2 _ _ (or_intror (or_introl eq_refl))) as X2.
    pose proof (M2 _ _ (or_intror (or_intror (or_introl eq_refl)))) as X3.
    pose proof (M2 _ _ (or_intror (or_intror (or_intror (or_introl eq_refl))))) as X4.
    repeat split; qlra. }
  exists (toward p q m). split; [exact IB|]. split; [exists m; auto|].
  destruct M3 as [->|(u & v & I & E)].
  - exfalso. apply N. assert (T : toward p q 1 = q) by (apply pt_ext; unfold toward; cbn; qring).
    rewrite <- T. exact IB.
  - unfold toward. cbn.
    destruct I as [I|[I|[I|[I|[]]]]]; injection I as <- <-; [left|right; left|right; right; left|right; right; right]; qlra.
Qed.

Lemma toward_on2 : forall p q s m, on_segment p s -> on_segment q s -> 0 <= m -> m <= 1 -> on_segment (toward p q m) s.
Proof.
  intros p q s m (t & T0 & T1 & X & Y) (t' & T0' & T1' & X' & Y') M0 M1.
  exists (t + m * (t' - t)). unfold toward. cbn. rewrite X, Y, X', Y'.
  repeat split; try qring; qnra.
Qed.

Lemma relation_disjoint_iff : forall e s, proper e -> proper s ->
  (segments_relation e s = DISJOINT <-> forall q, ~ common e s q).
Proof.
  intros e s Pe Ps. destruct (pair_case_spec e s Pe Ps) as [E1 E2 O|? ? F H1 H2 H3 O|? ? F H1 H2 H3 O
    |? ? F H1 H2 H3 O|? ? F H1 H2 H3 O|x K U E I1 I2|x K U J1 J2 I1 I2|U]; split; try discriminate; auto;
    intro N; exfalso; try (destruct O as (p & q & _ & A & B & _); apply (N p); split; assumption);
    apply (N x K).
Qed.

Lemma in_box_dec : forall p b, in_box p b \/ ~ in_box p b.
Proof.
  intros p b. unfold in_box.
  destruct (Qclt_le_dec (px p) (min_x b)) as [H|H1]; [right; intros (X & _); qlra|].
  destruct (Qclt_le_dec (max_x b) (px p)) as [H|H2]; [right; intros (_ & X & _); qlra|].
  destruct (Qclt_le_dec (py p) (min_y b)) as [H|H3]; [right; intros (_ & _ & X & _); qlra|].
  destruct (Qclt_le_dec (max_y b) (py p)) as [H|H4]; [right; intros (_ & _ & _ & X); qlra|].
  left. auto.
Qed.

(** The relation of a degenerate edge (of a flat box) with a segment. *)
Lemma relation_point : forall p s, proper s ->
  (segments_relation (Seg p p) s = DISJOINT <-> ~ on_segment p s).
Proof.
  intros p s P. rewrite (on_segment_norm s). set (g := seg_lo s). set (h := seg_hi s).
  assert (L : plt g h) by (apply seg_lo_lt_hi; exact P).
  rewrite (on_segment_lex g h p L).
  assert (E : seg_lo (Seg p p) = p /\ seg_hi (Seg p p) = p)
    by (unfold seg_lo, seg_hi; cbn; destruct (pt_ltb p p); auto).
  destruct E as [E1 E2]. unfold segments_relation. rewrite E1, E2. fold g h.
  destruct (pt_eqb p g && pt_eqb p h) eqn:Q.
  { apply andb_true_iff in Q. rewrite !pt_eqb_eq in Q. destruct Q as [Q1 Q2].
    exfalso. apply (plt_irrefl g). rewrite <- Q1 at 2. rewrite Q2. exact L. }
  destruct (orient g h p) eqn:O; unfold orient in O;
    (destruct (Qc_ltb_spec (cross g h p) 0) as [C1|C1]; [|destruct (Qc_ltb_spec 0 (cross g h p)) as [C2|C2]]);
    try discriminate.
  - cbn. split; [intros _ (C & _); rewrite C in C1; qlra|reflexivity].
  - assert (C : cross g h p = 0) by qlra.
    destruct (pt_ltb_spec p g) as [A|A]; [cbn; split; [intros _ (_ & Z & _); exact (Z A)|reflexivity]|].
    destruct (pt_ltb_spec h p) as [B|B]; [cbn; split; [intros _ (_ & _ & Z); exact (Z B)|reflexivity]|].
    cbn [orb]. split.
    + destruct (pt_eqb p g || pt_eqb h p); [discriminate|].
      destruct (pt_leb g p && pt_leb p h); [discriminate|].
      destruct (pt_leb p g && pt_leb h p); discriminate.
    + intro N. exfalso. apply N. auto.
  - cbn. split; [intros _ (C & _); rewrite C in C2; qlra|reflexivity].
Qed.

Lemma edge_relation_common : forall e s, proper s -> segments_relation e s <> DISJOINT -> exists q, common e s q.
Proof.
  intros e s Ps R. destruct (pt_eqb_spec (s_start e) (s_end e)) as [E|E].
  - destruct e as [a b]. cbn in E. subst b. exists a. split; [apply (on_segment_start (Seg a a))|].
    destruct (on_segment_dec a s) as [H|H]; [exact H|]. elim R. apply relation_point; assumption.
  - destruct (pair_case_spec e s E Ps) as [E1 E2 O|? ? F H1 H2 H3 O|? ? F H1 H2 H3 O
    |? ? F H1 H2 H3 O|? ? F H1 H2 H3 O|x K U E' I1 I2|x K U J1 J2 I1 I2|U];
      try (destruct O as (p & q & _ & A & B & _); exists p; split; assumption);
      try (exists x; exact K). congruence.
Qed.

Lemma edge_relation_disjoint : forall e s, proper s ->
  (segments_relation e s = DISJOINT <-> forall q, ~ common e s q).
Proof.
  intros e s Ps. destruct (pt_eqb_spec (s_start e) (s_end e)) as [E|E].
  - destruct e as [a b]. cbn in E. subst b. rewrite relation_point by exact Ps. split.
    + intros N q [(t & _ & _ & X & Y) B]. cbn in X, Y. apply N.
      assert (Q : q = a) by (apply pt_ext; [rewrite X|rewrite Y]; qring). rewrite <- Q. exact B.
    + intros N B. apply (N a). split; [apply (on_segment_start (Seg a a))|exact B].
  - apply relation_disjoint_iff; assumption.
Qed.

Theorem intersects_with_segment_points : forall b s, wf_box b -> proper s ->
  (intersects_with_segment b s = true <-> exists p, in_box p b /\ on_segment p s).
Proof.
  intros b s W P. unfold intersects_with_segment. rewrite andb_true_iff, orb_true_iff. split.
  - intros [_ [H|H]].
    + apply segment_box_subset in H. exists (s_start s). split; [apply H|apply on_segment_start].
    + apply existsb_exists in H. destruct H as (e & He & R).
      destruct (edge_relation_common e s P) as (q & A & B); [intro Z; rewrite Z in R; discriminate|].
      exists q. split; [apply (edges_in b W e); assumption|exact B].
  - intros (p & A & B). split.
    + apply intersects_with_points; [apply segment_box_wf|exact W|].
      exists p. split; [apply on_segment_box; exact B|exact A].
    + destruct (in_box_dec (s_start s) b) as [I1|I1]; [destruct (in_box_dec (s_end s) b) as [I2|I2]|].
      * left. apply segment_box_subset. auto.
      * right. destruct (exit_edge b p (s_end s) A I2) as (x & X1 & (m & M0 & M1 & ->) & X2).
        destruct (boundary_edge b _ X1 X2) as (e & E1 & E2).
        apply existsb_exists. exists e. split; [exact E1|].
        destruct (relation_eqb (segments_relation e s) DISJOINT) eqn:R; [exfalso|reflexivity].
        assert (R' : segments_relation e s = DISJOINT) by (destruct (segments_relation e s); try discriminate; reflexivity).
        apply (proj1 (edge_relation_disjoint e s P) R' (toward p (s_end s) m)). split; [exact E2|].
        apply toward_on2; auto. apply on_segment_end.
      * right. destruct (exit_edge b p (s_start s) A I1) as (x & X1 & (m & M0 & M1 & ->) & X2).
        destruct (boundary_edge b _ X1 X2) as (e & E1 & E2).
        apply existsb_exists. exists e. split; [exact E1|].
        destruct (relation_eqb (segments_relation e s) DISJOINT) eqn:R; [exfalso|reflexivity].
        assert (R' : segments_relation e s = DISJOINT) by (destruct (segments_relation e s); try discriminate; reflexivity).
        apply (proj1 (edge_relation_disjoint e s P) R' (toward p (s_start s) m)). split; [exact E2|].
        apply toward_on2; auto. apply on_segment_start.
Qed.

Lemma split_filter : forall b ss, split_intersecting_segments b ss
  = (filter (fun s => negb (intersects_with_segment b s)) ss, filter (intersects_with_segment b) ss).
Proof.
  intros b ss. unfold split_intersecting_segments.
  assert (G : forall ss o i, fold_left (fun '(out, inn) s =>
    if intersects_with_segment b s then (out, inn ++ [s]) else (out ++ [s], inn)) ss (o, i)
    = (o ++ filter (fun s => negb (intersects_with_segment b s)) ss, i ++ filter (intersects_with_segment b) ss)).
  { intros l. induction l as [|s l IH]; intros o i; cbn.
    - rewrite !app_nil_r. reflexivity.
    - destruct (intersects_with_segment b s); rewrite IH; cbn; rewrite <- app_assoc; reflexivity. }
  rewrite G. reflexivity.
Qed.

(** A point inside of both an edge of the box and the segment is noticed. *)
Lemma edge_inside : forall e s x, proper e -> proper s -> inside_segment x e -> inside_segment x s ->
  negb (relation_eqb (segments_relation e s) TOUCH || relation_eqb (segments_relation e s) DISJOINT) = true.
Proof.
  intros e s x Pe Ps (E0 & E1 & E2) (S0 & S1 & S2).
  destruct (pair_case_spec e s Pe Ps) as [E1' E2' O|? ? F H1 H2 H3 O|? ? F H1 H2 H3 O
    |? ? F H1 H2 H3 O|? ? F H1 H2 H3 O|y K U E I1 I2|y K U J1 J2 I1 I2|U]; try reflexivity; exfalso.
  - assert (Y : x = y) by (apply U; split; assumption). rewrite <- Y in E. destruct E as [E|[E|[E|E]]]; contradiction.
  - apply (U x). split; assumption.
Qed.
Lemma overlap_inside : forall a b, overlap a b -> exists x, inside_segment x a /\ inside_segment x b.
Proof.
  intros a b (p & q & N & A & B & C & D). destruct (midpoint_inside (Seg p q) N) as (m & M).
  exists m. split; [exact (between_inside a p q m N A C M)|exact (between_inside b p q m N B D M)].
Qed.
Lemma inside_edge : forall e s, proper e -> proper s ->
  negb (relation_eqb (segments_relation e s) TOUCH || relation_eqb (segments_relation e s) DISJOINT) = true ->
  exists x, inside_segment x e /\ inside_segment x s.
Proof.
  intros e s Pe Ps. destruct (pair_case_spec e s Pe Ps) as [E1' E2' O|? ? F H1 H2 H3 O|? ? F H1 H2 H3 O
    |? ? F H1 H2 H3 O|? ? F H1 H2 H3 O|y K U E I1 I2|y K U J1 J2 I1 I2|U]; intro R; try (apply overlap_inside; exact O); try discriminate R.
  exists y. split; assumption.
Qed.

Theorem coupled_with_segment_kept : forall b s, wf_box b -> proper s ->
  many (fun p => in_box p b /\ on_segment p s) -> box_friendly b s -> coupled_with_segment b s = true.
Proof.
  intros b s W P M G. unfold coupled_with_segment. rewrite andb_true_iff, orb_true_iff. split.
  - apply coupled_with_sound; [apply segment_box_wf|exact W|].
    destruct M as (p & q & N & [A B] & [C D]). exists p, q. auto using on_segment_box.
  - destruct G as [G|(x & (X1 & X2) & G1 & G2)].
    + left. apply segment_box_subset. split; apply G; [apply on_segment_start|apply on_segment_end].
    + right. assert (X2' : px x = min_x b \/ px x = max_x b \/ py x = min_y b \/ py x = max_y b).
      { destruct X1 as (A1 & A2 & A3 & A4).
        destruct (Qcle_lt_or_eq _ _ A1) as [K1|K1]; [|left; congruence]. destruct (Qcle_lt_or_eq _ _ A2) as [K2|K2]; [|right; left; congruence].
        destruct (Qcle_lt_or_eq _ _ A3) as [K3|K3]; [|right; right; left; congruence]. destruct (Qcle_lt_or_eq _ _ A4) as [K4|K4]; [|right; right; right; congruence].
        exfalso. apply X2. unfold inside_box. repeat split; assumption. }
      destruct (boundary_edge b x X1 X2') as (e & E1 & E2).
      apply existsb_exists. exists e. split; [exact E1|].
      assert (NE : x <> s_start e /\ x <> s_end e).
      { split; intro J; apply G1; rewrite J; unfold corner; cbn in E1;
          destruct E1 as [<-|[<-|[<-|[<-|[]]]]]; cbn; auto. }
      assert (Pe : proper e).
      { intro J. destruct e as [a c]. cbn in J, NE. subst c. destruct E2 as (t & _ & _ & Z1 & Z2). cbn in Z1, Z2.
        apply (proj1 NE). apply pt_ext; [rewrite Z1|rewrite Z2]; qring. }
      apply (edge_inside e s x Pe P); [|exact G2]. split; [exact E2|exact NE].
Qed.
(** For boxes with interior the condition is exact. *)
Theorem coupled_with_segment_exact : forall b s, solid_box b -> proper s ->
  many (fun p => in_box p b /\ on_segment p s) -> (coupled_with_segment b s = true <-> box_friendly b s).
Proof.
  intros b s W P M. assert (W' : wf_box b) by (destruct W; split; qlra).
  split; [|exact (coupled_with_segment_kept b s W' P M)].
  unfold coupled_with_segment. rewrite andb_true_iff, orb_true_iff. intros (_ & [K|K]).
  - left. apply segment_box_subset in K. destruct K. apply in_box_convex; assumption.
  - right. apply existsb_exists in K. destruct K as (e & He & Hr).
    assert (Pe : proper e).
    { destruct W as (W1 & W2). cbn in He. destruct He as [<-|[<-|[<-|[<-|[]]]]]; unfold proper; cbn; intro E;
        pose proof (f_equal px E) as Ex; pose proof (f_equal py E) as Ey; cbn in Ex, Ey; qlra. }
    destruct (inside_edge e s Pe P Hr) as (x & X1 & X2). exists x. pose proof (edges_in b W' e x He (proj1 X1)) as Bx.
    split; [|split; [|exact X2]].
    + split; [exact Bx|]. intros (Y1 & Y2 & Y3 & Y4). destruct X1 as ((t & _ & _ & Ex & Ey) & _).
      cbn in He. destruct He as [<-|[<-|[<-|[<-|[]]]]]; cbn in Ex, Ey; qlra.
    + intro C. destruct X1 as ((t & _ & _ & Ex & Ey) & N1 & N2). destruct W as (W1 & W2).
      cbn in He. destruct He as [<-|[<-|[<-|[<-|[]]]]]; cbn in Ex, Ey, N1, N2; destruct C as ([C1|C1] & [C2|C2]);
        solve [apply N1; apply pt_ext; cbn; qlra|apply N2; apply pt_ext; cbn; qlra].
Qed.

