(** Correctness of the two-segment operations. *)
From Coq Require Import Lqa Permutation Sorting.Sorted.
From Verif Require Import QcTac Geom Spec GeomFacts Relation SortFacts Pair PairFacts.

Lemma pairwise_nil : forall A (R : A -> A -> Prop), pairwise R [].
Proof. intros A R [|i] j x y _ H; discriminate. Qed.
Lemma pairwise_cons : forall A (R : A -> A -> Prop) x l,
  pairwise R (x :: l) <-> (forall y, In y l -> R x y /\ R y x) /\ pairwise R l.
Proof.
  intros A R x l. split.
  - intro H. split.
    + intros y Hy. apply In_nth_error in Hy. destruct Hy as [n Hn].
      split; [apply (H 0%nat (S n))|apply (H (S n) 0%nat)]; auto.
    + intros i j a b Hij Ha Hb. apply (H (S i) (S j)); auto.
  - intros [H1 H2] i j a b Hij Ha Hb. destruct i as [|i], j as [|j]; cbn in Ha, Hb.
    + contradiction.
    + injection Ha as <-. apply nth_error_In in Hb. apply H1; exact Hb.
    + injection Hb as <-. apply nth_error_In in Ha. apply H1; exact Ha.
    + apply (H2 i j); auto.
Qed.
Lemma pairwise_sing : forall A (R : A -> A -> Prop) x, pairwise R [x].
Proof. intros. apply pairwise_cons. split; [intros y []|apply pairwise_nil]. Qed.

Definition clean (a b : segment) : Prop := ~ overlap a b /\ ~ crosses a b.
Lemma clean_sym : forall a b, clean a b -> clean b a.
Proof. intros a b [H J]. split; intro K; [apply H, overlap_sym, K|apply J, crosses_sym, K]. Qed.
Lemma pairwise_cons_sym : forall A (R : A -> A -> Prop) x l, (forall a b, R a b -> R b a) ->
  (pairwise R (x :: l) <-> (forall y, In y l -> R x y) /\ pairwise R l).
Proof. intros A R x l Hs. rewrite pairwise_cons. firstorder. Qed.

Lemma clean_none : forall s1 s2, (forall q, ~ common s1 s2 q) -> clean s1 s2.
Proof.
  intros s1 s2 H. split; [apply no_overlap_none; exact H|].
  intros (_ & p & [A _] & [B _]). apply (H p). split; assumption.
Qed.
Lemma clean_touch : forall s1 s2 p, (forall q, common s1 s2 q -> q = p) ->
  (p = s_start s1 \/ p = s_end s1 \/ p = s_start s2 \/ p = s_end s2) -> clean s1 s2.
Proof.
  intros s1 s2 p H E. split; [apply (no_overlap_unique _ _ p H)|].
  intros (_ & q & (A & A1 & A2) & (B & B1 & B2)).
  assert (q = p) by (apply H; split; assumption). subst q. intuition.
Qed.

Lemma overlap_two : forall s1 s2 p q, common s1 s2 p -> common s1 s2 q -> p <> q -> overlap s1 s2.
Proof. intros s1 s2 p q [A B] [C D] N. exists p, q. auto 10. Qed.

(** ** Splitting a segment at an interior point *)
Lemma split_lt : forall a x b, plt a x -> plt x b -> on_segment x (Seg a b) ->
  (forall p, on_segment p (Seg a b) <-> on_segment p (Seg a x) \/ on_segment p (Seg x b))
  /\ (forall p, on_segment p (Seg a x) -> on_segment p (Seg x b) -> p = x).
Proof.
  intros a x b H1 H2 Hx.
  destruct (shear_exists [a; x; b]) as (e & He & Hs).
  assert (P1 : pos e a < pos e x) by (apply Hs; cbn; auto).
  assert (P2 : pos e x < pos e b) by (apply Hs; cbn; auto).
  assert (P3 : pos e a < pos e b) by qlra.
  pose proof (proj1 (on_segment_sheared e a b x P3) Hx) as (_ & _ & Hy).
  assert (La : forall t, line_at e a x t = line_at e a b t).
  { intro t. apply line_collinear; [exact P3|intro; qlra|unfold cross; ring|].
    rewrite (cross_line e) by (intro; qlra). rewrite Hy. ring. }
  assert (Lb : forall t, line_at e x b t = line_at e a b t).
  { intro t. apply line_collinear; [exact P3|intro; qlra| |unfold cross; ring].
    rewrite (cross_line e) by (intro; qlra). rewrite Hy. ring. }
  split; intro p; rewrite ?(on_segment_sheared e a b p P3), (on_segment_sheared e a x p P1),
    (on_segment_sheared e x b p P2), La, Lb.
  - split.
    + intros (A & B & C). destruct (Qclt_le_dec (pos e p) (pos e x)); [left|right];
        repeat split; try assumption; qlra.
    + intros [(A & B & C)|(A & B & C)]; repeat split; try assumption; qlra.
  - intros (A & B & C) (A' & B' & C'). apply (pos_inj e); [qlra|].
    rewrite C, Hy. f_equal. qlra.
Qed.

Lemma split_at : forall s x, proper s -> inside_segment x s ->
  (forall p, on_segment p s <-> on_segment p (Seg (s_start s) x) \/ on_segment p (Seg x (s_end s)))
  /\ (forall p, on_segment p (Seg (s_start s) x) -> on_segment p (Seg x (s_end s)) -> p = x).
Proof.
  intros [a b] x P (Hx & N1 & N2). cbn [s_start s_end] in *.
  destruct (plt_total a b) as [H|[H|H]]; [|exfalso; apply P; exact H|].
  - pose proof (proj1 (on_segment_lex a b x H) Hx) as (_ & A & B).
    apply ple_lt_eq in A, B. apply split_lt; try exact Hx.
    + destruct A as [A|A]; [exact A|congruence].
    + destruct B as [B|B]; [exact B|congruence].
  - apply on_segment_sym in Hx.
    pose proof (proj1 (on_segment_lex b a x H) Hx) as (_ & A & B).
    apply ple_lt_eq in A, B.
    destruct (split_lt b x a) as [S1 S2].
    + destruct A as [A|A]; [exact A|congruence].
    + destruct B as [B|B]; [exact B|congruence].
    + exact Hx.
    + split; intro p.
      * rewrite (on_segment_sym a b), (on_segment_sym a x), (on_segment_sym x b), S1. tauto.
      * rewrite (on_segment_sym a x), (on_segment_sym x b). auto.
Qed.

(** ** Explicit forms of the collinear helpers *)
Lemma pt_eqb_eq : forall p q, pt_eqb p q = true <-> p = q.
Proof. intros. destruct (pt_eqb_spec p q); split; auto; discriminate. Qed.
Lemma pt_eqb_neq : forall p q, pt_eqb p q = false <-> p <> q.
Proof. intros. destruct (pt_eqb_spec p q); split; auto; try discriminate; contradiction. Qed.

Lemma from_ends : forall s p, pt_eqb p (s_start s) || pt_eqb p (s_end s)
   = pt_eqb p (seg_lo s) || pt_eqb p (seg_hi s).
Proof.
  intros s p. destruct (seg_lo_hi s) as [(-> & -> & _)|(-> & -> & _)]; [reflexivity|apply orb_comm].
Qed.

Lemma composite_eq : forall m s, proper m -> proper s ->
  ple (seg_lo m) (seg_lo s) -> ple (seg_hi s) (seg_hi m) ->
  (seg_lo m <> seg_lo s \/ seg_hi m <> seg_hi s) ->
  subtract_segments_composite m s =
    (if pt_eqb (seg_lo m) (seg_lo s) then [] else [Seg (seg_lo m) (seg_lo s)])
    ++ (if pt_eqb (seg_hi s) (seg_hi m) then [] else [Seg (seg_hi s) (seg_hi m)]).
Proof.
  intros m s Pm Ps H1 H2 Hne. unfold subtract_segments_composite.
  pose proof (seg_lo_lt_hi s Ps) as Ls.
  rewrite (sorted4_eq _ _ _ _ (seg_lo m) (seg_lo s) (seg_hi s) (seg_hi m)).
  2: { rewrite (perm4 m s).
       transitivity ([seg_lo m; seg_hi m] ++ [seg_lo s; seg_hi s]); [reflexivity|].
       constructor. cbn. etransitivity; [apply perm_swap|]. constructor. apply perm_swap. }
  2: exact H1. 2: apply plt_ple; exact Ls. 2: exact H2.
  rewrite !from_ends.
  destruct (pt_eqb_spec (seg_lo m) (seg_lo s)) as [E|N]; cbn [orb app].
  - destruct (pt_eqb_spec (seg_hi s) (seg_hi m)) as [E'|N']; [|reflexivity].
    exfalso. destruct Hne; congruence.
  - assert (Nlh : seg_lo m <> seg_hi s).
    { intro J. rewrite J in H1. apply H1. exact Ls. }
    rewrite (proj2 (pt_eqb_neq _ _) Nlh). rewrite !pt_eqb_refl. rewrite orb_true_r. cbn [orb].
    destruct (pt_eqb_spec (seg_hi s) (seg_hi m)); reflexivity.
Qed.

Lemma sub_overlap_eq : forall m s, proper m -> proper s ->
  (plt (seg_lo m) (seg_lo s) /\ plt (seg_lo s) (seg_hi m) /\ plt (seg_hi m) (seg_hi s) ->
   subtract_segments_overlap m s = Seg (seg_lo m) (seg_lo s)
   /\ intersect_segments_overlap m s = Seg (seg_lo s) (seg_hi m)
   /\ symmetric_subtract_segments_overlap m s
      = GMultisegment [Seg (seg_lo m) (seg_lo s); Seg (seg_hi m) (seg_hi s)]
   /\ unite_segments_overlap m s = GSegment (Seg (seg_lo m) (seg_hi s)))
  /\ (plt (seg_lo s) (seg_lo m) /\ plt (seg_lo m) (seg_hi s) /\ plt (seg_hi s) (seg_hi m) ->
   subtract_segments_overlap m s = Seg (seg_hi s) (seg_hi m)
   /\ intersect_segments_overlap m s = Seg (seg_lo m) (seg_hi s)
   /\ symmetric_subtract_segments_overlap m s
      = GMultisegment [Seg (seg_lo s) (seg_lo m); Seg (seg_hi s) (seg_hi m)]
   /\ unite_segments_overlap m s = GSegment (Seg (seg_lo s) (seg_hi m))).
Proof.
  intros m s Pm Ps. split; intros (H1 & H2 & H3);
    unfold subtract_segments_overlap, intersect_segments_overlap,
      symmetric_subtract_segments_overlap, unite_segments_overlap.
  - rewrite (sorted4_eq _ _ _ _ (seg_lo m) (seg_lo s) (seg_hi m) (seg_hi s));
      try (apply plt_ple; assumption).
    2: { rewrite (perm4 m s). constructor. apply perm_swap. }
    rewrite from_ends, pt_eqb_refl. auto.
  - rewrite (sorted4_eq _ _ _ _ (seg_lo s) (seg_lo m) (seg_hi s) (seg_hi m));
      try (apply plt_ple; assumption).
    2: { rewrite (perm4 m s).
         apply (Permutation_trans (l' := [seg_lo m; seg_lo s; seg_hi m; seg_hi s])).
         - constructor. apply perm_swap.
         - etransitivity; [apply perm_swap|]. do 2 constructor. constructor. }
    rewrite from_ends.
    assert (N1 : seg_lo s <> seg_lo m) by (apply plt_neq; exact H1).
    assert (N2 : seg_lo s <> seg_hi m).
    { apply plt_neq. eapply plt_trans; [exact H1|]. eapply plt_trans; eassumption. }
    rewrite (proj2 (pt_eqb_neq _ _) N1), (proj2 (pt_eqb_neq _ _) N2). auto.
Qed.

(** ** Frames: collinear pairs as intervals *)
Record framed (s1 s2 : segment) (e : Qc) (L : Qc -> Qc) : Prop := {
  fr_on : forall u v, In u [seg_lo s1; seg_hi s1; seg_lo s2; seg_hi s2] ->
     In v [seg_lo s1; seg_hi s1; seg_lo s2; seg_hi s2] -> plt u v ->
     forall p, on_segment p (Seg u v) <->
       pos e u <= pos e p /\ pos e p <= pos e v /\ py p = L (pos e p);
  fr_lt : forall u v, In u [seg_lo s1; seg_hi s1; seg_lo s2; seg_hi s2] ->
     In v [seg_lo s1; seg_hi s1; seg_lo s2; seg_hi s2] -> (plt u v <-> pos e u < pos e v);
  fr_le : forall u v, In u [seg_lo s1; seg_hi s1; seg_lo s2; seg_hi s2] ->
     In v [seg_lo s1; seg_hi s1; seg_lo s2; seg_hi s2] -> (ple u v <-> pos e u <= pos e v);
  fr_eq : forall u v, In u [seg_lo s1; seg_hi s1; seg_lo s2; seg_hi s2] ->
     In v [seg_lo s1; seg_hi s1; seg_lo s2; seg_hi s2] -> (u = v <-> pos e u = pos e v);
  fr_y : forall u, In u [seg_lo s1; seg_hi s1; seg_lo s2; seg_hi s2] -> py u = L (pos e u);
  fr_1 : pos e (seg_lo s1) < pos e (seg_hi s1);
  fr_2 : pos e (seg_lo s2) < pos e (seg_hi s2);
  fr_on1 : forall p, on_segment p s1 <->
       pos e (seg_lo s1) <= pos e p /\ pos e p <= pos e (seg_hi s1) /\ py p = L (pos e p);
  fr_on2 : forall p, on_segment p s2 <->
       pos e (seg_lo s2) <= pos e p /\ pos e p <= pos e (seg_hi s2) /\ py p = L (pos e p);
}.

Lemma frame_exists : forall s1 s2, proper s1 -> proper s2 -> collinear4 (norm s1) (norm s2) ->
  exists e L, framed s1 s2 e L.
Proof.
  intros s1 s2 P1 P2 K. destruct (collinear_frame s1 s2 P1 P2 K) as (e & L & Hs & Hf).
  exists e, L.
  pose proof (seg_lo_lt_hi s1 P1) as L1. pose proof (seg_lo_lt_hi s2 P2) as L2.
  constructor.
  - exact Hf.
  - apply sheared_lt; exact Hs.
  - apply sheared_le; exact Hs.
  - apply sheared_eq; exact Hs.
  - intros u [<-|[<-|[<-|[<-|[]]]]].
    + pose proof (on_segment_start (Seg (seg_lo s1) (seg_hi s1))) as H. apply Hf in H; cbn; auto; tauto.
    + pose proof (on_segment_end (Seg (seg_lo s1) (seg_hi s1))) as H. apply Hf in H; cbn; auto; tauto.
    + pose proof (on_segment_start (Seg (seg_lo s2) (seg_hi s2))) as H. apply Hf in H; cbn; auto; tauto.
    + pose proof (on_segment_end (Seg (seg_lo s2) (seg_hi s2))) as H. apply Hf in H; cbn; auto; tauto.
  - apply Hs; cbn; auto.
  - apply Hs; cbn; auto.
  - intro p. rewrite on_segment_norm. apply Hf; cbn; auto.
  - intro p. rewrite on_segment_norm. apply Hf; cbn; auto.
Qed.

Lemma equal_collinear : forall s1 s2, seg_lo s1 = seg_lo s2 -> seg_hi s1 = seg_hi s2 ->
  collinear4 (norm s1) (norm s2).
Proof. intros s1 s2 H1 H2. unfold collinear4, norm; cbn. rewrite H1, H2. split; unfold cross; ring. Qed.

(** Case analysis used for all the pair operations, in interval form. *)
Inductive pair_case (s1 s2 : segment) : relation -> Prop :=
| PC_equal : seg_lo s1 = seg_lo s2 -> seg_hi s1 = seg_hi s2 -> overlap s1 s2 ->
    pair_case s1 s2 EQUAL
| PC_component : forall e L, framed s1 s2 e L ->
    ple (seg_lo s2) (seg_lo s1) -> ple (seg_hi s1) (seg_hi s2) ->
    (seg_lo s2 <> seg_lo s1 \/ seg_hi s2 <> seg_hi s1) -> overlap s1 s2 ->
    pair_case s1 s2 COMPONENT
| PC_composite : forall e L, framed s1 s2 e L ->
    ple (seg_lo s1) (seg_lo s2) -> ple (seg_hi s2) (seg_hi s1) ->
    (seg_lo s1 <> seg_lo s2 \/ seg_hi s1 <> seg_hi s2) -> overlap s1 s2 ->
    pair_case s1 s2 COMPOSITE
| PC_overlap1 : forall e L, framed s1 s2 e L ->
    plt (seg_lo s1) (seg_lo s2) -> plt (seg_lo s2) (seg_hi s1) -> plt (seg_hi s1) (seg_hi s2) ->
    overlap s1 s2 -> pair_case s1 s2 OVERLAP
| PC_overlap2 : forall e L, framed s1 s2 e L ->
    plt (seg_lo s2) (seg_lo s1) -> plt (seg_lo s1) (seg_hi s2) -> plt (seg_hi s2) (seg_hi s1) ->
    overlap s1 s2 -> pair_case s1 s2 OVERLAP
| PC_touch : forall p, common s1 s2 p -> (forall q, common s1 s2 q -> q = p) ->
    (p = s_start s1 \/ p = s_end s1 \/ p = s_start s2 \/ p = s_end s2) ->
    segments_intersection s1 s2 = p -> segments_intersection s2 s1 = p -> pair_case s1 s2 TOUCH
| PC_cross : forall p, common s1 s2 p -> (forall q, common s1 s2 q -> q = p) ->
    inside_segment p s1 -> inside_segment p s2 ->
    segments_intersection s1 s2 = p -> segments_intersection s2 s1 = p -> pair_case s1 s2 CROSS
| PC_disjoint : (forall q, ~ common s1 s2 q) -> pair_case s1 s2 DISJOINT.

Lemma common_sym : forall s1 s2 p, common s1 s2 p -> common s2 s1 p.
Proof. intros s1 s2 p [A B]. split; assumption. Qed.

Lemma pair_case_spec : forall s1 s2, proper s1 -> proper s2 ->
  pair_case s1 s2 (segments_relation s1 s2).
Proof.
  intros s1 s2 P1 P2.
  destruct (segments_relation_spec s1 s2 P1 P2) as [E1 E2|K E1 E2 E3|K E1 E2 E3|K E|p K U E|p K U E C|U].
  - apply PC_equal; try assumption.
    destruct (frame_exists s1 s2 P1 P2 (equal_collinear s1 s2 E1 E2)) as (e & L & F).
    pose proof (fr_1 _ _ _ _ F).
    apply (overlap_two s1 s2 (seg_lo s1) (seg_hi s1)).
    + split; [apply (fr_on1 _ _ _ _ F)|apply (fr_on2 _ _ _ _ F)]; rewrite <- ?E1, <- ?E2;
        rewrite (fr_y _ _ _ _ F (seg_lo s1)) by (cbn; auto); repeat split; qlra.
    + split; [apply (fr_on1 _ _ _ _ F)|apply (fr_on2 _ _ _ _ F)]; rewrite <- ?E2, <- ?E1;
        rewrite (fr_y _ _ _ _ F (seg_hi s1)) by (cbn; auto); repeat split; qlra.
    + apply plt_neq, seg_lo_lt_hi, P1.
  - destruct (frame_exists s1 s2 P1 P2 K) as (e & L & F).
    apply (PC_component _ _ e L F); try assumption; [destruct E3; auto|].
    pose proof (fr_1 _ _ _ _ F). apply (fr_le _ _ _ _ F) in E1, E2; try (cbn; auto).
    apply (overlap_two s1 s2 (seg_lo s1) (seg_hi s1)).
    + split; [apply (fr_on1 _ _ _ _ F)|apply (fr_on2 _ _ _ _ F)];
        rewrite (fr_y _ _ _ _ F (seg_lo s1)) by (cbn; auto); repeat split; qlra.
    + split; [apply (fr_on1 _ _ _ _ F)|apply (fr_on2 _ _ _ _ F)];
        rewrite (fr_y _ _ _ _ F (seg_hi s1)) by (cbn; auto); repeat split; qlra.
    + apply plt_neq, seg_lo_lt_hi, P1.
  - destruct (frame_exists s1 s2 P1 P2 K) as (e & L & F).
    apply (PC_composite _ _ e L F); try assumption.
    pose proof (fr_2 _ _ _ _ F). apply (fr_le _ _ _ _ F) in E1, E2; try (cbn; auto).
    apply (overlap_two s1 s2 (seg_lo s2) (seg_hi s2)).
    + split; [apply (fr_on1 _ _ _ _ F)|apply (fr_on2 _ _ _ _ F)];
        rewrite (fr_y _ _ _ _ F (seg_lo s2)) by (cbn; auto); repeat split; qlra.
    + split; [apply (fr_on1 _ _ _ _ F)|apply (fr_on2 _ _ _ _ F)];
        rewrite (fr_y _ _ _ _ F (seg_hi s2)) by (cbn; auto); repeat split; qlra.
    + apply plt_neq, seg_lo_lt_hi, P2.
  - destruct (frame_exists s1 s2 P1 P2 K) as (e & L & F).
    destruct E as [(E1 & E2 & E3)|(E1 & E2 & E3)];
      [apply (PC_overlap1 _ _ e L F)|apply (PC_overlap2 _ _ e L F)]; try assumption.
    + pose proof (plt_neq _ _ E2) as N.
      apply (fr_lt _ _ _ _ F) in E1, E2, E3; try (cbn; auto).
      apply (overlap_two s1 s2 (seg_lo s2) (seg_hi s1)); [| |exact N].
      * split; [apply (fr_on1 _ _ _ _ F)|apply (fr_on2 _ _ _ _ F)];
          rewrite (fr_y _ _ _ _ F (seg_lo s2)) by (cbn; auto); repeat split; qlra.
      * split; [apply (fr_on1 _ _ _ _ F)|apply (fr_on2 _ _ _ _ F)];
          rewrite (fr_y _ _ _ _ F (seg_hi s1)) by (cbn; auto); repeat split; qlra.
    + pose proof (plt_neq _ _ E2) as N.
      apply (fr_lt _ _ _ _ F) in E1, E2, E3; try (cbn; auto).
      apply (overlap_two s1 s2 (seg_lo s1) (seg_hi s2)); [| |exact N].
      * split; [apply (fr_on1 _ _ _ _ F)|apply (fr_on2 _ _ _ _ F)];
          rewrite (fr_y _ _ _ _ F (seg_lo s1)) by (cbn; auto); repeat split; qlra.
      * split; [apply (fr_on1 _ _ _ _ F)|apply (fr_on2 _ _ _ _ F)];
          rewrite (fr_y _ _ _ _ F (seg_hi s2)) by (cbn; auto); repeat split; qlra.
  - apply (PC_touch _ _ p); auto.
    + apply segments_intersection_unique; auto.
    + apply segments_intersection_unique; auto using common_sym.
  - apply (PC_cross _ _ p); auto.
    + destruct K. unfold inside_segment. tauto.
    + destruct K. unfold inside_segment. tauto.
    + apply segments_intersection_unique; auto.
    + apply segments_intersection_unique; auto using common_sym.
  - apply PC_disjoint. exact U.
Qed.
