(** Exactness of the two-segment operations. *)
From Coq Require Import Lqa Permutation Sorting.Sorted.
From Verif Require Import QcTac Geom Spec GeomFacts Relation SortFacts Pair PairFacts PairProofs.

Lemma on_segments_1 : forall p s, on_segments p [s] <-> on_segment p s.
Proof.
  intros p s. unfold on_segments. split.
  - intros (x & [<-|[]] & H). exact H.
  - intro H. exists s. split; [left; reflexivity|exact H].
Qed.
Lemma on_segments_nil : forall p, on_segments p [] <-> False.
Proof. intros p. split; [intros (x & [] & _)|intros []]. Qed.
Lemma on_segments_cons : forall p s l, on_segments p (s :: l) <-> on_segment p s \/ on_segments p l.
Proof.
  intros p s l. unfold on_segments. split.
  - intros (x & [<-|H] & Hx); [left; exact Hx|right; exists x; auto].
  - intros [H|(x & H & Hx)]; [exists s; cbn; auto|exists x; cbn; auto].
Qed.
Lemma on_segments_app : forall p l l', on_segments p (l ++ l') <-> on_segments p l \/ on_segments p l'.
Proof.
  intros p l l'. induction l as [|s l IH]; cbn [app].
  - rewrite on_segments_nil. tauto.
  - rewrite !on_segments_cons, IH. tauto.
Qed.
Lemma segments_of_unpack : forall ss, segments_of (unpack_segments ss) = ss.
Proof. intros [|a [|b l]]; reflexivity. Qed.
Lemma points_of_unpack : forall ss, points_of (unpack_segments ss) = [].
Proof. intros [|a [|b l]]; reflexivity. Qed.
Lemma polygons_of_unpack : forall ss, polygons_of (unpack_segments ss) = [].
Proof. intros [|a [|b l]]; reflexivity. Qed.
Lemma in_geometry_unpack : forall p ss, in_geometry p (unpack_segments ss) <-> on_segments p ss.
Proof.
  intros p ss. unfold in_geometry. rewrite segments_of_unpack, points_of_unpack. cbn. tauto.
Qed.
Lemma in_geometry_seg : forall p s, in_geometry p (GSegment s) <-> on_segment p s.
Proof. intros. unfold in_geometry. cbn. rewrite on_segments_1. tauto. Qed.
Lemma in_geometry_multi : forall p ss, in_geometry p (GMultisegment ss) <-> on_segments p ss.
Proof. intros. unfold in_geometry. cbn. tauto. Qed.

(** Facts of a frame in the form needed by [qlra]. *)
Ltac in4 := cbn; auto.
Ltac fpose F :=
  let H1 := fresh in let H2 := fresh in
  pose proof (fr_1 _ _ _ _ F) as H1; pose proof (fr_2 _ _ _ _ F) as H2;
  repeat match goal with
  | H : plt ?a ?b |- _ => apply (fr_lt _ _ _ _ F) in H; [|in4|in4]
  | H : ple ?a ?b |- _ => apply (fr_le _ _ _ _ F) in H; [|in4|in4]
  end.
Ltac fsplit := repeat match goal with |- _ /\ _ => split end; try assumption; try qlra.

Theorem intersect_segments_points : forall first second p, proper first -> proper second ->
  (in_geometry p (intersect_segments first second) <-> on_segment p first /\ on_segment p second).
Proof.
  intros s1 s2 p P1 P2. unfold intersect_segments.
  pose proof (sub_overlap_eq s1 s2 P1 P2) as [O1 O2].
  destruct (pair_case_spec s1 s2 P1 P2) as [E1 E2 O|e L F H1 H2 H3 O|e L F H1 H2 H3 O
    |e L F H1 H2 H3 O|e L F H1 H2 H3 O|x K U E I1 I2|x K U J1 J2 I1 I2|U].
  - rewrite in_geometry_seg. rewrite (on_segment_norm s1), (on_segment_norm s2), E1, E2. tauto.
  - rewrite in_geometry_seg. fpose F. rewrite (fr_on1 _ _ _ _ F), (fr_on2 _ _ _ _ F).
    split; [|tauto]. intros (A & B & C). fsplit.
  - rewrite in_geometry_seg. fpose F. rewrite (fr_on1 _ _ _ _ F), (fr_on2 _ _ _ _ F).
    split; [|tauto]. intros (A & B & C). fsplit.
  - rewrite in_geometry_seg. destruct O1 as (_ & -> & _); [auto|].
    rewrite (fr_on _ _ _ _ F) by (in4).
    fpose F. rewrite (fr_on1 _ _ _ _ F), (fr_on2 _ _ _ _ F).
    split; [intros (A & B & C)|intros ((A & B & C) & (A' & B' & C'))]; fsplit.
  - rewrite in_geometry_seg. destruct O2 as (_ & -> & _); [auto|].
    rewrite (fr_on _ _ _ _ F) by (in4).
    fpose F. rewrite (fr_on1 _ _ _ _ F), (fr_on2 _ _ _ _ F).
    split; [intros (A & B & C)|intros ((A & B & C) & (A' & B' & C'))]; fsplit.
  - rewrite I1. unfold in_geometry; cbn. rewrite on_segments_nil. split.
    + intros [[<-|[]]|[]]. exact K.
    + intro H. left. left. symmetry. apply U. exact H.
  - rewrite I1. unfold in_geometry; cbn. rewrite on_segments_nil. split.
    + intros [[<-|[]]|[]]. exact K.
    + intro H. left. left. symmetry. apply U. exact H.
  - unfold in_geometry; cbn. rewrite on_segments_nil. split; [tauto|].
    intro H. exfalso. exact (U p H).
Qed.

(** The kind of the result of an intersection tells how many common points there are. *)
Definition intersection_shape (first second : segment) (g : geometry) : Prop :=
  match g with
  | GEmpty => forall q, ~ (on_segment q first /\ on_segment q second)
  | GMultipoint [x] => (on_segment x first /\ on_segment x second)
                       /\ forall q, on_segment q first /\ on_segment q second -> q = x
  | GSegment s => proper s /\ overlap first second
  | _ => False
  end.
Theorem intersect_segments_shape : forall first second, proper first -> proper second ->
  intersection_shape first second (intersect_segments first second).
Proof.
  intros s1 s2 P1 P2. unfold intersect_segments, intersection_shape.
  pose proof (sub_overlap_eq s1 s2 P1 P2) as [O1 O2].
  destruct (pair_case_spec s1 s2 P1 P2) as [E1 E2 O|e L F H1 H2 H3 O|e L F H1 H2 H3 O
    |e L F H1 H2 H3 O|e L F H1 H2 H3 O|x K U E I1 I2|x K U J1 J2 I1 I2|U]; auto.
  - split; [|exact O]. destruct O1 as (_ & -> & _); [auto|]. apply plt_neq. exact H2.
  - split; [|exact O]. destruct O2 as (_ & -> & _); [auto|]. apply plt_neq. exact H2.
  - rewrite I1. split; [exact K|]. intros q Hq. apply U. exact Hq.
  - rewrite I1. split; [exact K|]. intros q Hq. apply U. exact Hq.
Qed.

(** ** Union *)
Lemma pt_min_le : forall a b, ple (pt_min a b) a /\ ple (pt_min a b) b /\ (pt_min a b = a \/ pt_min a b = b).
Proof.
  intros a b. unfold pt_min. destruct (pt_ltb_spec b a) as [H|H].
  - split; [apply plt_ple; exact H|]. split; [apply ple_refl|right; reflexivity].
  - split; [apply ple_refl|]. split; [exact H|left; reflexivity].
Qed.
Lemma pt_max_le : forall a b, ple a (pt_max a b) /\ ple b (pt_max a b) /\ (pt_max a b = a \/ pt_max a b = b).
Proof.
  intros a b. unfold pt_max. destruct (pt_ltb_spec a b) as [H|H].
  - split; [apply plt_ple; exact H|]. split; [apply ple_refl|right; reflexivity].
  - split; [apply ple_refl|]. split; [exact H|left; reflexivity].
Qed.

Lemma min4_eq : forall a b c d w, In w [a; b; c; d] -> (forall x, In x [a;b;c;d] -> ple w x) ->
  pt_min (pt_min (pt_min a b) c) d = w.
Proof.
  intros a b c d w Hin Hle.
  destruct (pt_min_le a b) as (A1 & A2 & A3). set (m := pt_min a b) in *.
  destruct (pt_min_le m c) as (B1 & B2 & B3). set (n := pt_min m c) in *.
  destruct (pt_min_le n d) as (C1 & C2 & C3). set (o := pt_min n d) in *.
  apply ple_antisym.
  - destruct Hin as [<-|[<-|[<-|[<-|[]]]]]; eauto using ple_trans.
  - apply Hle. cbn. destruct C3 as [->| ->]; [|auto]. destruct B3 as [->| ->]; [|auto].
    destruct A3 as [->| ->]; auto.
Qed.
Lemma max4_eq : forall a b c d w, In w [a; b; c; d] -> (forall x, In x [a;b;c;d] -> ple x w) ->
  pt_max (pt_max (pt_max a b) c) d = w.
Proof.
  intros a b c d w Hin Hle.
  destruct (pt_max_le a b) as (A1 & A2 & A3). set (m := pt_max a b) in *.
  destruct (pt_max_le m c) as (B1 & B2 & B3). set (n := pt_max m c) in *.
  destruct (pt_max_le n d) as (C1 & C2 & C3). set (o := pt_max n d) in *.
  apply ple_antisym.
  - apply Hle. cbn. destruct C3 as [->| ->]; [|auto]. destruct B3 as [->| ->]; [|auto].
    destruct A3 as [->| ->]; auto.
  - destruct Hin as [<-|[<-|[<-|[<-|[]]]]]; eauto using ple_trans.
Qed.

Lemma collinear4_norm : forall s1 s2,
  cross (s_start s2) (s_end s2) (s_start s1) = 0 -> cross (s_start s2) (s_end s2) (s_end s1) = 0 ->
  collinear4 (norm s1) (norm s2).
Proof.
  intros s1 s2 Za Zb. unfold collinear4, norm; cbn [s_start s_end].
  set (a := s_start s1) in *. set (b := s_end s1) in *.
  set (c := s_start s2) in *. set (d := s_end s2) in *.
  assert (Za' : cross d c a = 0) by (replace (cross d c a) with (- cross c d a) by (unfold cross; ring); rewrite Za; reflexivity).
  assert (Zb' : cross d c b = 0) by (replace (cross d c b) with (- cross c d b) by (unfold cross; ring); rewrite Zb; reflexivity).
  destruct (seg_lo_hi s1) as [(-> & -> & _)|(-> & -> & _)],
           (seg_lo_hi s2) as [(-> & -> & _)|(-> & -> & _)]; auto.
Qed.

(** A collinear pair with a single common point is joined end to end. *)
Lemma touch_joined : forall s1 s2 x e L, framed s1 s2 e L ->
  common s1 s2 x -> (forall q, common s1 s2 q -> q = x) ->
  (seg_hi s1 = seg_lo s2 \/ seg_hi s2 = seg_lo s1).
Proof.
  intros s1 s2 x e L F K U.
  destruct K as [K1 K2]. apply (fr_on1 _ _ _ _ F) in K1. apply (fr_on2 _ _ _ _ F) in K2.
  destruct K1 as (A1 & A2 & A3), K2 as (B1 & B2 & B3).
  pose proof (fr_1 _ _ _ _ F) as L1. pose proof (fr_2 _ _ _ _ F) as L2.
  assert (Hc : forall u, In u [seg_lo s1; seg_hi s1; seg_lo s2; seg_hi s2] ->
     pos e (seg_lo s1) <= pos e u -> pos e u <= pos e (seg_hi s1) ->
     pos e (seg_lo s2) <= pos e u -> pos e u <= pos e (seg_hi s2) -> u = x).
  { intros u Iu X1 X2 X3 X4. apply U. split; [apply (fr_on1 _ _ _ _ F)|apply (fr_on2 _ _ _ _ F)];
      rewrite <- (fr_y _ _ _ _ F u Iu); auto. }
  rewrite !(fr_eq _ _ _ _ F) by in4.
  destruct (Qclt_le_dec (pos e (seg_lo s1)) (pos e (seg_lo s2))) as [C|C];
  destruct (Qclt_le_dec (pos e (seg_hi s1)) (pos e (seg_hi s2))) as [D|D].
  - left. rewrite (Hc (seg_hi s1)), (Hc (seg_lo s2)) by (in4; qlra). reflexivity.
  - exfalso. assert (J : seg_lo s2 = seg_hi s2)
      by (rewrite (Hc (seg_lo s2)), (Hc (seg_hi s2)) by (in4; qlra); reflexivity).
    rewrite J in L2. qlra.
  - exfalso. assert (J : seg_lo s1 = seg_hi s1)
      by (rewrite (Hc (seg_lo s1)), (Hc (seg_hi s1)) by (in4; qlra); reflexivity).
    rewrite J in L1. qlra.
  - right. rewrite (Hc (seg_hi s2)), (Hc (seg_lo s1)) by (in4; qlra). reflexivity.
Qed.

Lemma in_ends4 : forall s1 s2 x, In x [s_start s1; s_end s1; s_start s2; s_end s2] <->
   In x [seg_lo s1; seg_hi s1; seg_lo s2; seg_hi s2].
Proof. intros. split; apply Permutation_in; [|symmetry]; apply perm4. Qed.

Lemma unite_touch : forall s1 s2 x, proper s1 -> proper s2 ->
  common s1 s2 x -> (forall q, common s1 s2 q -> q = x) ->
  (x = s_start s1 \/ x = s_end s1 \/ x = s_start s2 \/ x = s_end s2) ->
  points_of (unite_segments_touch s1 s2) = [] /\ polygons_of (unite_segments_touch s1 s2) = []
  /\ valid_multisegment (segments_of (unite_segments_touch s1 s2))
  /\ (forall p, on_segments p (segments_of (unite_segments_touch s1 s2)) <-> on_segment p s1 \/ on_segment p s2).
Proof.
  intros s1 s2 x P1 P2 K U E. unfold unite_segments_touch.
  match goal with |- context [if ?c then _ else _] => destruct c eqn:Ec end.
  - cbn [segments_of points_of polygons_of].
    split; [reflexivity|]. split; [reflexivity|]. split; [split; [auto|]|intro p].
    + apply pairwise_cons_sym; [apply clean_sym|]. split; [|apply pairwise_sing].
      intros y [<-|[]]. apply (clean_touch _ _ x U E).
    + rewrite on_segments_cons, on_segments_1. tauto.
  - assert (C : collinear4 (norm s1) (norm s2)).
    { assert (Hcol : forall a b c, orientation_eqb (orient a b c) COLLINEAR = true -> cross a b c = 0).
      { intros a b c H. destruct (orientP a b c) as [O|O|O]; try discriminate. exact O. }
      set (a := s_start s1) in *. set (b := s_end s1) in *.
      set (c := s_start s2) in *. set (d := s_end s2) in *.
      rewrite !andb_false_iff, !orb_false_iff, !negb_false_iff in Ec.
      apply collinear4_norm; fold a b c d;
      destruct Ec as [[[[H1 H2]|[H1 H2]]|[H1 H2]]|[H1 H2]]; apply pt_eqb_eq in H1; apply Hcol in H2;
        first [rewrite <- H2, H1; unfold cross; ring | rewrite <- H1; unfold cross; ring
              | replace 0 with (- cross a b d) by (rewrite H2; reflexivity); rewrite <- H1; unfold cross; ring
              | replace 0 with (- cross b a c) by (rewrite H2; reflexivity); rewrite <- H1; unfold cross; ring
              | replace 0 with (- cross b a d) by (rewrite H2; reflexivity); rewrite <- H1; unfold cross; ring
              | idtac]. }
    destruct (frame_exists s1 s2 P1 P2 C) as (e & L & F).
    pose proof (touch_joined s1 s2 x e L F K U) as J.
    pose proof (fr_1 _ _ _ _ F) as L1. pose proof (fr_2 _ _ _ _ F) as L2.
    cbn [segments_of points_of polygons_of].
    assert (Hm : exists lo hi, In lo [seg_lo s1; seg_hi s1; seg_lo s2; seg_hi s2]
       /\ In hi [seg_lo s1; seg_hi s1; seg_lo s2; seg_hi s2] /\ plt lo hi /\
       (forall y, In y [seg_lo s1; seg_hi s1; seg_lo s2; seg_hi s2] -> ple lo y /\ ple y hi) /\
       forall p, on_segment p (Seg lo hi) <-> on_segment p s1 \/ on_segment p s2).
    { destruct J as [J|J].
      - assert (J' : pos e (seg_hi s1) = pos e (seg_lo s2)) by (rewrite J; reflexivity).
        exists (seg_lo s1), (seg_hi s2). split; [in4|]. split; [in4|].
        split; [apply (fr_lt _ _ _ _ F); [in4|in4|qlra]|]. split.
        + intros y [<-|[<-|[<-|[<-|[]]]]]; rewrite !(fr_le _ _ _ _ F) by in4; split; qlra.
        + intro p. rewrite (fr_on _ _ _ _ F) by (in4; (apply (fr_lt _ _ _ _ F); [in4|in4|qlra])).
          rewrite (fr_on1 _ _ _ _ F), (fr_on2 _ _ _ _ F). split.
          * intros (A & B & D). destruct (Qclt_le_dec (pos e p) (pos e (seg_hi s1))); [left|right]; fsplit.
          * intros [(A & B & D)|(A & B & D)]; fsplit.
      - assert (J' : pos e (seg_hi s2) = pos e (seg_lo s1)) by (rewrite J; reflexivity).
        exists (seg_lo s2), (seg_hi s1). split; [in4|]. split; [in4|].
        split; [apply (fr_lt _ _ _ _ F); [in4|in4|qlra]|]. split.
        + intros y [<-|[<-|[<-|[<-|[]]]]]; rewrite !(fr_le _ _ _ _ F) by in4; split; qlra.
        + intro p. rewrite (fr_on _ _ _ _ F) by (in4; (apply (fr_lt _ _ _ _ F); [in4|in4|qlra])).
          rewrite (fr_on1 _ _ _ _ F), (fr_on2 _ _ _ _ F). split.
          * intros (A & B & D). destruct (Qclt_le_dec (pos e p) (pos e (seg_hi s2))); [right|left]; fsplit.
          * intros [(A & B & D)|(A & B & D)]; fsplit. }
    destruct Hm as (lo & hi & Ilo & Ihi & Hlt & Hb & Hon).
    rewrite (min4_eq _ _ _ _ lo), (max4_eq _ _ _ _ hi).
    2,4: apply in_ends4; assumption.
    2,3: intros y Hy; apply in_ends4 in Hy; apply Hb in Hy; tauto.
    split; [reflexivity|]. split; [reflexivity|]. split; [split|intro p].
    + constructor; [|constructor]. apply plt_neq. exact Hlt.
    + apply pairwise_sing.
    + rewrite on_segments_1, Hon. tauto.
Qed.

Lemma halves_proper : forall s x, inside_segment x s ->
  proper (Seg (s_start s) x) /\ proper (Seg x (s_end s)).
Proof. intros s x (_ & A & B). split; unfold proper; cbn; auto. Qed.

Lemma unite_cross : forall s1 s2 x, proper s1 -> proper s2 ->
  (forall q, common s1 s2 q -> q = x) -> inside_segment x s1 -> inside_segment x s2 ->
  segments_intersection s1 s2 = x ->
  valid_multisegment (segments_of (unite_segments_cross s1 s2))
  /\ (forall p, on_segments p (segments_of (unite_segments_cross s1 s2)) <-> on_segment p s1 \/ on_segment p s2).
Proof.
  intros s1 s2 x P1 P2 U J1 J2 I. unfold unite_segments_cross. rewrite I. cbn [segments_of].
  destruct (split_at s1 x P1 J1) as [A1 A2]. destruct (split_at s2 x P2 J2) as [B1 B2].
  destruct (halves_proper s1 x J1) as [Q1 Q2]. destruct (halves_proper s2 x J2) as [Q3 Q4].
  assert (X : forall h1 h2, (h1 = Seg (s_start s1) x \/ h1 = Seg x (s_end s1)) ->
     (h2 = Seg (s_start s2) x \/ h2 = Seg x (s_end s2)) -> clean h1 h2).
  { intros h1 h2 H1 H2. apply (clean_touch _ _ x).
    - intros q [Hq1 Hq2]. apply U. split; [apply A1|apply B1];
        [destruct H1 as [->| ->]|destruct H2 as [->| ->]]; auto.
    - destruct H1 as [->| ->]; cbn; auto. }
  assert (Y1 : clean (Seg (s_start s1) x) (Seg x (s_end s1))).
  { apply (clean_touch _ _ x); [|cbn; auto]. intros q [H1 H2]. apply A2; assumption. }
  assert (Y2 : clean (Seg (s_start s2) x) (Seg x (s_end s2))).
  { apply (clean_touch _ _ x); [|cbn; auto]. intros q [H1 H2]. apply B2; assumption. }
  split; [split; [auto|]|].
  - change (pairwise clean [Seg (s_start s1) x; Seg (s_start s2) x; Seg x (s_end s1); Seg x (s_end s2)]).
    apply pairwise_cons_sym; [apply clean_sym|]. split.
    { intros y [<-|[<-|[<-|[]]]]; [apply X|exact Y1|apply X]; auto. }
    apply pairwise_cons_sym; [apply clean_sym|]. split.
    { intros y [<-|[<-|[]]]; [apply clean_sym; apply X; auto|exact Y2]. }
    apply pairwise_cons_sym; [apply clean_sym|]. split; [|apply pairwise_sing].
    intros y [<-|[]]. apply X; auto.
  - intro p. rewrite !on_segments_cons, on_segments_nil, A1, B1. tauto.
Qed.

Lemma valid_sing : forall s, proper s -> valid_multisegment [s].
Proof. intros s P. split; [auto|apply pairwise_sing]. Qed.
Lemma valid_pair : forall a b, proper a -> proper b -> clean a b -> valid_multisegment [a; b].
Proof.
  intros a b Pa Pb C. split; [auto|]. apply pairwise_cons_sym; [apply clean_sym|].
  split; [intros y [<-|[]]; exact C|apply pairwise_sing].
Qed.

Theorem unite_segments_exact : forall first second, proper first -> proper second ->
  exact_union (unite_segments first second) [first] [second].
Proof.
  intros s1 s2 P1 P2. unfold exact_union, unite_segments.
  pose proof (sub_overlap_eq s1 s2 P1 P2) as [O1 O2].
  assert (G : forall g, points_of g = [] -> polygons_of g = [] -> valid_multisegment (segments_of g) ->
    (forall p, on_segments p (segments_of g) <-> on_segment p s1 \/ on_segment p s2) ->
    points_of g = [] /\ polygons_of g = [] /\ valid_multisegment (segments_of g) /\
    (forall p, in_geometry p g <-> on_segments p [s1] \/ on_segments p [s2])).
  { intros g G1 G2 G3 G4. split; [exact G1|]. split; [exact G2|]. split; [exact G3|].
    intro p. rewrite !on_segments_1, <- G4. unfold in_geometry. rewrite G1. cbn. tauto. }
  destruct (pair_case_spec s1 s2 P1 P2) as [E1 E2 O|e L F H1 H2 H3 O|e L F H1 H2 H3 O
    |e L F H1 H2 H3 O|e L F H1 H2 H3 O|x K U E I1 I2|x K U J1 J2 I1 I2|U]; apply G; try reflexivity.
  - apply valid_sing; exact P1.
  - intro p. cbn. rewrite on_segments_1, (on_segment_norm s1), (on_segment_norm s2), E1, E2. tauto.
  - apply valid_sing; exact P2.
  - intro p. cbn. fpose F. rewrite on_segments_1, (fr_on1 _ _ _ _ F), (fr_on2 _ _ _ _ F).
    split; [tauto|]. intros [(A & B & C)|(A & B & C)]; fsplit.
  - apply valid_sing; exact P1.
  - intro p. cbn. fpose F. rewrite on_segments_1, (fr_on1 _ _ _ _ F), (fr_on2 _ _ _ _ F).
    split; [tauto|]. intros [(A & B & C)|(A & B & C)]; fsplit.
  - destruct O1 as (_ & _ & _ & ->); auto.
  - destruct O1 as (_ & _ & _ & ->); auto.
  - destruct O1 as (_ & _ & _ & ->); auto. apply valid_sing, plt_neq. eauto using plt_trans.
  - destruct O1 as (_ & _ & _ & ->); auto. intro p. cbn.
    rewrite on_segments_1, (fr_on _ _ _ _ F) by (in4; eauto using plt_trans).
    fpose F. rewrite (fr_on1 _ _ _ _ F), (fr_on2 _ _ _ _ F). split.
    + intros (A & B & D). destruct (Qclt_le_dec (pos e p) (pos e (seg_hi s1))); [left|right]; fsplit.
    + intros [(A & B & D)|(A & B & D)]; fsplit.
  - destruct O2 as (_ & _ & _ & ->); auto.
  - destruct O2 as (_ & _ & _ & ->); auto.
  - destruct O2 as (_ & _ & _ & ->); auto. apply valid_sing, plt_neq. eauto using plt_trans.
  - destruct O2 as (_ & _ & _ & ->); auto. intro p. cbn.
    rewrite on_segments_1, (fr_on _ _ _ _ F) by (in4; eauto using plt_trans).
    fpose F. rewrite (fr_on1 _ _ _ _ F), (fr_on2 _ _ _ _ F). split.
    + intros (A & B & D). destruct (Qclt_le_dec (pos e p) (pos e (seg_hi s2))); [right|left]; fsplit.
    + intros [(A & B & D)|(A & B & D)]; fsplit.
  - apply (unite_touch s1 s2 x); assumption.
  - apply (unite_touch s1 s2 x); assumption.
  - apply (unite_touch s1 s2 x); assumption.
  - apply (unite_touch s1 s2 x); assumption.
  - apply (unite_cross s1 s2 x); assumption.
  - apply (unite_cross s1 s2 x); assumption.
  - apply valid_pair; auto using clean_none.
  - intro p. cbn. rewrite on_segments_cons, on_segments_1. tauto.
Qed.

(** ** Difference *)
Lemma interval_no_overlap : forall (e : Qc) (L : Qc -> Qc) u z (a b c d : Qc),
  (forall p, on_segment p u <-> a <= pos e p /\ pos e p <= b /\ py p = L (pos e p)) ->
  (forall p, on_segment p z <-> c <= pos e p /\ pos e p <= d /\ py p = L (pos e p)) ->
  b <= c \/ d <= a -> ~ overlap u z.
Proof.
  intros e L u z a b c d Hu Hz H (p & q & N & A1 & A2 & B1 & B2).
  apply Hu in A1, B1. apply Hz in A2, B2. apply N.
  assert (D : pos e p = pos e q) by (destruct H; qlra).
  destruct A1 as (_ & _ & Y1), B1 as (_ & _ & Y2).
  apply (pos_inj e); [exact D|]. rewrite Y1, Y2, D. reflexivity.
Qed.

Lemma interval_clean : forall (e : Qc) (L : Qc -> Qc) v w z (c d : Qc),
  (forall p, on_segment p (Seg v w) <-> pos e v <= pos e p /\ pos e p <= pos e w /\ py p = L (pos e p)) ->
  (forall p, on_segment p z <-> c <= pos e p /\ pos e p <= d /\ py p = L (pos e p)) ->
  pos e w <= c \/ d <= pos e v -> clean (Seg v w) z.
Proof.
  intros e L v w z c d Hu Hz [H|H].
  - apply (clean_touch _ _ w); [|cbn; auto]. intros q [A B].
    pose proof (proj1 (Hu w) (on_segment_end (Seg v w))) as (_ & _ & Y).
    apply Hu in A. apply Hz in B. destruct A as (_ & A2 & A3), B as (B1 & _).
    assert (D : pos e q = pos e w) by qlra. apply (pos_inj e); [exact D|]. rewrite A3, Y, D. reflexivity.
  - apply (clean_touch _ _ v); [|cbn; auto]. intros q [A B].
    pose proof (proj1 (Hu v) (on_segment_start (Seg v w))) as (_ & _ & Y).
    apply Hu in A. apply Hz in B. destruct A as (A1 & _ & A3), B as (_ & B2 & _).
    assert (D : pos e q = pos e v) by qlra. apply (pos_inj e); [exact D|]. rewrite A3, Y, D. reflexivity.
Qed.

(** The list returned by the composite branch, in a frame. *)
Lemma composite_facts : forall m s e L, framed m s e L -> proper m -> proper s ->
  ple (seg_lo m) (seg_lo s) -> ple (seg_hi s) (seg_hi m) ->
  (seg_lo m <> seg_lo s \/ seg_hi m <> seg_hi s) ->
  valid_multisegment (subtract_segments_composite m s)
  /\ (forall p, on_segment p m -> ~ on_segment p s -> on_segments p (subtract_segments_composite m s))
  /\ (forall p, on_segments p (subtract_segments_composite m s) -> on_segment p m)
  /\ (forall t, In t (subtract_segments_composite m s) -> clean t s).
Proof.
  intros m s e L F Pm Ps H1 H2 H3.
  rewrite (composite_eq m s Pm Ps H1 H2 H3).
  pose proof H1 as K1. pose proof H2 as K2. 
  pose proof (fr_1 _ _ _ _ F) as L1. pose proof (fr_2 _ _ _ _ F) as L2.
  apply (fr_le _ _ _ _ F) in K1; [|in4|in4]. apply (fr_le _ _ _ _ F) in K2; [|in4|in4].
  assert (A : seg_lo m = seg_lo s \/ plt (seg_lo m) (seg_lo s)) by (apply ple_lt_eq in H1; tauto).
  assert (B : seg_hi s = seg_hi m \/ plt (seg_hi s) (seg_hi m)) by (apply ple_lt_eq in H2; tauto).
  assert (On := fr_on _ _ _ _ F). assert (On1 := fr_on1 _ _ _ _ F). assert (On2 := fr_on2 _ _ _ _ F).
  assert (NIn : forall p, py p = L (pos e p) -> ~ on_segment p s ->
     pos e p < pos e (seg_lo s) \/ pos e (seg_hi s) < pos e p).
  { intros p Hy Hn. rewrite On2 in Hn.
    destruct (Qclt_le_dec (pos e p) (pos e (seg_lo s))) as [|J1]; [left; assumption|].
    destruct (Qclt_le_dec (pos e (seg_hi s)) (pos e p)) as [|J2]; [right; assumption|].
    exfalso. apply Hn. auto. }
  assert (NO1 : plt (seg_lo m) (seg_lo s) -> clean (Seg (seg_lo m) (seg_lo s)) s).
  { intro Hlt. apply (interval_clean e L _ _ _ 
       (pos e (seg_lo s)) (pos e (seg_hi s))); [|exact On2|left; qlra].
    intro p. apply On; in4. }
  assert (NO2 : plt (seg_hi s) (seg_hi m) -> clean (Seg (seg_hi s) (seg_hi m)) s).
  { intro Hlt. apply (interval_clean e L _ _ _
       (pos e (seg_lo s)) (pos e (seg_hi s))); [|exact On2|right; qlra].
    intro p. apply On; in4. }
  destruct A as [A|A]; [rewrite (proj2 (pt_eqb_eq _ _) A)|rewrite (proj2 (pt_eqb_neq _ _) (plt_neq _ _ A))];
  (destruct B as [B|B]; [rewrite (proj2 (pt_eqb_eq _ _) B)|rewrite (proj2 (pt_eqb_neq _ _) (plt_neq _ _ B))]);
  cbn [app].
  - exfalso. destruct H3 as [H3|H3]; congruence.
  - split; [apply valid_sing, plt_neq, B|].
    assert (A' : pos e (seg_lo m) = pos e (seg_lo s)) by (rewrite A; reflexivity).
    split; [|split].
    + intros p Hp Hn. apply On1 in Hp. destruct Hp as (X1 & X2 & X3).
      destruct (NIn p X3 Hn); [exfalso; qlra|]. apply on_segments_1, On; in4. fsplit.
    + intro p. rewrite on_segments_1, On, On1 by in4. intros (X1 & X2 & X3). fsplit.
    + intros t [<-|[]]. auto.
  - split; [apply valid_sing, plt_neq, A|].
    assert (B' : pos e (seg_hi m) = pos e (seg_hi s)) by (rewrite B; reflexivity).
    split; [|split].
    + intros p Hp Hn. apply On1 in Hp. destruct Hp as (X1 & X2 & X3).
      destruct (NIn p X3 Hn); [|exfalso; qlra]. apply on_segments_1, On; in4. fsplit.
    + intro p. rewrite on_segments_1, On, On1 by in4. intros (X1 & X2 & X3). fsplit.
    + intros t [<-|[]]. auto.
  - split; [apply valid_pair|].
    + apply plt_neq, A.
    + apply plt_neq, B.
    + apply clean_none. intros q [Q1 Q2]. apply On in Q1; in4. apply On in Q2; in4. qlra.
    + split; [|split].
      * intros p Hp Hn. apply On1 in Hp. destruct Hp as (X1 & X2 & X3).
        rewrite on_segments_cons, on_segments_1, !On by in4.
        destruct (NIn p X3 Hn); [left|right]; fsplit.
      * intro p. rewrite on_segments_cons, on_segments_1, !On, On1 by in4.
        intros [(X1 & X2 & X3)|(X1 & X2 & X3)]; fsplit.
      * intros t [<-|[<-|[]]]; auto.
Qed.

Lemma sub_overlap_facts : forall m s e L, framed m s e L -> proper m -> proper s ->
  (plt (seg_lo m) (seg_lo s) /\ plt (seg_lo s) (seg_hi m) /\ plt (seg_hi m) (seg_hi s)
   \/ plt (seg_lo s) (seg_lo m) /\ plt (seg_lo m) (seg_hi s) /\ plt (seg_hi s) (seg_hi m)) ->
  proper (subtract_segments_overlap m s)
  /\ (forall p, on_segment p m -> ~ on_segment p s -> on_segment p (subtract_segments_overlap m s))
  /\ (forall p, on_segment p (subtract_segments_overlap m s) -> on_segment p m)
  /\ clean (subtract_segments_overlap m s) s.
Proof.
  intros m s e L F Pm Ps H.
  pose proof (sub_overlap_eq m s Pm Ps) as [O1 O2].
  assert (On := fr_on _ _ _ _ F). assert (On1 := fr_on1 _ _ _ _ F). assert (On2 := fr_on2 _ _ _ _ F).
  assert (NIn : forall p, py p = L (pos e p) -> ~ on_segment p s ->
     pos e p < pos e (seg_lo s) \/ pos e (seg_hi s) < pos e p).
  { intros p Hy Hn. rewrite On2 in Hn.
    destruct (Qclt_le_dec (pos e p) (pos e (seg_lo s))) as [|J1]; [left; assumption|].
    destruct (Qclt_le_dec (pos e (seg_hi s)) (pos e p)) as [|J2]; [right; assumption|].
    exfalso. apply Hn. auto. }
  destruct H as [(H1 & H2 & H3)|(H1 & H2 & H3)].
  - destruct O1 as (-> & _); auto. split; [apply plt_neq, H1|].
    pose proof H1 as K1. fpose F. assert (P := proj2 (fr_lt _ _ _ _ F (seg_lo m) (seg_lo s) ltac:(in4) ltac:(in4)) K1).
    split; [|split].
    + intros p Hp Hn. apply On1 in Hp. destruct Hp as (X1 & X2 & X3).
      destruct (NIn p X3 Hn); [|exfalso; qlra]. apply On; in4. fsplit.
    + intro p. rewrite On, On1 by in4. intros (X1 & X2 & X3). fsplit.
    + apply (interval_clean e L _ _ _
       (pos e (seg_lo s)) (pos e (seg_hi s))); [|exact On2|left; qlra]. intro p; apply On; in4.
  - destruct O2 as (-> & _); auto. split; [apply plt_neq, H3|].
    pose proof H3 as K1. fpose F. assert (P := proj2 (fr_lt _ _ _ _ F (seg_hi s) (seg_hi m) ltac:(in4) ltac:(in4)) K1).
    split; [|split].
    + intros p Hp Hn. apply On1 in Hp. destruct Hp as (X1 & X2 & X3).
      destruct (NIn p X3 Hn); [exfalso; qlra|]. apply On; in4. fsplit.
    + intro p. rewrite On, On1 by in4. intros (X1 & X2 & X3). fsplit.
    + apply (interval_clean e L _ _ _
       (pos e (seg_lo s)) (pos e (seg_hi s))); [|exact On2|right; qlra]. intro p; apply On; in4.
Qed.

Lemma closure_difference_intro : forall g first second,
  points_of g = [] -> polygons_of g = [] -> Forall proper (segments_of g) ->
  (forall p, on_segments p first -> ~ on_segments p second -> on_segments p (segments_of g)) ->
  (forall p, on_segments p (segments_of g) -> on_segments p first) ->
  (forall s t, In s (segments_of g) -> In t second -> ~ overlap s t) ->
  closure_difference g first second.
Proof.
  intros g f s G1 G2 G3 G4 G5 G6. unfold closure_difference, in_geometry. rewrite G1.
  repeat split; auto. intros p [[]|H]; auto.
Qed.

Theorem subtract_segments_closure : forall minuend subtrahend, proper minuend -> proper subtrahend ->
  closure_difference (subtract_segments minuend subtrahend) [minuend] [subtrahend].
Proof.
  intros s1 s2 P1 P2. unfold subtract_segments.
  destruct (pair_case_spec s1 s2 P1 P2) as [E1 E2 O|e L F H1 H2 H3 O|e L F H1 H2 H3 O
    |e L F H1 H2 H3 O|e L F H1 H2 H3 O|x K U E I1 I2|x K U J1 J2 I1 I2|U].
  - apply closure_difference_intro; cbn; auto.
    + intros p. rewrite !on_segments_1. rewrite (on_segment_norm s1), (on_segment_norm s2), E1, E2. tauto.
    + intros p. rewrite on_segments_nil. tauto.
  - apply closure_difference_intro; cbn; auto.
    + intros p. rewrite !on_segments_1. fpose F. rewrite (fr_on1 _ _ _ _ F), (fr_on2 _ _ _ _ F).
      intros (A & B & C) N. exfalso. apply N. fsplit.
    + intros p. rewrite on_segments_nil. tauto.
  - destruct (composite_facts s1 s2 e L F P1 P2 H1 H2 H3) as (C1 & C2 & C3 & C4).
    apply closure_difference_intro;
      rewrite ?points_of_unpack, ?polygons_of_unpack, ?segments_of_unpack; auto.
    + apply C1.
    + intros p. rewrite !on_segments_1. auto.
    + intros p. rewrite !on_segments_1. auto.
    + intros s t Hs [<-|[]]. apply C4; auto.
  - destruct (sub_overlap_facts s1 s2 e L F P1 P2) as (C1 & C2 & C3 & C4); [left; auto|].
    apply closure_difference_intro; cbn [segments_of points_of polygons_of]; auto.
    + intros p. rewrite !on_segments_1. auto.
    + intros p. rewrite !on_segments_1. auto.
    + intros s t [<-|[]] [<-|[]]. apply C4.
  - destruct (sub_overlap_facts s1 s2 e L F P1 P2) as (C1 & C2 & C3 & C4); [right; auto|].
    apply closure_difference_intro; cbn [segments_of points_of polygons_of]; auto.
    + intros p. rewrite !on_segments_1. auto.
    + intros p. rewrite !on_segments_1. auto.
    + intros s t [<-|[]] [<-|[]]. apply C4.
  - apply closure_difference_intro; cbn [segments_of points_of polygons_of]; auto.
    intros s t [<-|[]] [<-|[]]. apply (no_overlap_unique _ _ x U).
  - apply closure_difference_intro; cbn [segments_of points_of polygons_of]; auto.
    intros s t [<-|[]] [<-|[]]. apply (no_overlap_unique _ _ x U).
  - apply closure_difference_intro; cbn [segments_of points_of polygons_of]; auto.
    intros s t [<-|[]] [<-|[]]. apply (no_overlap_none _ _ U).
Qed.

(** ** Symmetric difference *)
Lemma closure_symmetric_intro : forall g s1 s2,
  points_of g = [] -> polygons_of g = [] -> Forall proper (segments_of g) ->
  (forall p, on_segment p s1 -> ~ on_segment p s2 -> on_segments p (segments_of g)) ->
  (forall p, on_segment p s2 -> ~ on_segment p s1 -> on_segments p (segments_of g)) ->
  (forall p, on_segments p (segments_of g) -> on_segment p s1 \/ on_segment p s2) ->
  (forall s p q, In s (segments_of g) -> p <> q ->
        ~ (on_segment p s /\ on_segment p s1 /\ on_segment p s2
           /\ on_segment q s /\ on_segment q s1 /\ on_segment q s2)) ->
  closure_symmetric_difference g [s1] [s2].
Proof.
  intros g s1 s2 G1 G2 G3 G4 G5 G6 G7. unfold closure_symmetric_difference, in_geometry. rewrite G1.
  split; [reflexivity|]. split; [exact G2|]. split; [exact G3|]. split; [|split].
  - intro p. rewrite !on_segments_1. intros [[A B]|[A B]]; auto.
  - intro p. rewrite !on_segments_1. intros [[]|H]. auto.
  - intros s a b p q Hs [<-|[]] [<-|[]] Hpq. apply G7; assumption.
Qed.

Theorem symmetric_subtract_segments_closure : forall first second, proper first -> proper second ->
  closure_symmetric_difference (symmetric_subtract_segments first second) [first] [second].
Proof.
  intros s1 s2 P1 P2. unfold symmetric_subtract_segments.
  pose proof (sub_overlap_eq s1 s2 P1 P2) as [O1 O2].
  destruct (pair_case_spec s1 s2 P1 P2) as [E1 E2 O|e L F H1 H2 H3 O|e L F H1 H2 H3 O
    |e L F H1 H2 H3 O|e L F H1 H2 H3 O|x K U E I1 I2|x K U J1 J2 I1 I2|U].
  - apply closure_symmetric_intro; cbn; auto.
    + intros p. rewrite (on_segment_norm s1), (on_segment_norm s2), E1, E2. tauto.
    + intros p. rewrite (on_segment_norm s1), (on_segment_norm s2), E1, E2. tauto.
    + intros p. rewrite on_segments_nil. tauto.
  - assert (F' : framed s2 s1 e L).
    { destruct F as [f1 f2 f3 f4 f5 f6 f7 f8 f9].
      assert (Hin : forall u, In u [seg_lo s2; seg_hi s2; seg_lo s1; seg_hi s1] ->
        In u [seg_lo s1; seg_hi s1; seg_lo s2; seg_hi s2]) by (cbn; tauto).
      constructor; auto. }
    destruct (composite_facts s2 s1 e L F' P2 P1 H1 H2 H3) as (C1 & C2 & C3 & C4).
    apply closure_symmetric_intro;
      rewrite ?points_of_unpack, ?polygons_of_unpack, ?segments_of_unpack; auto.
    + apply C1.
    + intros p Hp Hn. exfalso. apply Hn. fpose F. apply (fr_on1 _ _ _ _ F) in Hp.
      apply (fr_on2 _ _ _ _ F). destruct Hp as (A & B & C). fsplit.
    + intros s p q Hs Hpq (A1 & A2 & A3 & B1 & B2 & B3). destruct (C4 s Hs) as [C4a _]. apply C4a. exists p, q. auto.
  - destruct (composite_facts s1 s2 e L F P1 P2 H1 H2 H3) as (C1 & C2 & C3 & C4).
    apply closure_symmetric_intro;
      rewrite ?points_of_unpack, ?polygons_of_unpack, ?segments_of_unpack; auto.
    + apply C1.
    + intros p Hp Hn. exfalso. apply Hn. fpose F. apply (fr_on2 _ _ _ _ F) in Hp.
      apply (fr_on1 _ _ _ _ F). destruct Hp as (A & B & C). fsplit.
    + intros s p q Hs Hpq (A1 & A2 & A3 & B1 & B2 & B3). destruct (C4 s Hs) as [C4a _]. apply C4a. exists p, q. auto.
  - destruct O1 as (_ & _ & -> & _); auto.
    assert (On := fr_on _ _ _ _ F). assert (On1 := fr_on1 _ _ _ _ F). assert (On2 := fr_on2 _ _ _ _ F).
    assert (X1 := fun p => On (seg_lo s1) (seg_lo s2) ltac:(in4) ltac:(in4) H1 p).
    assert (X2 := fun p => On (seg_hi s1) (seg_hi s2) ltac:(in4) ltac:(in4) H3 p).
    pose proof (plt_neq _ _ H1) as N1. pose proof (plt_neq _ _ H3) as N2. fpose F.
    apply closure_symmetric_intro; cbn [segments_of points_of polygons_of]; auto.
    + intros p Hp Hn. rewrite on_segments_cons, X1. left. rewrite On1 in Hp. rewrite On2 in Hn.
      destruct Hp as (A & B & C). fsplit.
      destruct (Qclt_le_dec (pos e p) (pos e (seg_lo s2))); [qlra|exfalso; apply Hn; fsplit].
    + intros p Hp Hn. rewrite on_segments_cons, on_segments_1, X2. right. rewrite On2 in Hp. rewrite On1 in Hn.
      destruct Hp as (A & B & C). fsplit.
      destruct (Qclt_le_dec (pos e (seg_hi s1)) (pos e p)); [qlra|exfalso; apply Hn; fsplit].
    + intro p. rewrite on_segments_cons, on_segments_1, X1, X2, On1, On2.
      intros [(A & B & C)|(A & B & C)]; [left|right]; fsplit.
    + intros s p q Hs Hpq (A1 & A2 & A3 & B1 & B2 & B3).
      assert (J1 : ~ overlap (Seg (seg_lo s1) (seg_lo s2)) s2).
      { apply (interval_no_overlap e L _ _ (pos e (seg_lo s1)) (pos e (seg_lo s2))
         (pos e (seg_lo s2)) (pos e (seg_hi s2))); auto. left; qlra. }
      assert (J2 : ~ overlap (Seg (seg_hi s1) (seg_hi s2)) s1).
      { apply (interval_no_overlap e L _ _ (pos e (seg_hi s1)) (pos e (seg_hi s2))
         (pos e (seg_lo s1)) (pos e (seg_hi s1))); auto. right; qlra. }
      destruct Hs as [<-|[<-|[]]]; [apply J1|apply J2]; exists p, q; auto.
  - destruct O2 as (_ & _ & -> & _); auto.
    assert (On := fr_on _ _ _ _ F). assert (On1 := fr_on1 _ _ _ _ F). assert (On2 := fr_on2 _ _ _ _ F).
    assert (X1 := fun p => On (seg_lo s2) (seg_lo s1) ltac:(in4) ltac:(in4) H1 p).
    assert (X2 := fun p => On (seg_hi s2) (seg_hi s1) ltac:(in4) ltac:(in4) H3 p).
    pose proof (plt_neq _ _ H1) as N1. pose proof (plt_neq _ _ H3) as N2. fpose F.
    apply closure_symmetric_intro; cbn [segments_of points_of polygons_of]; auto.
    + intros p Hp Hn. rewrite on_segments_cons, on_segments_1, X2. right. rewrite On1 in Hp. rewrite On2 in Hn.
      destruct Hp as (A & B & C). fsplit.
      destruct (Qclt_le_dec (pos e (seg_hi s2)) (pos e p)); [qlra|exfalso; apply Hn; fsplit].
    + intros p Hp Hn. rewrite on_segments_cons, X1. left. rewrite On2 in Hp. rewrite On1 in Hn.
      destruct Hp as (A & B & C). fsplit.
      destruct (Qclt_le_dec (pos e p) (pos e (seg_lo s1))); [qlra|exfalso; apply Hn; fsplit].
    + intro p. rewrite on_segments_cons, on_segments_1, X1, X2, On1, On2.
      intros [(A & B & C)|(A & B & C)]; [right|left]; fsplit.
    + intros s p q Hs Hpq (A1 & A2 & A3 & B1 & B2 & B3).
      assert (J1 : ~ overlap (Seg (seg_lo s2) (seg_lo s1)) s1).
      { apply (interval_no_overlap e L _ _ (pos e (seg_lo s2)) (pos e (seg_lo s1))
         (pos e (seg_lo s1)) (pos e (seg_hi s1))); auto. left; qlra. }
      assert (J2 : ~ overlap (Seg (seg_hi s2) (seg_hi s1)) s2).
      { apply (interval_no_overlap e L _ _ (pos e (seg_hi s2)) (pos e (seg_hi s1))
         (pos e (seg_lo s2)) (pos e (seg_hi s2))); auto. right; qlra. }
      destruct Hs as [<-|[<-|[]]]; [apply J1|apply J2]; exists p, q; auto.
  - destruct (unite_touch s1 s2 x P1 P2 K U E) as (T1 & T2 & T3 & T4).
    apply closure_symmetric_intro; auto.
    + apply T3.
    + intros p Hp _. apply T4. auto.
    + intros p Hp _. apply T4. auto.
    + intros p Hp. apply T4. auto.
    + intros s p q Hs Hpq (A1 & A2 & A3 & B1 & B2 & B3). apply Hpq.
      rewrite (U p), (U q); auto; split; assumption.
  - destruct (unite_cross s1 s2 x P1 P2 U J1 J2 I1) as (T3 & T4).
    apply closure_symmetric_intro; auto.
    + apply T3.
    + intros p Hp _. apply T4. auto.
    + intros p Hp _. apply T4. auto.
    + intros p Hp. apply T4. auto.
    + intros s p q Hs Hpq (A1 & A2 & A3 & B1 & B2 & B3). apply Hpq.
      rewrite (U p), (U q); auto; split; assumption.
  - apply closure_symmetric_intro; cbn [segments_of points_of polygons_of]; auto.
    + intros p Hp _. rewrite on_segments_cons. auto.
    + intros p Hp _. rewrite on_segments_cons, on_segments_1. auto.
    + intros p. rewrite on_segments_cons, on_segments_1. auto.
    + intros s p q Hs Hpq (A1 & A2 & A3 & B1 & B2 & B3). apply (U p). split; assumption.
Qed.
