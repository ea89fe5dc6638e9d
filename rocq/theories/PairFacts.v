(** Proofs about the two-segment operations of [Pair.v]. *)
From Coq Require Import Lqa Permutation Sorting.Sorted.
From Verif Require Import QcTac Geom Spec GeomFacts Relation SortFacts Pair.

(** ** Intersection point *)
Lemma collinear_frame : forall s1 s2, proper s1 -> proper s2 -> collinear4 (norm s1) (norm s2) ->
  exists e L, Sheared e [seg_lo s1; seg_hi s1; seg_lo s2; seg_hi s2] /\
   forall u v, In u [seg_lo s1; seg_hi s1; seg_lo s2; seg_hi s2] ->
     In v [seg_lo s1; seg_hi s1; seg_lo s2; seg_hi s2] -> plt u v ->
     forall p, on_segment p (Seg u v) <->
       pos e u <= pos e p /\ pos e p <= pos e v /\ py p = L (pos e p).
Proof.
  intros s1 s2 P1 P2 [C1 C2]. cbn [s_start s_end norm] in C1, C2.
  destruct (shear_exists [seg_lo s1; seg_hi s1; seg_lo s2; seg_hi s2]) as (e & He & Hs).
  assert (H2 : pos e (seg_lo s2) < pos e (seg_hi s2))
    by (apply Hs; [cbn; auto|cbn; auto|apply seg_lo_lt_hi; exact P2]).
  exists e, (line_at e (seg_lo s2) (seg_hi s2)). split; [exact Hs|].
  intros u v Iu Iv Huv p. apply Hs in Huv; try assumption.
  rewrite (on_segment_sheared e u v p Huv).
  assert (Cx : forall x, In x [seg_lo s1; seg_hi s1; seg_lo s2; seg_hi s2] ->
            cross (seg_lo s2) (seg_hi s2) x = 0).
  { intros x [<-|[<-|[<-|[<-|[]]]]]; try assumption; unfold cross; ring. }
  rewrite (line_collinear e (seg_lo s2) (seg_hi s2) u v) by
    (auto; intro; qlra). reflexivity.
Qed.

Lemma no_overlap_unique : forall s1 s2 p, (forall q, common s1 s2 q -> q = p) -> ~ overlap s1 s2.
Proof.
  intros s1 s2 p H (a & b & Hab & A1 & A2 & B1 & B2). apply Hab.
  rewrite (H a), (H b); [reflexivity| |]; split; assumption.
Qed.
Lemma no_overlap_none : forall s1 s2, (forall q, ~ common s1 s2 q) -> ~ overlap s1 s2.
Proof. intros s1 s2 H (a & b & Hab & A1 & A2 & B1 & B2). apply (H a). split; assumption. Qed.

Lemma overlap_sym : forall s1 s2, overlap s1 s2 -> overlap s2 s1.
Proof. intros s1 s2 (a & b & H & H1 & H2 & H3 & H4). exists a, b. auto 10. Qed.
Lemma crosses_sym : forall s1 s2, crosses s1 s2 -> crosses s2 s1.
Proof. intros s1 s2 (H & p & H1 & H2). split; [intro J; apply H, overlap_sym, J|]. exists p. auto. Qed.

Lemma segments_intersection_unique : forall s1 s2 p, proper s1 -> proper s2 ->
  common s1 s2 p -> (forall q, common s1 s2 q -> q = p) ->
  segments_intersection s1 s2 = p.
Proof.
  intros s1 s2 p P1 P2 Hp Hun. unfold segments_intersection.
  assert (E1 : forall x, (x = s_start s1 \/ x = s_end s1) -> (x = s_start s2 \/ x = s_end s2) -> x = p).
  { intros x [->| ->] [H|H]; apply Hun; split; rewrite ?H;
      auto using on_segment_start, on_segment_end; rewrite <- H;
      auto using on_segment_start, on_segment_end. }
  destruct (pt_eqb_spec (s_start s1) (s_start s2)) as [H1|H1]; cbn [orb]; [apply E1; auto|].
  destruct (pt_eqb_spec (s_start s1) (s_end s2)) as [H2|H2]; cbn [orb]; [apply E1; auto|].
  destruct (pt_eqb_spec (s_end s1) (s_start s2)) as [H3|H3]; cbn [orb]; [apply E1; auto|].
  destruct (pt_eqb_spec (s_end s1) (s_end s2)) as [H4|H4]; cbn [orb]; [apply E1; auto|].
  set (a := s_start s1) in *. set (b := s_end s1) in *.
  set (c := s_start s2) in *. set (d := s_end s2) in *.
  destruct Hp as [(t & T0 & T1 & Tx & Ty) Hp2]. fold a b in Tx, Ty.
  assert (Hcd : cross c d p = 0).
  { destruct Hp2 as (r & R0 & R1 & Rx & Ry). fold c d in Rx, Ry. unfold cross. rewrite Rx, Ry. ring. }
  assert (Hlin : cross c d a + t * (cross c d b - cross c d a) = 0).
  { rewrite <- Hcd. unfold cross. rewrite Tx, Ty. ring. }
  destruct (Qc_eq_dec (cross c d a) (cross c d b)) as [He|He].
  - (* collinear: impossible *)
    exfalso. assert (Za : cross c d a = 0) by (rewrite He in Hlin; rewrite <- Hlin, He; ring).
    assert (Zb : cross c d b = 0) by congruence.
    assert (K : collinear4 (norm s1) (norm s2)).
    { unfold collinear4, norm; cbn [s_start s_end].
      destruct (seg_lo_hi s1) as [(-> & -> & _)|(-> & -> & _)],
               (seg_lo_hi s2) as [(-> & -> & _)|(-> & -> & _)];
        fold a b c d; split; try assumption;
        (replace (cross d c a) with (- cross c d a) by (unfold cross; ring)) ||
        (replace (cross d c b) with (- cross c d b) by (unfold cross; ring)) || idtac;
        rewrite ?Za, ?Zb; reflexivity. }
    destruct (collinear_frame s1 s2 P1 P2 K) as (e & L & Hs & Hf).
    pose proof (seg_lo_lt_hi s1 P1) as L1. pose proof (seg_lo_lt_hi s2 P2) as L2.
    set (l1 := seg_lo s1) in *. set (h1 := seg_hi s1) in *.
    set (l2 := seg_lo s2) in *. set (h2 := seg_hi s2) in *.
    assert (Hc : forall q, common s1 s2 q <->
      (pos e l1 <= pos e q /\ pos e q <= pos e h1 /\ py q = L (pos e q)) /\
      (pos e l2 <= pos e q /\ pos e q <= pos e h2 /\ py q = L (pos e q))).
    { intro q. rewrite common_norm. unfold common, norm. fold l1 h1 l2 h2.
      rewrite !Hf by (cbn; auto). reflexivity. }
    assert (In4 : forall x, In x [l1; h1; l2; h2] -> py x = L (pos e x)).
    { intros x Hx. assert (Hon : on_segment x (Seg l1 h1) \/ on_segment x (Seg l2 h2)).
      { destruct Hx as [<-|[<-|[<-|[<-|[]]]]];
          [left; apply (on_segment_start (Seg l1 h1))|left; apply (on_segment_end (Seg l1 h1))
          |right; apply (on_segment_start (Seg l2 h2))|right; apply (on_segment_end (Seg l2 h2))]. }
      destruct Hon as [Hon|Hon]; apply Hf in Hon; cbn; auto; tauto. }
    assert (Hpc : common s1 s2 p) by (split; [exists t; auto|exact Hp2]).
    apply Hc in Hpc.
    apply (Hs l1 h1) in L1; [|cbn; auto|cbn; auto]. apply (Hs l2 h2) in L2; [|cbn; auto|cbn; auto].
    assert (Hne : forall x y, (x = l1 \/ x = h1) -> (y = l2 \/ y = h2) -> pos e x <> pos e y).
    { intros x y Hx Hy Hxy.
      assert (x = y).
      { apply (sheared_eq e _ Hs); [destruct Hx as [->| ->]; cbn; auto|destruct Hy as [->| ->]; cbn; auto|exact Hxy]. }
      subst y. apply ends_norm in Hx. apply ends_norm in Hy.
      fold a b in Hx. fold c d in Hy. destruct Hx as [Hx|Hx], Hy as [Hy|Hy]; congruence. }
    (* the greater start and the smaller end are distinct common points *)
    assert (Hx : exists x y, common s1 s2 x /\ common s1 s2 y /\ pos e x <> pos e y).
    { destruct (Qclt_le_dec (pos e l1) (pos e l2)) as [A1|A1];
      destruct (Qclt_le_dec (pos e h1) (pos e h2)) as [B1|B1].
      - exists l2, h1. rewrite !Hc, !In4 by (cbn; auto).
        pose proof (Hne h1 l2 ltac:(auto) ltac:(auto)). repeat split; first [qlra|congruence].
      - exists l2, h2. rewrite !Hc, !In4 by (cbn; auto). repeat split; qlra.
      - exists l1, h1. rewrite !Hc, !In4 by (cbn; auto). repeat split; qlra.
      - exists l1, h2. rewrite !Hc, !In4 by (cbn; auto).
        pose proof (Hne l1 h2 ltac:(auto) ltac:(auto)). repeat split; first [qlra|congruence]. }
    destruct Hx as (x & y & Hx & Hy & Hxy). apply Hxy.
    rewrite (Hun x Hx), (Hun y Hy). reflexivity.
  - assert (Ht : cross c d a / (cross c d a - cross c d b) = t).
    { assert (Hz : cross c d a - cross c d b <> 0) by (intro; apply He; qlra).
      assert (Hq : cross c d a / (cross c d a - cross c d b) * (cross c d a - cross c d b) = cross c d a)
        by (field; exact Hz).
      set (q := cross c d a / (cross c d a - cross c d b)) in *. clearbody q.
      assert (Hm : (q - t) * (cross c d a - cross c d b) = 0) by qlra.
      apply Qcmult_integral in Hm. destruct Hm as [Hm|Hm]; [qlra|contradiction]. }
    rewrite Ht. apply pt_ext; cbn; symmetry; assumption.
Qed.

Lemma sorted4_eq : forall a b c d w x y z, Permutation [a; b; c; d] [w; x; y; z] ->
  ple w x -> ple x y -> ple y z -> sorted4 a b c d = (w, x, y, z).
Proof.
  intros a b c d w x y z P H1 H2 H3. unfold sorted4.
  rewrite (sorted_points_unique _ _ P); [reflexivity|].
  assert (ple w y) by (eapply ple_trans; eassumption).
  assert (ple x z) by (eapply ple_trans; eassumption).
  assert (ple w z) by (eapply ple_trans; eassumption).
  repeat constructor; assumption.
Qed.

Lemma perm4 : forall s1 s2,
  Permutation [s_start s1; s_end s1; s_start s2; s_end s2] [seg_lo s1; seg_hi s1; seg_lo s2; seg_hi s2].
Proof.
  intros s1 s2.
  destruct (seg_lo_hi s1) as [(-> & -> & _)|(-> & -> & _)],
           (seg_lo_hi s2) as [(-> & -> & _)|(-> & -> & _)].
  - reflexivity.
  - constructor. constructor. constructor.
  - constructor.
  - etransitivity; [apply perm_swap|]. do 2 constructor. constructor.
Qed.
