(** Regions of valid polygons: edges of the modelled code bound them.
    Proof support only, no part of /repo is modelled here. *)
From Coq Require Import Permutation.
From Verif Require Import QcTac Geom Spec SpecShape GeomFacts Toward BoundingThms Relation PairFacts SweepGeo SweepInv SweepSteps Sweep SweepCmp SweepLink SweepRun SweepLoop SweepStart Parity Outline EvenOdd Contour ShrinkThms ConnectThms Tracing TraceThms RegionThms OrientThms.

(** ** Closed lists of edges *)
Lemma even_parity : forall ps, even_occurrences ps <-> forall q, parity (fun p => pt_eqb p q) ps = false.
Proof.
  intro ps. split; intros H q; specialize (H q).
  - rewrite parity_occ, <- Nat.negb_even, H. reflexivity.
  - rewrite parity_occ, <- Nat.negb_even in H. apply negb_false_iff in H. exact H.
Qed.
Lemma links_ends : forall f l x, parity f (endpoints_of (links x l)) = xorb (f x) (f (last l x)).
Proof.
  intros f l. induction l as [|y l IH]; intro x; [cbn; rewrite xorb_nilpotent; reflexivity|].
  cbn [links]. unfold endpoints_of in *. cbn [flat_map app s_start s_end parity]. rewrite IH.
  assert (E : last (y :: l) x = last l y) by (destruct l as [|w l]; [reflexivity|cbn [last]; clear; revert w; induction l as [|a l IHl]; intro w; [reflexivity|apply (IHl a)]]).
  rewrite E. destruct (f x), (f y), (f (last l y)); reflexivity.
Qed.
Lemma contour_even : forall vs, even_occurrences (endpoints_of (contour_edges vs)).
Proof.
  intros [|x l]; [intro p; reflexivity|]. apply even_parity. intro q. rewrite contour_links. unfold endpoints_of. cbn [flat_map app s_start s_end parity].
  fold (endpoints_of (links x l)). rewrite links_ends. destruct (pt_eqb (last l x) q), (pt_eqb x q); reflexivity.
Qed.
Lemma even_app : forall a b, even_occurrences a -> even_occurrences b -> even_occurrences (a ++ b).
Proof. intros a b A B. apply even_parity. intro q. rewrite parity_app. rewrite (proj1 (even_parity a) A q), (proj1 (even_parity b) B q). reflexivity. Qed.
Lemma even_perm : forall a b, Permutation a b -> even_occurrences a -> even_occurrences b.
Proof. intros a b H A. apply even_parity. intro q. rewrite <- (parity_perm _ _ _ H). apply even_parity, A. Qed.
Lemma endpoints_app : forall a b, endpoints_of (a ++ b) = endpoints_of a ++ endpoints_of b.
Proof. intros. apply flat_map_app. Qed.

(** ** Simple contours *)
Definition edge_at := RegionThms.edge_at.
Section Simple.
Variable vs : list point.
Hypothesis Hv : simple_contour vs.
Notation n := (length vs).
Notation es := (contour_edges vs).
Let H3 : (3 <= n)%nat := proj1 Hv.
Let Hnd : NoDup vs := proj1 (proj2 Hv).

Lemma in_edge_at : forall s, In s es <-> exists i, (i < n)%nat /\ s = edge_at vs i.
Proof.
  intros (u, v). rewrite in_contour_edges. split; intros (i & Hi & E); exists i; (split; [exact Hi|]).
  - destruct E as (-> & ->). reflexivity.
  - unfold edge_at, RegionThms.edge_at in E. injection E as -> ->. split; reflexivity.
Qed.
Lemma before_ne : forall i, (i < n)%nat -> before n i <> i.
Proof. intros [|i] Hi; cbn; lia. Qed.
Lemma simple_proper : Forall proper es.
Proof.
  apply Forall_forall. intros s Hs. apply in_edge_at in Hs. destruct Hs as (i & Hi & ->). unfold proper, edge_at, RegionThms.edge_at. cbn [s_start s_end].
  intro E. apply vertex_inj in E; [exact (before_ne i Hi E)|exact Hnd|apply before_lt; exact Hi|exact Hi].
Qed.
Lemma edge_at_inj : forall i j, (i < n)%nat -> (j < n)%nat -> edge_at vs i = edge_at vs j -> i = j.
Proof. intros i j Hi Hj E. apply (f_equal s_end) in E. cbn in E. apply (vertex_inj vs); assumption. Qed.
Lemma simple_nodup : NoDup es.
Proof.
  apply NoDup_nth_error. intros i j Hi E. rewrite contour_edges_length in Hi. rewrite (contour_edges_nth vs i Hi) in E.
  destruct (Nat.lt_ge_cases j n) as [Hj|Hj].
  - rewrite (contour_edges_nth vs j Hj) in E. injection E as E. apply edge_at_inj; try assumption. unfold edge_at, RegionThms.edge_at. congruence.
  - assert (X : nth_error es j = None) by (apply nth_error_None; rewrite contour_edges_length; exact Hj). congruence.
Qed.
Lemma simple_meet : forall s t x, In s es -> In t es -> s <> t -> on_segment x s -> on_segment x t -> endpoint x s /\ endpoint x t.
Proof.
  intros s t x Hs Ht N A B. apply In_nth_error in Hs, Ht. destruct Hs as (i & Ei), Ht as (j & Ej).
  apply (proj2 (proj2 Hv) i j s t); try assumption. intros ->. congruence.
Qed.
Lemma simple_non_overlapping : non_overlapping es.
Proof.
  split; [exact simple_proper|]. intros i j s t N Ei Ej O. destruct (overlap_inside s t O) as (x & (X1 & X2 & X3) & (Y1 & _)).
  destruct (proj2 (proj2 Hv) i j s t N Ei Ej x X1 Y1) as ([E|E] & _); contradiction.
Qed.
Lemma simple_turns : turns_at_least vs.
Proof.
  intros i (Hi & Hl) St. destruct (non_overlapping_never_folds vs) as (_ & F).
  - intros ->. cbn in Hi. lia.
  - exact simple_non_overlapping.
  - specialize (F i Hi St). set (a := vertex vs (before n i)) in *. set (b := vertex vs (after n i)) in *. set (v := vertex vs i) in *.
    assert (A : plt v a).
    { destruct (Hl a) as [E|E]; [apply vertex_in, before_lt, Hi| |exact E]. exfalso. apply vertex_inj in E; [exact (before_ne i Hi E)|exact Hnd|apply before_lt, Hi|exact Hi]. }
    assert (B : plt v b).
    { destruct (Hl b) as [E|E]; [apply vertex_in, after_lt, Hi| |exact E]. exfalso. apply vertex_inj in E; [|exact Hnd|apply after_lt, Hi|exact Hi].
      pose proof (before_after n i Hi) as X. rewrite E in X. exact (before_ne i Hi X). }
    destruct F as (F & _). apply on_segment_norm in F. assert (Lx : ple (seg_lo (Seg a b)) v).
    { destruct (shear_exists [a; b; v]) as (e & He & Hsh). destruct (pt_eq_dec a b) as [E|E].
      - exfalso. rewrite E in F. destruct F as (t & _ & _ & X & Y). assert (v = b) by (apply pt_ext; [rewrite X|rewrite Y]; destruct (seg_lo_hi (Seg b b)) as [(-> & -> & _)|(-> & -> & _)]; cbn; qring).
        rewrite H in B. exact (plt_irrefl _ B).
      - pose proof (seg_lo_lt_hi (Seg a b) E) as L. apply (on_segment_lex _ _ v L) in F. apply F. }
    destruct (seg_lo_hi (Seg a b)) as [(E & _)|(E & _)]; rewrite E in Lx; apply Lx; assumption.
Qed.

Lemma vertex_alone : forall i k, (i < n)%nat -> In k es -> k <> edge_at vs i -> k <> edge_at vs (after n i) -> ~ on_segment (vertex vs i) k.
Proof.
  intros i (u, v) Hi Hk N1 N2 O.
  assert (I1 : In (edge_at vs i) es) by (apply in_edge_at; exists i; split; [exact Hi|reflexivity]).
  assert (I2 : In (edge_at vs (after n i)) es) by (apply in_edge_at; exists (after n i); split; [apply after_lt, Hi|reflexivity]).
  destruct (simple_meet (Seg u v) (edge_at vs i) (vertex vs i) Hk I1 N1 O (on_segment_end (edge_at vs i))) as (E & _).
  assert (E2 : edge_at vs (after n i) = Seg (vertex vs i) (vertex vs (after n i))) by (unfold edge_at, RegionThms.edge_at; rewrite before_after by exact Hi; reflexivity).
  destruct E as [E|E]; cbn in E.
  - apply N2. rewrite E2. rewrite E2, E in I2. rewrite E. f_equal. exact (edge_unique_start vs u v _ Hnd Hk I2).
  - apply N1. change (edge_at vs i) with (Seg (vertex vs (before n i)) (vertex vs i)) in I1 |- *. rewrite E in I1 |- *. f_equal. exact (edge_unique_end vs u _ v Hnd Hk I1).
Qed.

Theorem contour_left : counterclockwise_at_least es -> left_inside es.
Proof.
  intros Hcc s m Hs Hm Halone.
  destruct (shear_exists (m :: endpoints_of es)) as (e & He & Hsh). set (P := m :: endpoints_of es) in *.
  assert (HP : incl (endpoints_of es) P) by (intros x Hx; right; exact Hx).
  pose proof simple_proper as Hpr. pose proof (contour_even vs) as Hev. pose proof simple_nodup as Hnd'. pose proof simple_meet as Hmeet.
  set (D := fun i => xorb (under e es (edge_at vs i) (lo (kp e (edge_at vs i)))) (descends (edge_at vs i))).
  assert (Hlen : forall i, (i < n)%nat -> lo (kp e (edge_at vs i)) < hi (kp e (edge_at vs i))).
  { intros i Hi. apply (k_len e P Hsh es Hpr HP). apply in_edge_at. exists i. split; [exact Hi|reflexivity]. }
  assert (Step : forall i, (S i < n)%nat -> D (S i) = D i).
  { intros i Hi. unfold D. symmetry. assert (Ea : after n i = S i) by (unfold after; destruct (Nat.eqb_spec (S i) n); [lia|reflexivity]).
    apply (consecutive e P Hsh es Hpr HP Hnd' Hev Hmeet).
    - apply in_edge_at. exists i. split; [lia|reflexivity].
    - apply in_edge_at. exists (S i). split; [lia|reflexivity].
    - intro E. apply edge_at_inj in E; lia.
    - reflexivity.
    - intros k Hk N1 N2. cbn. apply vertex_alone; [lia|exact Hk|exact N1|rewrite Ea; exact N2].
    - apply Qcle_refl.
    - apply Hlen. lia.
    - apply Qcle_refl.
    - apply Hlen. lia. }
  assert (All : forall i, (i < n)%nat -> D i = D 0%nat) by (induction i as [|i IH]; intro Hi; [reflexivity|rewrite (Step i Hi); apply IH; lia]).
  assert (D0 : forall i, (i < n)%nat -> D i = false).
  { destruct (orientation_edges vs) as (u & v & w & (L1 & L2 & L3) & _); [intros E; rewrite E in H3; cbn in H3; lia|].
    pose proof (Hcc u v w L1 L2 L3) as C. rewrite Forall_forall in Hpr.
    assert (Pu : plt v u). { destruct (proj1 (L3 _ L1)) as [E|E]; [|exact E]. exfalso. exact (Hpr _ L1 E). }
    assert (Pw : plt v w). { destruct (proj2 (L3 _ L2)) as [E|E]; [|exact E]. exfalso. exact (Hpr _ L2 (eq_sym E)). }
    assert (X : under e es (Seg v w) (lo (kp e (Seg v w))) = false).
    { apply (at_least_vertex e P Hsh es HP u v w L1 L2); try assumption.
      - intro E. injection E as E1 E2. rewrite E1 in Pu. exact (plt_irrefl _ Pu).
      - intros (a, b) Hk N1 N2. destruct (L3 _ Hk) as (A & B). cbn in A, B.
        assert (A' : plt v a) by (destruct A as [A|A]; [exfalso; apply N2; rewrite A in Hk |- *; f_equal; exact (edge_unique_start vs v b w Hnd Hk L2)|exact A]).
        assert (B' : plt v b) by (destruct B as [B|B]; [exfalso; apply N1; rewrite B in Hk |- *; f_equal; exact (edge_unique_end vs a u v Hnd Hk L1)|exact B]).
        destruct (seg_lo_hi (Seg a b)) as [(-> & _)|(-> & _)]; assumption. }
    intros i Hi. apply in_edge_at in L2. destruct L2 as (j & Hj & Ej). rewrite (All i Hi), <- (All j Hj). unfold D. rewrite <- Ej, X.
    unfold descends. cbn. destruct (pt_ltb_spec w v) as [J|J]; [exfalso; exact (plt_irrefl _ (plt_trans _ _ _ Pw J))|reflexivity]. }
  pose proof Hs as Hs'. apply in_edge_at in Hs'. destruct Hs' as (i & Hi & ->). specialize (D0 i Hi). unfold D in D0.
  apply xorb_eq in D0.
  assert (Pm : In m P) by (left; reflexivity). destruct Hm as (M1 & M2 & M3).
  pose proof (proj1 (k_on e P Hsh es Hpr HP _ m Hs) M1) as ((B1 & B2) & B3).
  assert (M4 : m <> seg_hi (edge_at vs i)) by (destruct (seg_lo_hi (edge_at vs i)) as [(_ & -> & _)|(_ & -> & _)]; assumption).
  assert (B2' : pos e m < hi (kp e (edge_at vs i))).
  { destruct (Qcle_lt_or_eq _ _ B2) as [J|J]; [exact J|exfalso]. apply M4. apply (sheared_eq e P Hsh); [exact Pm|exact (proj2 (k_in P es HP _ Hs))|exact J]. }
  rewrite <- (k_inside e P Hsh es Hpr HP (kp e (edge_at vs i)) m Pm (eq_sym B3)).
  - fold (under e es (edge_at vs i) (pos e m)).
    rewrite (under_any e P Hsh es Hpr HP Hev Hmeet (edge_at vs i) (lo (kp e (edge_at vs i))) (pos e m) Hs (Qcle_refl _) (Hlen i Hi) B1 B2').
    rewrite D0. unfold descends. destruct (pt_ltb_spec (s_end (edge_at vs i)) (s_start (edge_at vs i))); split; intro; try assumption; try reflexivity; [discriminate|contradiction].
  - intros t Ht O. right. destruct (segment_eq_dec t (edge_at vs i)) as [->|N]; [apply coll_refl|]. exfalso. exact (Halone t Ht N O).
Qed.
End Simple.
