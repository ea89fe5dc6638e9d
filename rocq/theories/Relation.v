(** Declarative characterisation of [segments_relation] and
    [segments_intersection] (the modelled part of ground). *)
From Coq Require Import Lqa Permutation Sorting.Sorted.
From Verif Require Import QcTac Geom Spec GeomFacts.

(** Sign of a number as an orientation. *)
Definition sgn (x : Qc) : orientation :=
  if Qc_ltb x 0 then CLOCKWISE else if Qc_ltb 0 x then COUNTERCLOCKWISE else COLLINEAR.

Inductive sgn_spec (x : Qc) : orientation -> Prop :=
| SS_neg : x < 0 -> sgn_spec x CLOCKWISE
| SS_zero : x = 0 -> sgn_spec x COLLINEAR
| SS_pos : 0 < x -> sgn_spec x COUNTERCLOCKWISE.
Lemma sgnP : forall x, sgn_spec x (sgn x).
Proof.
  intro x. unfold sgn. destruct (Qc_ltb_spec x 0) as [H|H]; [constructor; exact H|].
  destruct (Qc_ltb_spec 0 x) as [J|J]; constructor; qlra.
Qed.
Lemma sgn_neg : forall x, x < 0 -> sgn x = CLOCKWISE.
Proof. intros x H. destruct (sgnP x); try reflexivity; qlra. Qed.
Lemma sgn_pos : forall x, 0 < x -> sgn x = COUNTERCLOCKWISE.
Proof. intros x H. destruct (sgnP x); try reflexivity; qlra. Qed.
Lemma sgn_zero : forall x, x = 0 -> sgn x = COLLINEAR.
Proof. intros x H. destruct (sgnP x); try reflexivity; qlra. Qed.

Lemma orient_sgn : forall a b c, orient a b c = sgn (cross a b c).
Proof. reflexivity. Qed.

Lemma sgn_scale : forall k x, 0 < k -> sgn (k * x) = sgn x.
Proof.
  intros k x Hk. destruct (sgnP x) as [H|H|H].
  - apply sgn_neg. qnra.
  - apply sgn_zero. rewrite H. ring.
  - apply sgn_pos. qnra.
Qed.

Lemma orient_line : forall e a b p, pos e a < pos e b ->
  orient a b p = sgn (py p - line_at e a b (pos e p)).
Proof.
  intros e a b p H. rewrite orient_sgn, (cross_line e) by (intro; qlra).
  apply sgn_scale. qlra.
Qed.

(** ** Affine functions *)
Lemma line_aff : forall e a b t, line_at e a b t = slope e a b * t + (py a - slope e a b * pos e a).
Proof. intros. unfold line_at. ring. Qed.

Lemma gap_aff : forall e a b c d, exists u v, forall t,
  line_at e a b t - line_at e c d t = u * t + v.
Proof.
  intros e a b c d.
  exists (slope e a b - slope e c d), ((py a - slope e a b * pos e a) - (py c - slope e c d * pos e c)).
  intro t. rewrite !line_aff. ring.
Qed.

Lemma aff_root : forall u v A B : Qc, A < B ->
  u * A + v <= 0 -> 0 <= u * B + v -> u * A + v < u * B + v ->
  exists t, A <= t /\ t <= B /\ u * t + v = 0 /\ (u * A + v < 0 -> A < t) /\ (0 < u * B + v -> t < B).
Proof.
  intros u v A B HAB HA HB Hlt.
  assert (Hu : 0 < u) by (destruct (Qclt_le_dec 0 u) as [|Hle]; [assumption|]; qnra).
  exists (- v / u).
  assert (Ht : u * (- v / u) + v = 0) by (field; intro; qlra).
  set (t := - v / u) in *. clearbody t.
  repeat split.
  - destruct (Qclt_le_dec t A) as [J|J]; [exfalso; qnra|exact J].
  - destruct (Qclt_le_dec B t) as [J|J]; [exfalso; qnra|exact J].
  - exact Ht.
  - intro H. destruct (Qclt_le_dec A t) as [J|J]; [exact J|exfalso; qnra].
  - intro H. destruct (Qclt_le_dec t B) as [J|J]; [exact J|exfalso; qnra].
Qed.

Lemma aff_zero2 : forall u v A B : Qc, A <> B -> u * A + v = 0 -> u * B + v = 0 -> u = 0 /\ v = 0.
Proof.
  intros u v A B H HA HB. assert (Hz : u * (A - B) = 0) by qlra.
  apply Qcmult_integral in Hz. destruct Hz as [Hz|Hz]; [|exfalso; apply H; qlra].
  split; [exact Hz|]. subst u. qlra.
Qed.

Lemma aff_pos_between : forall u v A B t : Qc, A <= t -> t <= B ->
  0 < u * A + v -> 0 < u * B + v -> 0 < u * t + v.
Proof. intros. destruct (Qclt_le_dec 0 u); qnra. Qed.
Lemma aff_neg_between : forall u v A B t : Qc, A <= t -> t <= B ->
  u * A + v < 0 -> u * B + v < 0 -> u * t + v < 0.
Proof. intros. destruct (Qclt_le_dec 0 u); qnra. Qed.
Lemma aff_nonneg_between : forall u v A B t : Qc, A <= t -> t <= B ->
  0 <= u * A + v -> 0 <= u * B + v -> 0 <= u * t + v.
Proof. intros. destruct (Qclt_le_dec 0 u); qnra. Qed.

Lemma aff_root_in : forall u v A B t : Qc, A < B -> u <> 0 -> u * t + v = 0 ->
  (u * A + v <= 0 /\ 0 <= u * B + v \/ 0 <= u * A + v /\ u * B + v <= 0) ->
  A <= t /\ t <= B.
Proof.
  intros u v A B t HAB Hu Ht H.
  destruct (Qc_lt_total u 0) as [Hn|[Hz|Hp]]; [|contradiction|];
    (split; [destruct (Qclt_le_dec t A) as [J|J]; [exfalso|exact J]
            |destruct (Qclt_le_dec B t) as [J|J]; [exfalso|exact J]]);
    destruct H as [[H1 H2]|[H1 H2]]; qnra.
Qed.
Lemma aff_root_eq : forall u v A t : Qc, u <> 0 -> u * t + v = 0 ->
  (u * A + v = 0 <-> t = A).
Proof.
  intros u v A t Hu Ht. split; [|intros <-; exact Ht].
  intro HA. assert (Hz : u * (t - A) = 0) by qlra.
  apply Qcmult_integral in Hz. destruct Hz as [Hz|Hz]; [contradiction|qlra].
Qed.

(** ** Collinear segments share their line. *)
Lemma line_collinear : forall e c d u v t, pos e c < pos e d -> pos e u <> pos e v ->
  cross c d u = 0 -> cross c d v = 0 -> line_at e u v t = line_at e c d t.
Proof.
  intros e c d u v t Hcd Huv Hu Hv.
  rewrite (cross_line e) in Hu, Hv by (intro; qlra).
  assert (Ku : py u = line_at e c d (pos e u)).
  { apply Qcmult_integral in Hu. destruct Hu; qlra. }
  assert (Kv : py v = line_at e c d (pos e v)).
  { apply Qcmult_integral in Hv. destruct Hv; qlra. }
  destruct (gap_aff e u v c d) as (m & k & Hg).
  pose proof (Hg (pos e u)) as G1. pose proof (Hg (pos e v)) as G2.
  rewrite line_at_start in G1. rewrite line_at_end in G2 by exact Huv.
  destruct (aff_zero2 m k (pos e u) (pos e v) Huv) as (-> & ->); [qlra|qlra|].
  pose proof (Hg t) as G3. qlra.
Qed.

(** ** Relation specification *)
Definition collinear4 (s1 s2 : segment) : Prop :=
  cross (s_start s2) (s_end s2) (s_start s1) = 0 /\ cross (s_start s2) (s_end s2) (s_end s1) = 0.

Definition common (s1 s2 : segment) (p : point) : Prop := on_segment p s1 /\ on_segment p s2.

(** Normalised endpoints. *)
Definition norm (s : segment) : segment := Seg (seg_lo s) (seg_hi s).

Inductive relation_spec (test goal : segment) : relation -> Prop :=
| RS_equal : seg_lo test = seg_lo goal -> seg_hi test = seg_hi goal ->
    relation_spec test goal EQUAL
| RS_component : collinear4 (norm test) (norm goal) ->
    ple (seg_lo goal) (seg_lo test) -> ple (seg_hi test) (seg_hi goal) ->
    (seg_lo test <> seg_lo goal \/ seg_hi test <> seg_hi goal) ->
    relation_spec test goal COMPONENT
| RS_composite : collinear4 (norm test) (norm goal) ->
    ple (seg_lo test) (seg_lo goal) -> ple (seg_hi goal) (seg_hi test) ->
    (seg_lo test <> seg_lo goal \/ seg_hi test <> seg_hi goal) ->
    relation_spec test goal COMPOSITE
| RS_overlap : collinear4 (norm test) (norm goal) ->
    (plt (seg_lo test) (seg_lo goal) /\ plt (seg_lo goal) (seg_hi test) /\ plt (seg_hi test) (seg_hi goal)
     \/ plt (seg_lo goal) (seg_lo test) /\ plt (seg_lo test) (seg_hi goal) /\ plt (seg_hi goal) (seg_hi test)) ->
    relation_spec test goal OVERLAP
| RS_touch : forall p, common test goal p -> (forall q, common test goal q -> q = p) ->
    (p = s_start test \/ p = s_end test \/ p = s_start goal \/ p = s_end goal) ->
    relation_spec test goal TOUCH
| RS_cross : forall p, common test goal p -> (forall q, common test goal q -> q = p) ->
    (p <> s_start test /\ p <> s_end test /\ p <> s_start goal /\ p <> s_end goal) ->
    ~ collinear4 (norm test) (norm goal) ->
    relation_spec test goal CROSS
| RS_disjoint : (forall q, ~ common test goal q) -> relation_spec test goal DISJOINT.

Lemma common_norm : forall s1 s2 p, common s1 s2 p <-> common (norm s1) (norm s2) p.
Proof.
  intros. unfold common, norm. rewrite (on_segment_norm s1), (on_segment_norm s2). reflexivity.
Qed.

Lemma ends_norm : forall s p, (p = s_start s \/ p = s_end s) <-> (p = seg_lo s \/ p = seg_hi s).
Proof.
  intros s p. destruct (seg_lo_hi s) as [(-> & -> & _)|(-> & -> & _)]; tauto.
Qed.

Lemma plt_ple : forall p q, plt p q -> ple p q.
Proof. intros. apply ple_lt_eq. left; assumption. Qed.
Lemma ple_antisym : forall p q, ple p q -> ple q p -> p = q.
Proof.
  intros p q H J. apply ple_lt_eq in H. destruct H as [H|H]; [|exact H]. contradiction.
Qed.
Lemma ple_refl : forall p, ple p p.
Proof. intro p. apply plt_irrefl. Qed.
Lemma ple_trans : forall p q r, ple p q -> ple q r -> ple p r.
Proof.
  intros p q r. rewrite !ple_lt_eq. intros [H|H] [J|J]; subst; auto.
  left. eapply plt_trans; eassumption.
Qed.
Lemma plt_ple_trans : forall p q r, plt p q -> ple q r -> plt p r.
Proof. intros p q r H. rewrite ple_lt_eq. intros [J| <-]; [eapply plt_trans; eassumption|exact H]. Qed.
Lemma ple_plt_trans : forall p q r, ple p q -> plt q r -> plt p r.
Proof. intros p q r. rewrite ple_lt_eq. intros [J| ->] H; [eapply plt_trans; eassumption|exact H]. Qed.
Lemma plt_neq : forall p q, plt p q -> p <> q.
Proof. intros p q H ->. exact (plt_irrefl q H). Qed.
Lemma nplt_ple : forall p q, ~ plt p q -> ple q p.
Proof. intros p q H. exact H. Qed.
Lemma nple_plt : forall p q, ~ ple p q -> plt q p.
Proof.
  intros p q H. destruct (plt_total p q) as [J|[J|J]]; [exfalso; apply H; apply plt_ple; exact J| |exact J].
  exfalso. apply H. subst. apply ple_refl.
Qed.

(** Core: relation on normalised endpoints, in sheared coordinates. *)
Lemma norm_id : forall a b, plt a b -> seg_lo (Seg a b) = a /\ seg_hi (Seg a b) = b.
Proof.
  intros a b Hab. unfold seg_lo, seg_hi; cbn. destruct (pt_ltb_spec b a) as [H|H]; auto.
  exfalso. apply (plt_irrefl a). eapply plt_trans; eassumption.
Qed.

Lemma relation_core : forall a b c d, plt a b -> plt c d ->
  relation_spec (Seg a b) (Seg c d) (segments_relation (Seg a b) (Seg c d)).
Proof.
  intros a b c d Hab Hcd.
  destruct (norm_id a b Hab) as [La1 La2]. destruct (norm_id c d Hcd) as [Lc1 Lc2].
  destruct (shear_exists [a; b; c; d]) as (e & He & Hs).
  assert (Pab : pos e a < pos e b) by (apply Hs; cbn; auto).
  assert (Pcd : pos e c < pos e d) by (apply Hs; cbn; auto).
  assert (Hon1 := fun p => on_segment_sheared e a b p Pab).
  assert (Hon2 := fun p => on_segment_sheared e c d p Pcd).
  unfold segments_relation. rewrite La1, La2, Lc1, Lc2.
  destruct (pt_eqb a c && pt_eqb b d) eqn:Eeq.
  { apply andb_true_iff in Eeq. destruct Eeq as [E1 E2].
    destruct (pt_eqb_spec a c); [|discriminate]. destruct (pt_eqb_spec b d); [|discriminate].
    constructor; rewrite ?La1, ?La2, ?Lc1, ?Lc2; assumption. }
  assert (Hne : a <> c \/ b <> d).
  { destruct (pt_eqb_spec a c); [|left; assumption].
    destruct (pt_eqb_spec b d); [discriminate|right; assumption]. }
  clear Eeq.
  assert (Hcol : collinear4 (norm (Seg a b)) (norm (Seg c d)) <-> cross c d a = 0 /\ cross c d b = 0)
    by (unfold collinear4, norm; rewrite La1, La2, Lc1, Lc2; reflexivity).
  destruct (gap_aff e a b c d) as (u & v & Hg).
  assert (Ga : py a - line_at e c d (pos e a) = u * pos e a + v)
    by (rewrite <- Hg, line_at_start; reflexivity).
  assert (Gb : py b - line_at e c d (pos e b) = u * pos e b + v)
    by (rewrite <- Hg, line_at_end by (intro; qlra); reflexivity).
  assert (Gc : py c - line_at e a b (pos e c) = - (u * pos e c + v))
    by (rewrite <- Hg, (line_at_start e c d); ring).
  assert (Gd : py d - line_at e a b (pos e d) = - (u * pos e d + v))
    by (rewrite <- Hg, (line_at_end e c d) by (intro; qlra); ring).
  assert (Ca : cross c d a = (pos e d - pos e c) * (u * pos e a + v))
    by (rewrite (cross_line e), Ga by (intro; qlra); reflexivity).
  assert (Cb : cross c d b = (pos e d - pos e c) * (u * pos e b + v))
    by (rewrite (cross_line e), Gb by (intro; qlra); reflexivity).
  rewrite (orient_line e c d a Pcd), (orient_line e c d b Pcd),
    (orient_line e a b c Pab), (orient_line e a b d Pab), Ga, Gb, Gc, Gd.
  assert (Hcom : forall p, common (Seg a b) (Seg c d) p ->
     pos e a <= pos e p /\ pos e p <= pos e b /\ pos e c <= pos e p /\ pos e p <= pos e d
     /\ py p = line_at e a b (pos e p) /\ u * pos e p + v = 0).
  { intros p [H1 H2]. apply Hon1 in H1. apply Hon2 in H2. pose proof (Hg (pos e p)).
    destruct H1 as (? & ? & H1), H2 as (? & ? & H2). repeat split; try assumption. qlra. }
  assert (Hcom' : forall p, pos e a <= pos e p -> pos e p <= pos e b -> pos e c <= pos e p ->
     pos e p <= pos e d -> py p = line_at e a b (pos e p) -> u * pos e p + v = 0 ->
     common (Seg a b) (Seg c d) p).
  { intros p H1 H2 H3 H4 H5 H6. pose proof (Hg (pos e p)). split.
    - apply Hon1. auto.
    - apply Hon2. repeat split; try assumption. qlra. }
  clear Ga Gb Gc Gd.
  (* collinear *)
  assert (DZ : (u * pos e a + v = 0 /\ u * pos e b + v = 0)
               \/ ~ (u * pos e a + v = 0 /\ u * pos e b + v = 0)).
  { destruct (Qc_eq_dec (u * pos e a + v) 0); [|tauto].
    destruct (Qc_eq_dec (u * pos e b + v) 0); tauto. }
  destruct DZ as [[Za Zb]|NZ].
  { rewrite !(sgn_zero (u * _ + v)) by assumption.
    destruct (aff_zero2 u v (pos e a) (pos e b)) as [-> ->]; [intro; qlra|assumption|assumption|].
    assert (K : collinear4 (norm (Seg a b)) (norm (Seg c d))).
    { apply Hcol. rewrite Ca, Cb. split; ring. }
    assert (Hlt : forall p q, In p [a;b;c;d] -> In q [a;b;c;d] -> (plt p q <-> pos e p < pos e q))
      by (apply sheared_lt; exact Hs).
    assert (Heq : forall p q, In p [a;b;c;d] -> In q [a;b;c;d] -> (p = q <-> pos e p = pos e q))
      by (apply sheared_eq; exact Hs).
    assert (Ib : common (Seg a b) (Seg c d) b <-> pos e c <= pos e b /\ pos e b <= pos e d).
    { split.
      - intro H. apply Hcom in H. tauto.
      - intros [H1 H2]. apply Hcom'; try qlra. rewrite line_at_end; [reflexivity|intro; qlra]. }
    assert (Ia : common (Seg a b) (Seg c d) a <-> pos e c <= pos e a /\ pos e a <= pos e d).
    { split.
      - intro H. apply Hcom in H. tauto.
      - intros [H1 H2]. apply Hcom'; try qlra. rewrite line_at_start; reflexivity. }
    destruct (pt_ltb_spec b c) as [H1|H1]; cbn [orb].
    { constructor. intros q Hq. apply Hcom in Hq. apply Hlt in H1; cbn; auto. qlra. }
    destruct (pt_ltb_spec d a) as [H2|H2].
    { constructor. intros q Hq. apply Hcom in Hq. apply Hlt in H2; cbn; auto. qlra. }
    destruct (pt_eqb_spec b c) as [H3|H3]; cbn [orb].
    { subst c. apply RS_touch with b.
      - apply Ib. split; qlra.
      - intros q Hq. apply Hcom in Hq. destruct Hq as (? & ? & ? & ? & Hy & _).
        assert (Hpq : pos e q = pos e b) by qlra.
        apply (pos_inj e); [exact Hpq|]. rewrite Hy, Hpq. apply line_at_end. intro; qlra.
      - cbn. auto. }
    destruct (pt_eqb_spec d a) as [H4|H4]; cbn [orb].
    { subst d. apply RS_touch with a.
      - apply Ia. split; qlra.
      - intros q Hq. apply Hcom in Hq. destruct Hq as (? & ? & ? & ? & Hy & _).
        assert (Hpq : pos e q = pos e a) by qlra.
        apply (pos_inj e); [exact Hpq|]. rewrite Hy, Hpq. apply line_at_start.
      - cbn. auto. }
    destruct (pt_leb_spec c a) as [H5|H5]; cbn [andb];
      [destruct (pt_leb_spec b d) as [H6|H6]|].
    { apply RS_component; rewrite ?La1, ?La2, ?Lc1, ?Lc2; assumption. }
    { destruct (pt_leb_spec a c) as [H7|H7]; cbn [andb]; [destruct (pt_leb_spec d b) as [H8|H8]|].
      - apply RS_composite; rewrite ?La1, ?La2, ?Lc1, ?Lc2; assumption.
      - exfalso. apply nple_plt in H6, H8. apply (plt_irrefl b). eapply plt_trans; eassumption.
      - apply RS_overlap; [exact K|]. rewrite ?La1, ?La2, ?Lc1, ?Lc2. right.
        apply nple_plt in H6, H7. repeat split; try assumption.
        apply nplt_ple, ple_lt_eq in H2. destruct H2 as [H2|H2]; [exact H2|congruence]. }
    { destruct (pt_leb_spec a c) as [H7|H7]; cbn [andb]; [destruct (pt_leb_spec d b) as [H8|H8]|].
      - apply RS_composite; rewrite ?La1, ?La2, ?Lc1, ?Lc2; assumption.
      - apply RS_overlap; [exact K|]. rewrite ?La1, ?La2, ?Lc1, ?Lc2. left.
        apply nple_plt in H5, H8. repeat split; try assumption.
        apply nplt_ple, ple_lt_eq in H1. destruct H1 as [H1|H1]; [exact H1|congruence].
      - exfalso. apply nple_plt in H5, H7. apply (plt_irrefl a). eapply plt_trans; eassumption. } }
  (* not collinear *)
  assert (NC : ~ collinear4 (norm (Seg a b)) (norm (Seg c d))).
  { rewrite Hcol, Ca, Cb. intros [H1 H2]. apply Qcmult_integral in H1. apply Qcmult_integral in H2.
    destruct H1; [qlra|]. destruct H2; [qlra|]. tauto. }
  assert (NZ' : ~ (u * pos e c + v = 0 /\ u * pos e d + v = 0)).
  { intros [H1 H2]. destruct (aff_zero2 u v (pos e c) (pos e d)) as [-> ->]; [intro; qlra|assumption|assumption|].
    apply NZ. split; ring. }
  assert (Hroot : u <> 0 ->
       (u * pos e a + v <= 0 /\ 0 <= u * pos e b + v \/ 0 <= u * pos e a + v /\ u * pos e b + v <= 0) ->
       (u * pos e c + v <= 0 /\ 0 <= u * pos e d + v \/ 0 <= u * pos e c + v /\ u * pos e d + v <= 0) ->
       exists p, common (Seg a b) (Seg c d) p /\
        (forall q, common (Seg a b) (Seg c d) q -> q = p)
        /\ (p = a <-> u * pos e a + v = 0) /\ (p = b <-> u * pos e b + v = 0)
        /\ (p = c <-> u * pos e c + v = 0) /\ (p = d <-> u * pos e d + v = 0)).
  { intros Hu0 Sab Scd.
    assert (T5 : exists t, u * t + v = 0) by (exists (- v / u); field; exact Hu0).
    destruct T5 as (t & T5).
    destruct (aff_root_in u v _ _ t Pab Hu0 T5 Sab) as [T1 T2].
    destruct (aff_root_in u v _ _ t Pcd Hu0 T5 Scd) as [T3 T4].
    exists (at_pos e t (line_at e a b t)).
    assert (Hpt : pos e (at_pos e t (line_at e a b t)) = t) by apply pos_at.
    assert (Hpy : py (at_pos e t (line_at e a b t)) = line_at e a b t) by reflexivity.
    set (p := at_pos e t (line_at e a b t)) in *. clearbody p.
    split; [apply Hcom'; rewrite ?Hpt; try assumption; reflexivity|].
    split.
    { intros q Hq; apply Hcom in Hq; destruct Hq as (? & ? & ? & ? & Hy & Hz).
      assert (Hqt : pos e q = t) by (symmetry; apply (aff_root_eq u v (pos e q) t Hu0 T5); exact Hz).
      apply (pos_inj e); [congruence|]. rewrite Hy, Hqt. symmetry; exact Hpy. }
    rewrite !(fun A => aff_root_eq u v A t Hu0 T5).
    pose proof (Hg t) as Gt.
    repeat split; intro H.
    - rewrite <- H. symmetry; exact Hpt.
    - apply (pos_inj e); [congruence|]. rewrite Hpy, H. apply line_at_start.
    - rewrite <- H. symmetry; exact Hpt.
    - apply (pos_inj e); [congruence|]. rewrite Hpy, H. apply line_at_end. intro; qlra.
    - rewrite <- H. symmetry; exact Hpt.
    - apply (pos_inj e); [congruence|]. rewrite Hpy, <- (line_at_start e c d), <- H. qlra.
    - rewrite <- H. symmetry; exact Hpt.
    - apply (pos_inj e); [congruence|]. rewrite Hpy, <- (line_at_end e c d), <- H by (intro; qlra). qlra. }
  assert (Hd1 : (0 < u * pos e a + v /\ 0 < u * pos e b + v) \/ (u * pos e a + v < 0 /\ u * pos e b + v < 0)
                -> forall q, ~ common (Seg a b) (Seg c d) q).
  { intros H q Hq. apply Hcom in Hq. destruct Hq as (Q1 & Q2 & Q3 & Q4 & _ & Hz).
    destruct H as [[H1 H2]|[H1 H2]].
    - pose proof (aff_pos_between u v _ _ (pos e q) Q1 Q2 H1 H2). qlra.
    - pose proof (aff_neg_between u v _ _ (pos e q) Q1 Q2 H1 H2). qlra. }
  assert (Hd2 : (0 < u * pos e c + v /\ 0 < u * pos e d + v) \/ (u * pos e c + v < 0 /\ u * pos e d + v < 0)
                -> forall q, ~ common (Seg a b) (Seg c d) q).
  { intros H q Hq. apply Hcom in Hq. destruct Hq as (Q1 & Q2 & Q3 & Q4 & _ & Hz).
    destruct H as [[H1 H2]|[H1 H2]].
    - pose proof (aff_pos_between u v _ _ (pos e q) Q3 Q4 H1 H2). qlra.
    - pose proof (aff_neg_between u v _ _ (pos e q) Q3 Q4 H1 H2). qlra. }
  assert (Hu0 : u * pos e a + v <> u * pos e b + v -> u <> 0).
  { intros H ->. apply H. ring. }
  remember (u * pos e a + v) as ha eqn:Xa. clear Xa.
  remember (u * pos e b + v) as hb eqn:Xb. clear Xb.
  remember (u * pos e c + v) as hc eqn:Xc. clear Xc.
  remember (u * pos e d + v) as hd eqn:Xd. clear Xd.
  destruct (sgnP ha) as [Sa|Sa|Sa], (sgnP hb) as [Sb|Sb|Sb]; try (exfalso; tauto);
    cbn [orientation_eqb];
    try (constructor; apply Hd1; tauto);
    (destruct (sgnP (- hc)) as [Sc|Sc|Sc], (sgnP (- hd)) as [Sd|Sd|Sd];
      try (exfalso; apply NZ'; split; qlra);
      cbn [orientation_eqb andb orb negb];
      try (constructor; apply Hd2; (left; split; qlra) || (right; split; qlra));
      (destruct Hroot as (p & Hp & Hun & Ea & Eb & Ec & Ed);
      [apply Hu0; intro; qlra
      |(left; split; qlra) || (right; split; qlra)
      |(left; split; qlra) || (right; split; qlra)
      |])).
  all: first [ apply (RS_touch _ _ p Hp Hun); cbn;
               first [left; apply Ea; qlra | right; left; apply Eb; qlra
                     | right; right; left; apply Ec; qlra | right; right; right; apply Ed; qlra]
             | apply (RS_cross _ _ p Hp Hun); [cbn; rewrite Ea, Eb, Ec, Ed; repeat split; intro; qlra|exact NC] ].
Qed.

Lemma seg_norm_lo : forall s, proper s -> seg_lo (norm s) = seg_lo s /\ seg_hi (norm s) = seg_hi s.
Proof. intros s H. apply norm_id. apply seg_lo_lt_hi. exact H. Qed.

Theorem segments_relation_spec : forall test goal, proper test -> proper goal ->
  relation_spec test goal (segments_relation test goal).
Proof.
  intros s1 s2 P1 P2.
  pose proof (relation_core _ _ _ _ (seg_lo_lt_hi _ P1) (seg_lo_lt_hi _ P2)) as H.
  destruct (seg_norm_lo s1 P1) as [A1 A2]. destruct (seg_norm_lo s2 P2) as [B1 B2].
  fold (norm s1) in *. fold (norm s2) in *.
  assert (Hr : segments_relation (norm s1) (norm s2) = segments_relation s1 s2).
  { unfold segments_relation. rewrite A1, A2, B1, B2. reflexivity. }
  rewrite Hr in H.
  assert (N1 : norm (norm s1) = norm s1) by (unfold norm at 1; rewrite A1, A2; reflexivity).
  assert (N2 : norm (norm s2) = norm s2) by (unfold norm at 1; rewrite B1, B2; reflexivity).
  inversion H as [E1 E2 Hx|K E1 E2 E3 Hx|K E1 E2 E3 Hx|K E1 Hx|p K E1 E2 Hx|p K E1 E2 E3 Hx|E1 Hx];
    rewrite ?N1, ?N2, ?A1, ?A2, ?B1, ?B2 in *.
  - constructor; assumption.
  - apply RS_component; assumption.
  - apply RS_composite; assumption.
  - apply RS_overlap; assumption.
  - apply (RS_touch _ _ p).
    + apply common_norm. exact K.
    + intros q Hq. apply E1. apply common_norm in Hq. exact Hq.
    + pose proof (ends_norm s1 p) as M1. pose proof (ends_norm s2 p) as M2. cbn in E2. tauto.
  - apply (RS_cross _ _ p).
    + apply common_norm. exact K.
    + intros q Hq. apply E1. apply common_norm in Hq. exact Hq.
    + pose proof (ends_norm s1 p) as M1. pose proof (ends_norm s2 p) as M2. cbn in E2. tauto.
    + exact E3.
  - constructor. intros q Hq. apply common_norm in Hq. exact (E1 q Hq).
Qed.
