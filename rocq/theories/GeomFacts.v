(** Facts about the geometric primitives: lexicographic order, shear to
    general position, lines as affine functions, characterisation of
    [segments_relation] and [segments_intersection]. *)
From Coq Require Import Lqa Permutation Sorting.Sorted.
From Verif Require Import QcTac Geom Spec.

Lemma pt_ext : forall p q, px p = px q -> py p = py q -> p = q.
Proof. intros [x y] [x' y']; cbn; intros; subst; reflexivity. Qed.

Lemma pt_eqb_spec : forall p q, reflect (p = q) (pt_eqb p q).
Proof.
  intros p q. unfold pt_eqb.
  destruct (Qc_eqb_spec (px p) (px q)) as [Hx|Hx], (Qc_eqb_spec (py p) (py q)) as [Hy|Hy];
    constructor; try (intro H; subst; congruence).
  apply pt_ext; assumption.
Qed.
Lemma pt_eqb_refl : forall p, pt_eqb p p = true.
Proof. intro p. destruct (pt_eqb_spec p p); congruence. Qed.

Definition pt_eq_dec (p q : point) : {p = q} + {p <> q}.
Proof. destruct (pt_eqb_spec p q); [left|right]; assumption. Defined.

(** Lexicographic order. *)
Definition ple (p q : point) : Prop := ~ plt q p.

Lemma pt_ltb_spec : forall p q, reflect (plt p q) (pt_ltb p q).
Proof.
  intros p q. unfold pt_ltb, plt.
  destruct (Qc_ltb_spec (px p) (px q)) as [Hx|Hx]; cbn; [constructor; left; exact Hx|].
  destruct (Qc_eqb_spec (px p) (px q)) as [He|He]; cbn.
  - destruct (Qc_ltb_spec (py p) (py q)) as [Hy|Hy]; constructor; [right; split; assumption|].
    intros [H|[_ H]]; contradiction.
  - constructor. intros [H|[H _]]; contradiction.
Qed.
Lemma pt_leb_spec : forall p q, reflect (ple p q) (pt_leb p q).
Proof.
  intros p q. unfold pt_leb, ple. destruct (pt_ltb_spec q p) as [H|H]; constructor.
  - intro H'. apply H'. exact H.
  - exact H.
Qed.

Lemma plt_irrefl : forall p, ~ plt p p.
Proof. intros p [H|[_ H]]; qlra. Qed.
Lemma plt_trans : forall p q r, plt p q -> plt q r -> plt p r.
Proof.
  unfold plt; intros p q r [H|[H H']] [J|[J J']].
  - left; qlra.
  - left; rewrite <- J; exact H.
  - left; rewrite H; exact J.
  - right; split; [congruence|qlra].
Qed.
Lemma plt_total : forall p q, plt p q \/ p = q \/ plt q p.
Proof.
  intros p q. destruct (Qc_lt_total (px p) (px q)) as [H|[H|H]].
  - left; left; exact H.
  - destruct (Qc_lt_total (py p) (py q)) as [J|[J|J]].
    + left; right; split; assumption.
    + right; left; apply pt_ext; assumption.
    + right; right; right; split; [symmetry; exact H|exact J].
  - right; right; left; exact H.
Qed.
Lemma ple_lt_eq : forall p q, ple p q <-> plt p q \/ p = q.
Proof.
  intros p q. unfold ple. split.
  - intro H. destruct (plt_total p q) as [J|[J|J]]; [left; exact J|right; exact J|contradiction].
  - intros [H|H] J.
    + apply (plt_irrefl p). eapply plt_trans; eassumption.
    + subst. apply (plt_irrefl q J).
Qed.

(** ** Shear: a linear functional agreeing with the lexicographic order on
    finitely many points. *)
Definition pos (e : Qc) (p : point) : Qc := px p + e * py p.

Definition lex_ok (e : Qc) (p q : point) : Prop := plt p q -> pos e p < pos e q.

Lemma shear_pair : forall p q, exists e0, 0 < e0 /\ forall e, 0 < e -> e <= e0 -> lex_ok e p q.
Proof.
  intros p q. unfold lex_ok, pos.
  destruct (Qc_lt_total (px p) (px q)) as [H|[H|H]].
  - destruct (Qclt_le_dec (py q) (py p)) as [Hy|Hy].
    + set (e0 := (px q - px p) / ((py p - py q) + (py p - py q))).
      assert (Hd : e0 * ((py p - py q) + (py p - py q)) = px q - px p).
      { unfold e0. field. intro Hz. qlra. }
      assert (He0 : 0 < e0).
      { destruct (Qclt_le_dec 0 e0) as [H0|H0]; [exact H0|].
        exfalso. clearbody e0.
        assert (0 < (py p - py q) + (py p - py q)) by qlra. qnra. }
      exists e0. split; [exact He0|]. intros e He Hle _.
      clearbody e0.
      assert (e * (py p - py q) <= e0 * (py p - py q)) by qnra.
      qlra.
    + exists 1. split; [reflexivity|]. intros e He _ _. 
      assert (e * py p <= e * py q) by qnra. qlra.
  - exists 1. split; [reflexivity|]. intros e He _ [H'|[_ H']]; [qlra|].
    rewrite H. assert (e * py p < e * py q) by qnra. qlra.
  - exists 1. split; [reflexivity|]. intros e He _ [H'|[H' _]]; qlra.
Qed.

Lemma Qc_min_le_l : forall a b, Qc_min a b <= a.
Proof. intros a b. unfold Qc_min. destruct (Qc_ltb_spec b a); qlra. Qed.
Lemma Qc_min_le_r : forall a b, Qc_min a b <= b.
Proof. intros a b. unfold Qc_min. destruct (Qc_ltb_spec b a); qlra. Qed.
Lemma Qc_min_lt : forall a b c, c < a -> c < b -> c < Qc_min a b.
Proof. intros a b c. unfold Qc_min. destruct (Qc_ltb b a); auto. Qed.
Lemma Qc_min_cases : forall a b, (Qc_min a b = a /\ a <= b) \/ (Qc_min a b = b /\ b < a).
Proof. intros a b. unfold Qc_min. destruct (Qc_ltb_spec b a); [right|left]; split; auto; qlra. Qed.
Lemma Qc_max_cases : forall a b, (Qc_max a b = a /\ b <= a) \/ (Qc_max a b = b /\ a < b).
Proof. intros a b. unfold Qc_max. destruct (Qc_ltb_spec a b); [right|left]; split; auto; qlra. Qed.

Lemma shear_one : forall p l, exists e0, 0 < e0 /\ forall e, 0 < e -> e <= e0 ->
  forall q, In q l -> lex_ok e p q /\ lex_ok e q p.
Proof.
  intros p l. induction l as [|q l IH].
  - exists 1. split; [reflexivity|]. intros e _ _ q [].
  - destruct IH as (e1 & He1 & IH).
    destruct (shear_pair p q) as (e2 & He2 & H2).
    destruct (shear_pair q p) as (e3 & He3 & H3).
    exists (Qc_min e1 (Qc_min e2 e3)).
    split; [repeat apply Qc_min_lt; assumption|].
    pose proof (Qc_min_le_l e1 (Qc_min e2 e3)) as L1.
    pose proof (Qc_min_le_r e1 (Qc_min e2 e3)) as L2.
    pose proof (Qc_min_le_l e2 e3) as L3.
    pose proof (Qc_min_le_r e2 e3) as L4.
    intros e He Hle r [Hr|Hr].
    + subst r. split; [apply H2|apply H3]; try exact He; qlra.
    + apply IH; [exact He|qlra|exact Hr].
Qed.

Lemma shear_all : forall l, exists e0, 0 < e0 /\ forall e, 0 < e -> e <= e0 ->
  forall p q, In p l -> In q l -> lex_ok e p q.
Proof.
  induction l as [|r l IH].
  - exists 1. split; [reflexivity|]. intros e _ _ p q [].
  - destruct IH as (e1 & He1 & IH).
    destruct (shear_one r (r :: l)) as (e2 & He2 & H2).
    exists (Qc_min e1 e2). split.
    + apply Qc_min_lt; assumption.
    + intros e He Hle p q Hp Hq.
      assert (L1 : e <= e1) by (pose proof (Qc_min_le_l e1 e2); qlra).
      assert (L2 : e <= e2) by (pose proof (Qc_min_le_r e1 e2); qlra).
      destruct Hp as [Hp|Hp].
      * subst p. apply (H2 e He L2 q Hq).
      * destruct Hq as [Hq|Hq].
        -- subst q. apply (H2 e He L2 p). right; exact Hp.
        -- apply IH; assumption.
Qed.

(** [Sheared e l]: on the points of [l], lexicographic order is the order of [pos e]. *)
Definition Sheared (e : Qc) (l : list point) : Prop :=
  forall p q, In p l -> In q l -> plt p q -> pos e p < pos e q.

Lemma shear_exists : forall l, exists e, 0 < e /\ Sheared e l.
Proof.
  intro l. destruct (shear_all l) as (e & He & H). exists e. split; [exact He|].
  intros p q Hp Hq. apply (H e He); [qlra|exact Hp|exact Hq].
Qed.

Lemma sheared_lt : forall e l, Sheared e l -> forall p q, In p l -> In q l ->
  (plt p q <-> pos e p < pos e q).
Proof.
  intros e l H p q Hp Hq. split; [apply H; assumption|].
  intro Hlt. destruct (plt_total p q) as [J|[J|J]]; [exact J|subst; qlra|].
  apply (H q p Hq Hp) in J. qlra.
Qed.
Lemma sheared_le : forall e l, Sheared e l -> forall p q, In p l -> In q l ->
  (ple p q <-> pos e p <= pos e q).
Proof.
  intros e l H p q Hp Hq. unfold ple. rewrite (sheared_lt e l H q p Hq Hp). split; intro; qlra.
Qed.
Lemma sheared_eq : forall e l, Sheared e l -> forall p q, In p l -> In q l ->
  (p = q <-> pos e p = pos e q).
Proof.
  intros e l H p q Hp Hq. split; [intros ->; reflexivity|].
  intro He. destruct (plt_total p q) as [J|[J|J]]; [|exact J|].
  - apply (H p q Hp Hq) in J. qlra.
  - apply (H q p Hq Hp) in J. qlra.
Qed.
Lemma sheared_incl : forall e l l', Sheared e l -> incl l' l -> Sheared e l'.
Proof. intros e l l' H Hi p q Hp Hq. apply H; apply Hi; assumption. Qed.

(** ** Cross products in sheared coordinates; lines as affine functions. *)
Lemma cross_pos : forall e a b c,
  cross a b c = (pos e b - pos e a) * (py c - py a) - (py b - py a) * (pos e c - pos e a).
Proof. intros. unfold cross, pos. ring. Qed.

Definition slope (e : Qc) (a b : point) : Qc := (py b - py a) / (pos e b - pos e a).
Definition line_at (e : Qc) (a b : point) (t : Qc) : Qc := py a + slope e a b * (t - pos e a).

Lemma slope_eq : forall e a b, pos e a <> pos e b ->
  slope e a b * (pos e b - pos e a) = py b - py a.
Proof. intros e a b H. unfold slope. field. intro Hz. apply H. qlra. Qed.

Lemma cross_line : forall e a b c, pos e a <> pos e b ->
  cross a b c = (pos e b - pos e a) * (py c - line_at e a b (pos e c)).
Proof.
  intros e a b c H. rewrite (cross_pos e). unfold line_at.
  pose proof (slope_eq e a b H) as Hs.
  replace ((pos e b - pos e a) * (py c - (py a + slope e a b * (pos e c - pos e a))))
    with ((pos e b - pos e a) * (py c - py a)
          - (slope e a b * (pos e b - pos e a)) * (pos e c - pos e a)) by ring.
  rewrite Hs. ring.
Qed.

Inductive orient_spec (a b c : point) : orientation -> Prop :=
| OS_cw : cross a b c < 0 -> orient_spec a b c CLOCKWISE
| OS_col : cross a b c = 0 -> orient_spec a b c COLLINEAR
| OS_ccw : 0 < cross a b c -> orient_spec a b c COUNTERCLOCKWISE.

Lemma orientP : forall a b c, orient_spec a b c (orient a b c).
Proof.
  intros a b c. unfold orient. destruct (Qc_ltb_spec (cross a b c) 0) as [H|H].
  - constructor; exact H.
  - destruct (Qc_ltb_spec 0 (cross a b c)) as [J|J]; constructor; qlra.
Qed.

Lemma line_at_start : forall e a b, line_at e a b (pos e a) = py a.
Proof. intros. unfold line_at. ring. Qed.
Lemma line_at_end : forall e a b, pos e a <> pos e b -> line_at e a b (pos e b) = py b.
Proof. intros e a b H. unfold line_at. rewrite slope_eq by exact H. ring. Qed.

(** A point is determined by its position and ordinate. *)
Lemma pos_inj : forall e p q, pos e p = pos e q -> py p = py q -> p = q.
Proof. intros e p q H Hy. apply pt_ext; [|exact Hy]. unfold pos in H. rewrite Hy in H. qlra. Qed.

Definition at_pos (e t y : Qc) : point := Pt (t - e * y) y.
Lemma pos_at : forall e t y, pos e (at_pos e t y) = t.
Proof. intros. unfold pos, at_pos; cbn. ring. Qed.
Lemma py_at : forall e t y, py (at_pos e t y) = y.
Proof. reflexivity. Qed.

(** ** Points on a segment. *)
Lemma on_segment_sheared : forall e a b p, pos e a < pos e b ->
  (on_segment p (Seg a b) <->
   pos e a <= pos e p /\ pos e p <= pos e b /\ py p = line_at e a b (pos e p)).
Proof.
  intros e a b p Hab. unfold on_segment; cbn [s_start s_end]. split.
  - intros (t & H0 & H1 & Hx & Hy).
    assert (Hp : pos e p = pos e a + t * (pos e b - pos e a)) by (unfold pos; rewrite Hx, Hy; ring).
    split; [qnra|]. split; [qnra|].
    unfold line_at. rewrite Hp.
    replace (slope e a b * (pos e a + t * (pos e b - pos e a) - pos e a))
      with (t * (slope e a b * (pos e b - pos e a))) by ring.
    rewrite slope_eq by (intro; qlra). rewrite Hy. reflexivity.
  - intros (H0 & H1 & Hy).
    exists ((pos e p - pos e a) / (pos e b - pos e a)).
    set (t := (pos e p - pos e a) / (pos e b - pos e a)).
    assert (Ht : t * (pos e b - pos e a) = pos e p - pos e a).
    { unfold t. field. intro; qlra. }
    assert (Hyy : py p = py a + t * (py b - py a)).
    { rewrite Hy. unfold line_at. rewrite <- Ht.
      rewrite <- (slope_eq e a b) by (intro; qlra). ring. }
    clearbody t.
    split; [|split; [|split]].
    + qnra.
    + qnra.
    + unfold pos in Ht. rewrite Hyy in Ht. 
      assert (px p - px a = t * (px b - px a)).
      { replace (px p - px a) with ((px p + e * (py a + t * (py b - py a)) - (px a + e * py a)) - e * (t * (py b - py a))) by ring.
        rewrite <- Ht. ring. }
      qlra.
    + exact Hyy.
Qed.

Lemma on_segment_sym : forall a b p, on_segment p (Seg a b) <-> on_segment p (Seg b a).
Proof.
  assert (H : forall a b p, on_segment p (Seg a b) -> on_segment p (Seg b a)).
  { intros a b p (t & H0 & H1 & Hx & Hy). cbn [s_start s_end] in *.
    exists (1 - t). cbn [s_start s_end]. split; [qlra|]. split; [qlra|].
    rewrite Hx, Hy. split; ring. }
  intros; split; apply H.
Qed.

Lemma seg_lo_hi : forall s,
  (seg_lo s = s_start s /\ seg_hi s = s_end s /\ ple (s_start s) (s_end s))
  \/ (seg_lo s = s_end s /\ seg_hi s = s_start s /\ plt (s_end s) (s_start s)).
Proof.
  intros s. unfold seg_lo, seg_hi. destruct (pt_ltb_spec (s_end s) (s_start s)) as [H|H].
  - right. auto.
  - left. auto.
Qed.

Lemma on_segment_norm : forall s p, on_segment p s <-> on_segment p (Seg (seg_lo s) (seg_hi s)).
Proof.
  intros [a b] p. destruct (seg_lo_hi (Seg a b)) as [(-> & -> & _)|(-> & -> & _)];
    cbn [s_start s_end]; [reflexivity|apply on_segment_sym].
Qed.

Lemma seg_lo_lt_hi : forall s, proper s -> plt (seg_lo s) (seg_hi s).
Proof.
  intros s H. destruct (seg_lo_hi s) as [(-> & -> & Hle)|(-> & -> & Hlt)]; [|exact Hlt].
  apply ple_lt_eq in Hle. destruct Hle as [Hle|Hle]; [exact Hle|contradiction].
Qed.

Lemma on_segment_start : forall s, on_segment (s_start s) s.
Proof. intro s. exists 0. split; [apply Qcle_refl|]. split; [discriminate|]. split; ring. Qed.
Lemma on_segment_end : forall s, on_segment (s_end s) s.
Proof. intro s. exists 1. split; [discriminate|]. split; [apply Qcle_refl|]. split; ring. Qed.

(** Characterisation by collinearity and lexicographic order. *)
Lemma on_segment_lex : forall a b p, plt a b ->
  (on_segment p (Seg a b) <-> cross a b p = 0 /\ ple a p /\ ple p b).
Proof.
  intros a b p Hab. destruct (shear_exists [a; b; p]) as (e & He & Hs).
  assert (Hp : pos e a < pos e b) by (apply Hs; cbn; auto).
  rewrite (on_segment_sheared e a b p Hp).
  rewrite (cross_line e) by (intro; qlra).
  rewrite (sheared_le e _ Hs a p), (sheared_le e _ Hs p b) by (cbn; auto).
  split.
  - intros (H0 & H1 & Hy). rewrite Hy. repeat split; try assumption. ring.
  - intros (Hz & H0 & H1). repeat split; try assumption.
    destruct (Qc_lt_total (py p) (line_at e a b (pos e p))) as [J|[J|J]]; [exfalso|exact J|exfalso]; qnra.
Qed.
