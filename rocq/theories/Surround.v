(** Contours against the boundary of a box.  Proof support only, no part of
    /repo is modelled here. *)
From Coq Require Import Permutation.
From Verif Require Import QcTac Geom Spec SpecShape SpecSides SpecLocate GeomFacts Toward Bounding BoundingThms LoopThms Unique Relation PairFacts PairProofs Contour Filter Parity ShrinkThms RegionThms OrientThms Outline LinearThms LinearComplete EvenOdd Shapes Polygons Sides FilterThms ShapedThms Rectangle Locate Cycle Arranged.

(** Out of a box. *)
Lemma stays_out : forall b v w, ~ in_box v b -> exists l, 0 < l /\ l <= 1 /\ forall t, 0 <= t -> t <= l -> ~ in_box (toward v w t) b.
Proof.
  intros b v w N.
  assert (G : forall (P : Qc -> Prop) u d, 0 < d -> (forall t, 0 < u * t + d -> ~ P t) -> exists l, 0 < l /\ l <= 1 /\ forall t, 0 <= t -> t <= l -> ~ P t).
  { intros P u d D H. destruct (avoid u d D) as (l & L0 & L). exists (Qc_min l 1). pose proof (Qc_min_cases l 1) as M.
    remember (Qc_min l 1) as z eqn:Ez. clear Ez. split; [destruct M as [(-> & _)|(-> & _)]; [exact L0|reflexivity]|]. split; [destruct M as [(-> & ?)|(-> & _)]; qlra|].
    intros t T0 T1. apply H, L; [exact T0|]. destruct M as [(-> & _)|(-> & M)]; qlra. }
  destruct (Qclt_le_dec (px v) (min_x b)) as [K|K1].
  { apply (G _ (px v - px w) (min_x b - px v)); [qlra|]. intros t T (A & _). unfold toward in A. cbn in A. clear - T A. qnra. }
  destruct (Qclt_le_dec (max_x b) (px v)) as [K|K2].
  { apply (G _ (px w - px v) (px v - max_x b)); [qlra|]. intros t T (_ & A & _). unfold toward in A. cbn in A. clear - T A. qnra. }
  destruct (Qclt_le_dec (py v) (min_y b)) as [K|K3].
  { apply (G _ (py v - py w) (min_y b - py v)); [qlra|]. intros t T (_ & _ & A & _). unfold toward in A. cbn in A. clear - T A. qnra. }
  destruct (Qclt_le_dec (max_y b) (py v)) as [K|K4].
  { apply (G _ (py w - py v) (py v - max_y b)); [qlra|]. intros t T (_ & _ & _ & A). unfold toward in A. cbn in A. clear - T A. qnra. }
  elim N. repeat split; assumption.
Qed.
Lemma out_nearby : forall b k v cuts, proper k -> on_segment v k -> ~ in_box v b -> exists m, on_segment m k /\ ~ In m cuts /\ ~ in_box m b.
Proof.
  intros b k v cuts Pk Ov Nv. assert (W : exists w, on_segment w k /\ w <> v).
  { destruct (pt_eq_dec (s_start k) v) as [E|E]; [|exists (s_start k); split; [apply on_segment_start|exact E]]. exists (s_end k). split; [apply on_segment_end|]. intro F. apply Pk. congruence. }
  destruct W as (w & Ow & Nw). destruct (stays_out b v w Nv) as (l & L0 & L1 & L).
  assert (Nq : v <> toward v w l).
  { intro E. assert (E0 : toward v w 0 = toward v w l) by (rewrite <- E; apply pt_ext; unfold toward; cbn; ring). apply toward_inj in E0; [|intro F; apply Nw; symmetry; exact F]. rewrite E0 in L0. exact (Qclt_not_eq _ _ L0 eq_refl). }
  destruct (approach v (toward v w l) cuts Nq) as (m & (Om & _) & Nm & _). exists m.
  assert (Oq : on_segment (toward v w l) k) by (apply toward_on2; [exact Ov|exact Ow|apply Qclt_le_weak, L0|exact L1]).
  split; [exact (sub_on k _ _ m Ov Oq Om)|]. split; [exact Nm|].
  destruct Om as (t & T0 & T1 & X & Y). cbn in X, Y. assert (E : m = toward v w (t * l)) by (apply pt_ext; unfold toward; cbn; [rewrite X|rewrite Y]; ring).
  rewrite E. apply L; clear - T0 T1 L0; qnra.
Qed.
(** Nothing passes under a point below of all edges. *)
Lemma passes_low : forall s p, passes_under s p = true -> py (s_start s) < py p \/ py (s_end s) < py p.
Proof.
  intros (a, b) p. unfold passes_under, lex_ltb, cross. cbn [s_start s_end].
  destruct (Qclt_le_dec (py a) (py p)) as [A|A]; [left; exact A|]. destruct (Qclt_le_dec (py b) (py p)) as [B|B]; [right; exact B|]. intro K. exfalso. revert K. breflect; cbn; intro K; try discriminate K; clear K; qnra.
Qed.
Section Through.
Variable c : contour.
Hypothesis Hc : simple_contour (vertices c).
Lemma through_one : forall m, on_segments m (edges c) -> ~ In m (vertices c) -> segments_through (edges c) m = 1%nat.
Proof.
  intros m (s & Hs & O) N. unfold segments_through.
  pose proof (simple_proper _ Hc) as P. rewrite Forall_forall in P.
  rewrite (single_filter _ (fun t => passes_through t m) s (edges c)); [reflexivity|apply simple_nodup, Hc|exact Hs|apply (through_spec s m (P s Hs)), O|].
  intros t Ht T. apply (through_spec t m (P t Ht)) in T. destruct (segment_eq_dec t s) as [E|E]; [exact E|exfalso].
  destruct (simple_meet _ Hc s t m Hs Ht (not_eq_sym E) O T) as (Ep & _). apply N. destruct (contour_ends c s Hs) as (A & B). destruct Ep as [->| ->]; assumption.
Qed.
End Through.

Section Surround.
Variable b : box.
Hypothesis Hb : solid_box b.
Variable c : contour.
Hypothesis Hc : simple_contour (vertices c).
Let r := rectangle (min_x b) (min_y b) (max_x b) (max_y b).
Let Hr : simple_contour (vertices r) := rectangle_simple _ _ _ _ (proj1 Hb) (proj2 Hb).
Let Pc : Forall proper (edges c) := simple_proper _ Hc.
Let Pr : Forall proper (edges r) := simple_proper _ Hr.
Definition on_edges_of (p : point) : Prop := exists e, In e (to_edges b) /\ on_segment p e.
Lemma box_eta : Box (min_x b) (max_x b) (min_y b) (max_y b) = b.
Proof. destruct b. reflexivity. Qed.
Lemma on_r : forall p, on_segments p (edges r) <-> in_box p b /\ ~ inside_box p b.
Proof. intro p. unfold r. rewrite (on_rectangle _ _ _ _ (proj1 Hb) (proj2 Hb) p), box_eta. reflexivity. Qed.
Lemma r_edge : forall p, on_segments p (edges r) -> on_edges_of p.
Proof.
  intros p O. apply on_r in O. destruct O as (I & N). apply boundary_edge; [exact I|].
  destruct I as (A1 & A2 & A3 & A4).
  destruct (Qcle_lt_or_eq _ _ A1) as [B1|B1]; [|left; symmetry; exact B1]. destruct (Qcle_lt_or_eq _ _ A2) as [B2|B2]; [|right; left; exact B2].
  destruct (Qcle_lt_or_eq _ _ A3) as [B3|B3]; [|right; right; left; symmetry; exact B3]. destruct (Qcle_lt_or_eq _ _ A4) as [B4|B4]; [|right; right; right; exact B4].
  elim N. repeat split; assumption.
Qed.
Lemma in_r : forall p, inside (edges r) p = true -> in_box p b.
Proof.
  intros p K. apply (inside_rectangle _ _ _ _ (proj1 Hb) (proj2 Hb)) in K. destruct K as (A1 & A2 & A3 & A4). repeat split; try assumption; apply Qclt_le_weak; assumption.
Qed.
Lemma above_r : forall p, inside_above (edges r) p = true -> in_box p b.
Proof.
  intros p K. destruct (on_segments_dec p (edges r)) as [O|O]; [exact (proj1 (proj1 (on_r p) O))|]. rewrite above_off in K by assumption. exact (in_r p K).
Qed.
Lemma r_inside : forall p, inside_box p b -> inside (edges r) p = true.
Proof.
  intros p (A1 & A2 & A3 & A4). apply (inside_rectangle _ _ _ _ (proj1 Hb) (proj2 Hb)). repeat split; try assumption; apply Qclt_le_weak; assumption.
Qed.

Section Sided.
Variables (op : operation) (L : list segment) (cuts : list point).
Hypothesis Hop : forall x, op_holds op false x = false.
Hypothesis Lp : Forall proper L.
Hypothesis Ls : forall p, ~ In p cuts -> segments_through L p
  = if xorb (op_holds op (inside (edges r) p) (inside (edges c) p)) (op_holds op (inside_above (edges r) p) (inside_above (edges c) p)) then 1%nat else 0%nat.
Lemma sided : forall k m, In k L -> on_segment m k -> ~ In m cuts ->
  xorb (op_holds op (inside (edges r) m) (inside (edges c) m)) (op_holds op (inside_above (edges r) m) (inside_above (edges c) m)) = true.
Proof.
  intros k m Hk Om Nm. specialize (Ls m Nm). destruct (xorb _ _); [reflexivity|exfalso]. unfold segments_through in Ls.
  rewrite Forall_forall in Lp. assert (I : In k (filter (fun s => passes_through s m) L)) by (apply filter_In; split; [exact Hk|apply (through_spec k m (Lp k Hk)), Om]).
  destruct (filter (fun s => passes_through s m) L); [destruct I|discriminate Ls].
Qed.
Lemma pieces_in_box : forall k p, In k L -> on_segment p k -> in_box p b.
Proof.
  intros k p Hk Op. assert (D : in_box p b \/ ~ in_box p b).
  { unfold in_box. destruct (Qclt_le_dec (px p) (min_x b)) as [A|A]; [right; intros (K & _); exact (Qclt_not_le _ _ A K)|].
    destruct (Qclt_le_dec (max_x b) (px p)) as [B|B]; [right; intros (_ & K & _); exact (Qclt_not_le _ _ B K)|].
    destruct (Qclt_le_dec (py p) (min_y b)) as [C|C]; [right; intros (_ & _ & K & _); exact (Qclt_not_le _ _ C K)|].
    destruct (Qclt_le_dec (max_y b) (py p)) as [E|E]; [right; intros (_ & _ & _ & K); exact (Qclt_not_le _ _ E K)|]. left. repeat split; assumption. }
  destruct D as [D|D]; [exact D|exfalso]. pose proof Lp as Lp'. rewrite Forall_forall in Lp'.
  destruct (out_nearby b k p cuts (Lp' k Hk) Op D) as (m & Om & Nm & Bm). pose proof (sided k m Hk Om Nm) as S.
  destruct (inside (edges r) m) eqn:E1; [apply Bm, in_r, E1|]. destruct (inside_above (edges r) m) eqn:E2; [apply Bm, above_r, E2|]. rewrite !Hop in S. discriminate S.
Qed.
(** A piece lies along the contour, if sides of the contour matter. *)
Lemma along : (forall p, on_edges_of p -> ~ on_segments p (edges c) -> op_holds op true (inside (edges c) p) = false) ->
  (forall k m (d : bool), In k L -> on_segment m k -> ~ In m cuts -> on_segments m (edges (if d then r else c)) -> exists sg, In sg (edges (if d then r else c)) /\ within k sg) ->
  (forall k, In k L -> exists (d : bool) sg, In sg (edges (if d then r else c)) /\ within k sg) ->
  forall k, In k L -> exists sg, In sg (edges c) /\ within k sg.
Proof.
  intros Off At Src k Hk. pose proof Lp as Lp'. rewrite Forall_forall in Lp'. destruct (Src k Hk) as ([|] & sg & Hs & W); [|exists sg; split; assumption].
  destruct (approach (s_start k) (s_end k) cuts (Lp' k Hk)) as (m & (Om & _) & Nm & _). assert (Om' : on_segment m k) by (destruct k; exact Om).
  destruct (on_segments_dec m (edges c)) as [O|O]; [exact (At k m false Hk Om' Nm O)|exfalso].
  pose proof (sided k m Hk Om' Nm) as S. rewrite (above_off (edges c) m Pc O) in S.
  assert (Or : on_edges_of m) by (apply r_edge; exists sg; split; [exact Hs|apply W, Om']). pose proof (Off m Or O) as F.
  destruct (inside (edges r) m), (inside_above (edges r) m); rewrite ?F, ?Hop in S; discriminate S.
Qed.
End Sided.

(** From a point of the box to its inner points. *)
Lemma inward : forall p, in_box p b -> ~ on_segments p (edges c) -> exists q, inside_box q b /\ inside (edges c) q = inside (edges c) p /\ ~ on_segments q (edges c).
Proof.
  intros p (A1 & A2 & A3 & A4) N. destruct Hb as (B1 & B2).
  set (z := Pt ((min_x b + max_x b) * / (1 + 1)) ((min_y b + max_y b) * / (1 + 1))).
  assert (Z1 : px z + px z = min_x b + max_x b) by (unfold z; cbn; field; discriminate). assert (Z2 : py z + py z = min_y b + max_y b) by (unfold z; cbn; field; discriminate).
  destruct (avoid_segments p z (edges c) Pc N) as (l & L0 & L1 & L). exists (toward p z l). split; [|split].
  - unfold inside_box, toward. cbn [px py]. clearbody z. clear - A1 A2 A3 A4 B1 B2 Z1 Z2 L0 L1.
    assert (X1 : min_x b < px z) by qlra. assert (X2 : px z < max_x b) by qlra. assert (X3 : min_y b < py z) by qlra. assert (X4 : py z < max_y b) by qlra.
    repeat split; clear Z1 Z2 B1 B2; qnra.
  - symmetry. apply inside_const; [exact Pc|apply contour_even|]. intros s Hs. left. intros x Ox Os.
    destruct Ox as (t & T0 & T1 & X & Y). cbn in X, Y. apply (L (t * l)); [clear - T0 L0; qnra|clear - T0 T1 L0; qnra|].
    exists s. split; [exact Hs|]. replace (toward p z (t * l)) with x; [exact Os|]. apply pt_ext; unfold toward; cbn; [rewrite X|rewrite Y]; ring.
  - apply L; [apply Qclt_le_weak, L0|apply Qcle_refl].
Qed.

(** A contour neither inside of which nor all of which is met by going around
    the box leaves the box alone. *)
Theorem around_out : forall v, In v (vertices c) -> ~ in_box v b -> (forall p, on_edges_of p -> ~ inside_contour c p) ->
  forall p, in_box p b -> ~ inside_contour c p.
Proof.
  intros v Iv Nv Off p Bp (Np & Ip). destruct (boundary_arranged Meet r c Hr Hc) as (L & cuts & Lp & La & Le & Li & Ls & At & Src).
  assert (Lw : forall k, In k L -> exists sg, In sg (contour_edges (vertices c)) /\ within k sg).
  { apply (along Meet L cuts (fun x => eq_refl) Lp Ls); [|exact At|exact Src].
    intros q Oq Nq. cbn. destruct (inside (edges c) q) eqn:E; [|reflexivity]. elim (Off q Oq). split; [exact Nq|exact E]. }
  destruct (none_or_all (vertices c) L Hc Lp Lw La Le) as [E|All].
  - destruct (inward p Bp Np) as (q & Bq & Eq & _). pose proof (Li q) as K. rewrite E, (r_inside q Bq), Eq in K. cbn in K. change (contour_edges (vertices c)) with (edges c) in Ip. congruence.
  - destruct (All v) as (k & Hk & Ok).
    { apply (In_nth _ _ (Pt 0 0)) in Iv. destruct Iv as (i & Hi & E). exists (edge_at (vertices c) i). split; [apply (in_edge_at (vertices c)); exists i; split; [exact Hi|reflexivity]|].
      rewrite <- E. exact (on_segment_end (edge_at (vertices c) i)). }
    apply Nv. exact (pieces_in_box Meet L cuts (fun x => eq_refl) Lp Ls k v Hk Ok).
Qed.
(** A contour having the boundary of the box in it has the box in it. *)
Theorem around_in : (forall p, on_edges_of p -> in_contour c p) -> forall p, in_box p b -> in_contour c p.
Proof.
  intros On p Bp. destruct (on_segments_dec p (edges c)) as [O|O]; [left; exact O|right]. change (contour_edges (vertices c)) with (edges c).
  destruct (inward p Bp O) as (q & Bq & <- & Nq).
  destruct (boundary_arranged Minus r c Hr Hc) as (L & cuts & Lp & La & Le & Li & Ls & At & Src).
  assert (Lw : forall k, In k L -> exists sg, In sg (contour_edges (vertices c)) /\ within k sg).
  { apply (along Minus L cuts (fun x => eq_refl) Lp Ls); [|exact At|exact Src].
    intros z Oz Nz. cbn. destruct (On z Oz) as [K|K]; [contradiction|]. change (contour_edges (vertices c)) with (edges c) in K. rewrite K. reflexivity. }
  destruct (none_or_all (vertices c) L Hc Lp Lw La Le) as [E|All].
  - pose proof (Li q) as K. rewrite E, (r_inside q Bq) in K. cbn in K. destruct (inside (edges c) q); [reflexivity|discriminate K].
  - exfalso.
    assert (Low : forall z, py z = min_y b -> inside (edges c) z = false).
    { intros z Ez. rewrite inside_parity. apply parity_none. intros s Hs. apply not_true_iff_false. intro K. apply passes_low in K.
      assert (G : forall y, on_segment y s -> min_y b <= py y).
      { intros y Oy. destruct (All y (ex_intro _ s (conj Hs Oy))) as (k & Hk & Ok). exact (proj1 (proj2 (proj2 (pieces_in_box Minus L cuts (fun x => eq_refl) Lp Ls k y Hk Ok)))). }
      rewrite Ez in K. destruct K as [K|K]; [exact (Qclt_not_le _ _ K (G _ (on_segment_start s)))|exact (Qclt_not_le _ _ K (G _ (on_segment_end s)))]. }
    assert (Nd : Pt (min_x b) (min_y b) <> Pt (max_x b) (min_y b)) by (intro E; injection E as E; exact (Qclt_not_eq _ _ (proj1 Hb) E)).
    destruct (approach _ _ (cuts ++ vertices c) Nd) as (m & (Om & _) & Nm & _).
    assert (Ey : py m = min_y b) by (destruct Om as (t & _ & _ & _ & Y); rewrite Y; cbn; ring).
    assert (Nc : ~ In m cuts) by (intro K; apply Nm, in_or_app; left; exact K). assert (Nv : ~ In m (vertices c)) by (intro K; apply Nm, in_or_app; right; exact K).
    assert (Oc : on_segments m (edges c)).
    { destruct (On m) as [K|K]; [exists (Seg (Pt (min_x b) (min_y b)) (Pt (max_x b) (min_y b))); split; [left; reflexivity|exact Om]|exact K|].
      change (contour_edges (vertices c)) with (edges c) in K. rewrite (Low m Ey) in K. discriminate K. }
    destruct (All m Oc) as (k & Hk & Ok). pose proof (sided Minus L cuts Lp Ls k m Hk Ok Nc) as S.
    rewrite (Low m Ey) in S. rewrite (above_flips (edges c)), (through_one c Hc m Oc Nv), (Low m Ey) in S.
    assert (I0 : inside (edges r) m = false).
    { apply not_true_iff_false. intro K. apply (inside_rectangle _ _ _ _ (proj1 Hb) (proj2 Hb)) in K. destruct K as (_ & _ & K & _). rewrite Ey in K. exact (Qclt_not_eq _ _ K eq_refl). }
    rewrite I0 in S. change (Nat.odd 1) with true in S. unfold op_holds in S. destruct (inside_above (edges r) m); discriminate S.
Qed.
End Surround.
