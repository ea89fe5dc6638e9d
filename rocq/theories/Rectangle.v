(** Rectangles as contours; used in concrete examples. *)
From Verif Require Import QcTac Geom Spec SpecShape SpecLocate GeomFacts Toward Bounding BoundingThms Unique Contour Filter Parity Outline LinearThms EvenOdd Shapes Polygons FilterThms.

Definition rectangle (a b c d : Qc) : contour := Contour [Pt a b; Pt c b; Pt c d; Pt a d].
Lemma on_east : forall x x' y p, x < x' -> (on_segment p (Seg (Pt x y) (Pt x' y)) <-> py p = y /\ x <= px p /\ px p <= x').
Proof.
  intros x x' y [u v] H. rewrite on_segment_affine by (intro E; injection E as E; clear - E H; qlra). unfold cross, dot. cbn.
  split; intros (A & B & C); (split; [|split]); qnra.
Qed.
Lemma on_west : forall x x' y p, x < x' -> (on_segment p (Seg (Pt x' y) (Pt x y)) <-> py p = y /\ x <= px p /\ px p <= x').
Proof.
  intros x x' y [u v] H. rewrite on_segment_affine by (intro E; injection E as E; clear - E H; qlra). unfold cross, dot. cbn.
  split; intros (A & B & C); (split; [|split]); qnra.
Qed.
Lemma on_north : forall x y y' p, y < y' -> (on_segment p (Seg (Pt x y) (Pt x y')) <-> px p = x /\ y <= py p /\ py p <= y').
Proof.
  intros x y y' [u v] H. rewrite on_segment_affine by (intro E; injection E as E; clear - E H; qlra). unfold cross, dot. cbn.
  split; intros (A & B & C); (split; [|split]); qnra.
Qed.
Lemma on_south : forall x y y' p, y < y' -> (on_segment p (Seg (Pt x y') (Pt x y)) <-> px p = x /\ y <= py p /\ py p <= y').
Proof.
  intros x y y' [u v] H. rewrite on_segment_affine by (intro E; injection E as E; clear - E H; qlra). unfold cross, dot. cbn.
  split; intros (A & B & C); (split; [|split]); qnra.
Qed.
Lemma bool_iff : forall b P, (b = true <-> P) -> forall b', (b' = true <-> P) -> b = b'.
Proof. intros [] P H [] H'; try reflexivity; [symmetry; apply H', H; reflexivity|apply H, H'; reflexivity]. Qed.
Ltac flat := unfold passes_under, lex_ltb, cross; cbn; breflect; split; intro;
  repeat match goal with H : _ /\ _ |- _ => destruct H end; try discriminate; try reflexivity; try (repeat split; qnra); exfalso; try qnra.
Lemma over_east : forall x x' y p, x < x' -> (passes_under (Seg (Pt x y) (Pt x' y)) p = true <-> x <= px p /\ px p < x' /\ y < py p).
Proof. intros x x' y [u v] H. flat. Qed.
Lemma over_west : forall x x' y p, x < x' -> (passes_under (Seg (Pt x' y) (Pt x y)) p = true <-> x <= px p /\ px p < x' /\ y < py p).
Proof. intros x x' y [u v] H. flat. Qed.
Lemma over_north : forall x y y' p, y < y' -> passes_under (Seg (Pt x y) (Pt x y')) p = false.
Proof. intros x y y' [u v] H. apply not_true_iff_false. cut (passes_under (Seg (Pt x y) (Pt x y')) (Pt u v) = true <-> False); [tauto|]. flat. Qed.
Lemma over_south : forall x y y' p, y < y' -> passes_under (Seg (Pt x y') (Pt x y)) p = false.
Proof. intros x y y' [u v] H. apply not_true_iff_false. cut (passes_under (Seg (Pt x y') (Pt x y)) (Pt u v) = true <-> False); [tauto|]. flat. Qed.

Ltac differ := match goal with
  | E : _ = _ |- _ => injection E; intros; subst; match goal with H : ?z < ?z |- _ => exact (Qclt_not_eq _ _ H eq_refl) end
  end.
Ltac distinct := repeat match goal with
  | |- NoDup [] => apply NoDup_nil
  | |- NoDup _ => apply NoDup_cons
  | |- ~ In _ _ => intros H; cbn in H; decompose [or] H; try contradiction; clear H; differ
  end.
Section Rectangle.
Variables a b c d : Qc.
Hypothesis Hac : a < c.
Hypothesis Hbd : b < d.
Let B := Box a c b d.
Let r := rectangle a b c d.
Lemma rectangle_edges : edges r = [Seg (Pt a d) (Pt a b); Seg (Pt a b) (Pt c b); Seg (Pt c b) (Pt c d); Seg (Pt c d) (Pt a d)].
Proof. reflexivity. Qed.
Lemma on_rectangle : forall p, on_segments p (edges r) <-> in_box p B /\ ~ inside_box p B.
Proof.
  intros [x y]. rewrite rectangle_edges. unfold in_box, inside_box. cbn. split.
  - intros (s & [<-|[<-|[<-|[<-|[]]]]] & O); [apply on_south in O|apply on_east in O|apply on_north in O|apply on_west in O]; try assumption; cbn in O; destruct O as (-> & O1 & O2);
      (split; [repeat split; try assumption; try apply Qcle_refl; apply Qclt_le_weak; assumption|]); intros (K1 & K2 & K3 & K4); match goal with K : ?z < ?z |- _ => exact (Qclt_not_eq _ _ K eq_refl) end.
  - intros ((A1 & A2 & A3 & A4) & N).
    destruct (Qclt_le_dec b y) as [L1|L1]; [|exists (Seg (Pt a b) (Pt c b)); split; [right; left; reflexivity|apply on_east; [exact Hac|cbn; split; [apply Qcle_antisym; assumption|split; assumption]]]].
    destruct (Qclt_le_dec x c) as [L2|L2]; [|exists (Seg (Pt c b) (Pt c d)); split; [right; right; left; reflexivity|apply on_north; [exact Hbd|cbn; split; [apply Qcle_antisym; assumption|split; assumption]]]].
    destruct (Qclt_le_dec y d) as [L3|L3]; [|exists (Seg (Pt c d) (Pt a d)); split; [right; right; right; left; reflexivity|apply on_west; [exact Hac|cbn; split; [apply Qcle_antisym; assumption|split; assumption]]]].
    destruct (Qclt_le_dec a x) as [L4|L4]; [|exists (Seg (Pt a d) (Pt a b)); split; [left; reflexivity|apply on_south; [exact Hbd|cbn; split; [apply Qcle_antisym; assumption|split; assumption]]]].
    elim N. repeat split; assumption.
Qed.
Lemma inside_rectangle : forall p, inside (edges r) p = true <-> a <= px p /\ px p < c /\ b < py p /\ py p <= d.
Proof.
  intro p. rewrite rectangle_edges, inside_parity. cbn [parity].
  rewrite (over_north c b d p Hbd), (over_south a b d p Hbd).
  destruct (passes_under (Seg (Pt a b) (Pt c b)) p) eqn:E1; destruct (passes_under (Seg (Pt c d) (Pt a d)) p) eqn:E2; cbn.
  - apply over_east in E1; [|exact Hac]. apply over_west in E2; [|exact Hac]. split; [discriminate|]. intros (_ & _ & _ & K). exfalso. exact (Qcle_not_lt _ _ K (proj2 (proj2 E2))).
  - apply over_east in E1; [|exact Hac]. split; [intros _|reflexivity]. destruct E1 as (A1 & A2 & A3). repeat split; try assumption.
    destruct (Qclt_le_dec d (py p)) as [K|K]; [|exact K]. assert (X : passes_under (Seg (Pt c d) (Pt a d)) p = true) by (apply over_west; [exact Hac|repeat split; assumption]). congruence.
  - apply over_west in E2; [|exact Hac]. destruct E2 as (A1 & A2 & A3).
    assert (X : passes_under (Seg (Pt a b) (Pt c b)) p = true) by (apply over_east; [exact Hac|repeat split; try assumption; exact (Qclt_trans _ _ _ Hbd A3)]). congruence.
  - split; [discriminate|]. intros (A1 & A2 & A3 & _). assert (X : passes_under (Seg (Pt a b) (Pt c b)) p = true) by (apply over_east; [exact Hac|repeat split; assumption]). congruence.
Qed.
Lemma in_box_split : forall p, inside_box p B -> in_box p B.
Proof. intros p (A1 & A2 & A3 & A4). repeat split; apply Qclt_le_weak; assumption. Qed.
Lemma inside_box_dec : forall p, inside_box p B \/ ~ inside_box p B.
Proof.
  intro p. unfold inside_box. cbn. destruct (Qclt_le_dec a (px p)) as [A|A]; [|right; intros (K & _); exact (Qcle_not_lt _ _ A K)].
  destruct (Qclt_le_dec (px p) c) as [C|C]; [|right; intros (_ & K & _); exact (Qcle_not_lt _ _ C K)].
  destruct (Qclt_le_dec b (py p)) as [D|D]; [|right; intros (_ & _ & K & _); exact (Qcle_not_lt _ _ D K)].
  destruct (Qclt_le_dec (py p) d) as [E|E]; [|right; intros (_ & _ & _ & K); exact (Qcle_not_lt _ _ E K)]. left. repeat split; assumption.
Qed.
Lemma in_rectangle : forall p, in_contour r p <-> in_box p B.
Proof.
  intro p. unfold in_contour, in_region. change (contour_edges (vertices r)) with (edges r). rewrite on_rectangle, inside_rectangle. split.
  - intros [(K & _)|(A1 & A2 & A3 & A4)]; [exact K|]. repeat split; cbn; try assumption; apply Qclt_le_weak; assumption.
  - intro K. destruct (inside_box_dec p) as [(J1 & J2 & J3 & J4)|J]; [right|left; split; assumption]. cbn in *. repeat split; try assumption; apply Qclt_le_weak; assumption.
Qed.
Lemma inside_rectangle_box : forall p, inside_contour r p <-> inside_box p B.
Proof.
  intro p. unfold inside_contour, interior. change (contour_edges (vertices r)) with (edges r). rewrite on_rectangle, inside_rectangle. split.
  - intros (N & (A1 & A2 & A3 & A4)). destruct (inside_box_dec p) as [J|J]; [exact J|]. elim N. split; [|exact J]. repeat split; cbn; try assumption; apply Qclt_le_weak; assumption.
  - intros J. split; [intros (_ & K); exact (K J)|]. destruct J as (J1 & J2 & J3 & J4). cbn in *. repeat split; try assumption; apply Qclt_le_weak; assumption.
Qed.
Lemma rectangle_simple : simple_contour (vertices r).
Proof.
  split; [cbn; lia|]. split.
  - unfold r, rectangle. cbn [vertices]. distinct.
  - change (contour_edges (vertices r)) with (edges r). rewrite rectangle_edges.
    assert (X : forall s t p, In s (edges r) -> In t (edges r) -> s <> t -> on_segment p s -> on_segment p t -> endpoint p s /\ endpoint p t).
    { rewrite rectangle_edges. intros s t [x y] [<-|[<-|[<-|[<-|[]]]]] [<-|[<-|[<-|[<-|[]]]]] N O O'; try contradiction;
        (apply (on_south a b d _ Hbd) in O || apply (on_east a c b _ Hac) in O || apply (on_north c b d _ Hbd) in O || apply (on_west a c d _ Hac) in O);
        (apply (on_south a b d _ Hbd) in O' || apply (on_east a c b _ Hac) in O' || apply (on_north c b d _ Hbd) in O' || apply (on_west a c d _ Hac) in O');
        cbn in O, O'; destruct O as (-> & O1 & O2), O' as (E & O1' & O2');
        first [exfalso; first [exact (Qclt_not_eq _ _ Hac E)|exact (Qclt_not_eq _ _ Hac (eq_sym E))|exact (Qclt_not_eq _ _ Hbd E)|exact (Qclt_not_eq _ _ Hbd (eq_sym E))]|rewrite E; unfold endpoint; cbn; auto]. }
    rewrite rectangle_edges in X. intros i j s t N Ei Ej p O O'. apply (X s t p); try assumption; try (eapply nth_error_In; eassumption).
    intros ->. apply N. assert (D : NoDup [Seg (Pt a d) (Pt a b); Seg (Pt a b) (Pt c b); Seg (Pt c b) (Pt c d); Seg (Pt c d) (Pt a d)]).
    { distinct. }
    apply (proj1 (NoDup_nth_error _) D i j); [apply nth_error_Some; congruence|congruence].
Qed.
End Rectangle.

(** A rectangle with a rectangular hole. *)
Section Frame.
Variables a b c d a' b' c' d' : Qc.
Hypothesis Hx : a < a' /\ a' < c' /\ c' < c.
Hypothesis Hy : b < b' /\ b' < d' /\ d' < d.
Definition frame : polygon := Polygon (rectangle a b c d) [rectangle a' b' c' d'].
Let Hac : a < c := Qclt_trans _ _ _ (proj1 Hx) (Qclt_trans _ _ _ (proj1 (proj2 Hx)) (proj2 (proj2 Hx))).
Let Hbd : b < d := Qclt_trans _ _ _ (proj1 Hy) (Qclt_trans _ _ _ (proj1 (proj2 Hy)) (proj2 (proj2 Hy))).
Let Hac' : a' < c' := proj1 (proj2 Hx).
Let Hbd' : b' < d' := proj1 (proj2 Hy).
Lemma hole_inside : forall p, in_box p (Box a' c' b' d') -> inside_box p (Box a c b d).
Proof.
  intros p (A1 & A2 & A3 & A4). cbn in *. destruct (conj Hx Hy) as ((X1 & _ & X3) & (Y1 & _ & Y3)).
  repeat split; cbn; [exact (Qclt_le_trans _ _ _ X1 A1)|exact (Qcle_lt_trans _ _ _ A2 X3)|exact (Qclt_le_trans _ _ _ Y1 A3)|exact (Qcle_lt_trans _ _ _ A4 Y3)].
Qed.
Lemma frame_valid : valid_polygon frame.
Proof.
  split; [exact (rectangle_simple a b c d Hac Hbd)|]. split; [constructor; [exact (rectangle_simple a' b' c' d' Hac' Hbd')|constructor]|].
  split; [|split; [|split]].
  - intros h p [<-|[]] J. apply (in_rectangle a' b' c' d' Hac' Hbd') in J. apply (in_rectangle a b c d Hac Hbd). apply in_box_split, hole_inside, J.
  - intros h p [<-|[]] J. apply (inside_rectangle_box a' b' c' d' Hac' Hbd') in J. apply (inside_rectangle_box a b c d Hac Hbd). apply hole_inside, in_box_split, J.
  - intros [|i] [|j] h k N E E'; try congruence; [destruct j|destruct i|destruct i]; discriminate.
  - unfold polygon_edges, frame. cbn [border holes flat_map]. rewrite app_nil_r.
    destruct (simple_non_overlapping _ (rectangle_simple a b c d Hac Hbd)) as (P1 & W1). destruct (simple_non_overlapping _ (rectangle_simple a' b' c' d' Hac' Hbd')) as (P2 & W2).
    split; [apply Forall_app; split; assumption|].
    apply LinearThms.pairwise_app; [intros s t K (p & q & N & A1 & A2 & A3 & A4); apply K; exists p, q; repeat split; assumption|exact W1|exact W2|].
    intros s t Hs Ht (p & q & _ & P3 & P4 & _).
    assert (O1 : on_segments p (edges (rectangle a b c d))) by (exists s; split; assumption). assert (O2 : on_segments p (edges (rectangle a' b' c' d'))) by (exists t; split; assumption).
    apply on_rectangle in O1; [|assumption|assumption]. apply on_rectangle in O2; [|assumption|assumption]. exact (proj2 O1 (hole_inside p (proj1 O2))).
Qed.
Lemma in_frame : forall p, in_polygon frame p <-> in_box p (Box a c b d) /\ ~ inside_box p (Box a' c' b' d').
Proof.
  intro p. unfold in_polygon. cbn. rewrite (in_rectangle a b c d Hac Hbd p). split.
  - intros (A & B). split; [exact A|]. rewrite <- (inside_rectangle_box a' b' c' d' Hac' Hbd' p). apply B. left. reflexivity.
  - intros (A & B). split; [exact A|]. intros h [<-|[]]. rewrite (inside_rectangle_box a' b' c' d' Hac' Hbd' p). exact B.
Qed.
End Frame.
Lemma single_polygon : forall g, valid_polygon g -> valid_polygons [g].
Proof.
  intros g V. split; [constructor; [exact V|constructor]|]. split; [intros [|i] [|j] h k N E E'; try congruence; [destruct j|destruct i|destruct i]; discriminate|].
  cbn. rewrite app_nil_r. apply V.
Qed.
