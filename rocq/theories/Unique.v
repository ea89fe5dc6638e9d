(** The closure specifications of Spec.v determine the point set of a result. *)
From Verif Require Import QcTac Geom Spec GeomFacts Relation Pair PairFacts PairProofs PairThms.

Definition dot (a b p : point) : Qc :=
  (px p - px a) * (px b - px a) + (py p - py a) * (py b - py a).

Lemma Qcmult_le_0_compat : forall a b : Qc, 0 <= a -> 0 <= b -> 0 <= a * b.
Proof. intros a b A B. qnra. Qed.
Lemma sq_nonneg : forall x : Qc, 0 <= x * x.
Proof. intro x. qnra. Qed.
Lemma sq_pos1 : forall x : Qc, x <> 0 -> 0 < x * x.
Proof. intros x H. destruct (Qc_lt_total x 0) as [J|[J|J]]; [qnra|contradiction|qnra]. Qed.

Lemma sq_pos : forall a b : point, a <> b -> 0 < dot a b b.
Proof.
  intros [ax ay] [bx by_] H. unfold dot. cbn.
  destruct (Qc_eq_dec ax bx) as [J|J].
  - subst. assert (K : by_ - ay <> 0) by (intro K; apply H; f_equal; qlra).
    pose proof (sq_pos1 _ K). pose proof (sq_nonneg (bx - bx)). qlra.
  - assert (K : bx - ax <> 0) by (intro K; apply J; qlra).
    pose proof (sq_pos1 _ K). pose proof (sq_nonneg (by_ - ay)). qlra.
Qed.

Lemma on_segment_affine : forall p s, proper s ->
  (on_segment p s <-> cross (s_start s) (s_end s) p = 0
                      /\ 0 <= dot (s_start s) (s_end s) p
                      /\ dot (s_start s) (s_end s) p <= dot (s_start s) (s_end s) (s_end s)).
Proof.
  intros p [a b] P. pose proof (sq_pos a b P) as D. unfold on_segment. cbn in *. split.
  - intros (t & T0 & T1 & X & Y). unfold cross, dot in *.
    destruct p as [x y]. cbn in *. subst x y. split; [qring|].
    set (n := (px b - px a) * (px b - px a) + (py b - py a) * (py b - py a)) in *.
    replace ((px a + t * (px b - px a) - px a) * (px b - px a) + (py a + t * (py b - py a) - py a) * (py b - py a))
      with (t * n) by (unfold n; qring).
    split; qnra.
  - intros (C & D0 & D1). exists (dot a b p / dot a b b).
    assert (N : dot a b b <> 0) by (intro J; rewrite J in D; qlra).
    assert (E0 : dot a b p / dot a b b * dot a b b = dot a b p) by (field; exact N).
    split; [|split; [|split]].
    + set (t := dot a b p / dot a b b) in *.
      destruct (Qclt_le_dec t 0) as [J|J]; [exfalso; qnra|exact J].
    + set (t := dot a b p / dot a b b) in *.
      destruct (Qclt_le_dec 1 t) as [J|J]; [exfalso; qnra|exact J].
    + assert (E : (px p - px a) * dot a b b = dot a b p * (px b - px a)).
      { assert (Z : (px p - px a) * dot a b b - dot a b p * (px b - px a) = - (py b - py a) * cross a b p)
          by (unfold dot, cross; qring).
        rewrite C in Z. qlra. }
      transitivity (px a + (px p - px a)); [qring|]. f_equal.
      transitivity ((px p - px a) * dot a b b / dot a b b); [field; exact N|].
      rewrite E. field. exact N.
    + assert (E : (py p - py a) * dot a b b = dot a b p * (py b - py a)).
      { assert (Z : (py p - py a) * dot a b b - dot a b p * (py b - py a) = (px b - px a) * cross a b p)
          by (unfold dot, cross; qring).
        rewrite C in Z. qlra. }
      transitivity (py a + (py p - py a)); [qring|]. f_equal.
      transitivity ((py p - py a) * dot a b b / dot a b b); [field; exact N|].
      rewrite E. field. exact N.
Qed.

Lemma on_segment_dec : forall p s, on_segment p s \/ ~ on_segment p s.
Proof.
  intros p s. destruct (pt_eqb_spec (s_start s) (s_end s)) as [E|E].
  - destruct (pt_eqb_spec p (s_start s)) as [K|K].
    + left. subst p. apply on_segment_start.
    + right. intros (t & _ & _ & X & Y). apply K. apply pt_ext; rewrite ?X, ?Y, <- E; qring.
  - rewrite (on_segment_affine p s E).
    destruct (Qc_eq_dec (cross (s_start s) (s_end s) p) 0) as [A|A]; [|tauto].
    destruct (Qclt_le_dec (dot (s_start s) (s_end s) p) 0) as [B|B]; [right; intros (_ & C & _); qlra|].
    destruct (Qclt_le_dec (dot (s_start s) (s_end s) (s_end s)) (dot (s_start s) (s_end s) p)) as [C|C];
      [right; intros (_ & _ & D); qlra|tauto].
Qed.

Lemma exists_dec : forall A (P : A -> Prop) (l : list A), (forall x, P x \/ ~ P x) ->
  (exists x, In x l /\ P x) \/ ~ (exists x, In x l /\ P x).
Proof.
  intros A P l D. induction l as [|x l IH]; [right; intros (x & [] & _)|].
  destruct (D x) as [H|H]; [left; exists x; cbn; auto|].
  destruct IH as [(y & I & Hy)|N]; [left; exists y; cbn; auto|].
  right. intros (y & [<-|I] & Hy); [auto|]. apply N. eauto.
Qed.

Lemma on_segments_dec : forall p l, on_segments p l \/ ~ on_segments p l.
Proof. intros p l. apply exists_dec. intro s. apply on_segment_dec. Qed.

(** Point at [m] on the way from [p] to [r]. *)
Definition toward (p r : point) (m : Qc) : point :=
  Pt (px p + m * (px r - px p)) (py p + m * (py r - py p)).

Lemma toward_inj : forall p r m n, p <> r -> toward p r m = toward p r n -> m = n.
Proof.
  intros p r m n N H. pose proof (f_equal px H) as X. pose proof (f_equal py H) as Y. unfold toward in X, Y. cbn [px py] in X, Y.
  destruct (Qc_eq_dec (px p) (px r)) as [E|E].
  - assert (F : py r - py p <> 0) by (intro F; apply N, pt_ext; [exact E|qlra]).
    assert (Z : (m - n) * (py r - py p) = 0) by qlra.
    apply Qcmult_integral in Z. destruct Z as [Z|Z]; [qlra|contradiction].
  - assert (F : px r - px p <> 0) by (intro F; apply E; qlra).
    assert (Z : (m - n) * (px r - px p) = 0) by qlra.
    apply Qcmult_integral in Z. destruct Z as [Z|Z]; [qlra|contradiction].
Qed.

Lemma toward_on : forall p s, proper s -> on_segment p s ->
  exists r, r <> p /\ forall m, 0 <= m -> m <= 1 -> on_segment (toward p r m) s.
Proof.
  intros p s P (t & T0 & T1 & X & Y).
  destruct (pt_eqb_spec p (s_end s)) as [E|E].
  - exists (s_start s). split; [rewrite E; exact P|].
    intros m M0 M1. exists (1 - m). split; [qlra|]. split; [qlra|]. unfold toward. cbn. rewrite E. split; qring.
  - exists (s_end s). split; [auto|]. intros m M0 M1. exists (t + m * (1 - t)).
    split; [qnra|]. split; [qnra|]. unfold toward. cbn. rewrite X, Y. split; qring.
Qed.

(** An affine function positive at zero is positive near zero. *)
Lemma avoid : forall u v : Qc, 0 < v -> exists l, 0 < l /\ forall m, 0 <= m -> m <= l -> 0 < u * m + v.
Proof.
  intros u v V. destruct (Qclt_le_dec u 0) as [H|H].
  - assert (N : u <> 0) by (intro J; rewrite J in H; qlra).
    exists (v / ((1+1) * - u)).
    assert (E : v / ((1+1) * - u) * ((1+1) * - u) = v).
    { assert (W : (1+1) * - u <> 0) by qlra. remember ((1+1) * - u) as w. field. exact W. }
    set (l := v / ((1+1) * - u)) in *. split.
    + destruct (Qclt_le_dec 0 l) as [J|J]; [exact J|exfalso].
      assert (Z : 0 <= (- l) * (- u)) by (apply Qcmult_le_0_compat; qlra). qlra.
    + intros m M0 M1. assert (Z : 0 <= (l - m) * (- u)) by (apply Qcmult_le_0_compat; qlra). qlra.
  - exists 1. split; [reflexivity|]. intros m M0 M1. pose proof (Qcmult_le_0_compat u m H M0). qlra.
Qed.

Lemma avoid_segment : forall p r s, proper s -> ~ on_segment p s ->
  exists l, 0 < l /\ forall m, 0 <= m -> m <= l -> ~ on_segment (toward p r m) s.
Proof.
  intros p r s P N.
  set (a := s_start s) in *. set (b := s_end s) in *.
  assert (L : forall m, cross a b (toward p r m) = (cross a b r - cross a b p) * m + cross a b p)
    by (intro m; unfold cross, toward; cbn; qring).
  assert (D : forall m, dot a b (toward p r m) = (dot a b r - dot a b p) * m + dot a b p)
    by (intro m; unfold dot, toward; cbn; qring).
  rewrite (on_segment_affine p s P) in N. fold a b in N.
  destruct (Qc_lt_total (cross a b p) 0) as [C|[C|C]].
  - destruct (avoid (- (cross a b r - cross a b p)) (- cross a b p)) as (l & L0 & L1); [qlra|].
    exists l. split; [exact L0|]. intros m M0 M1. rewrite (on_segment_affine _ s P). fold a b.
    specialize (L m). specialize (L1 m M0 M1). intros (Z & _). qlra.
  - destruct (Qclt_le_dec (dot a b p) 0) as [E|E].
    + destruct (avoid (- (dot a b r - dot a b p)) (- dot a b p)) as (l & L0 & L1); [qlra|].
      exists l. split; [exact L0|]. intros m M0 M1. rewrite (on_segment_affine _ s P). fold a b.
      specialize (D m). specialize (L1 m M0 M1). intros (_ & Z & _). qlra.
    + destruct (Qclt_le_dec (dot a b b) (dot a b p)) as [F|F].
      * destruct (avoid (dot a b r - dot a b p) (dot a b p - dot a b b)) as (l & L0 & L1); [qlra|].
        exists l. split; [exact L0|]. intros m M0 M1. rewrite (on_segment_affine _ s P). fold a b.
        specialize (D m). specialize (L1 m M0 M1). intros (_ & _ & Z). qlra.
      * exfalso. apply N. auto.
  - destruct (avoid (cross a b r - cross a b p) (cross a b p)) as (l & L0 & L1); [qlra|].
    exists l. split; [exact L0|]. intros m M0 M1. rewrite (on_segment_affine _ s P). fold a b.
    specialize (L m). specialize (L1 m M0 M1). intros (Z & _). qlra.
Qed.

Lemma avoid_segments : forall p r ss, Forall proper ss -> ~ on_segments p ss ->
  exists l, 0 < l /\ l <= 1 /\ forall m, 0 <= m -> m <= l -> ~ on_segments (toward p r m) ss.
Proof.
  intros p r ss. induction ss as [|s ss IH]; intros P N.
  - exists 1. split; [reflexivity|]. split; [apply Qcle_refl|]. intros m _ _ (s & [] & _).
  - inversion P as [|? ? P1 P2]; subst. rewrite on_segments_cons in N.
    destruct IH as (l & L0 & L1 & L2); [exact P2|tauto|].
    destruct (avoid_segment p r s P1) as (k & K0 & K1); [tauto|].
    destruct (Qclt_le_dec l k) as [J|J].
    + exists l. split; [exact L0|]. split; [exact L1|]. intros m M0 M1. rewrite on_segments_cons.
      intros [H|H]; [apply (K1 m); [exact M0|qlra|exact H]|apply (L2 m); assumption].
    + exists k. split; [exact K0|]. split; [qlra|]. intros m M0 M1. rewrite on_segments_cons.
      intros [H|H]; [apply (K1 m); assumption|apply (L2 m); [exact M0|qlra|exact H]].
Qed.

(** A stretch cannot be covered by finitely many sets meeting it once. *)
Lemma not_covered : forall X (on : X -> Qc -> Prop) (l : list X),
  (forall x m, on x m \/ ~ on x m) ->
  (forall x m n, In x l -> on x m -> on x n -> 0 < m -> 0 < n -> m = n) ->
  forall k, 0 < k -> ~ (forall m, 0 < m -> m <= k -> exists x, In x l /\ on x m).
Proof.
  intros X on l D. induction l as [|x l IH]; intros U k K C.
  - destruct (C k) as (x & [] & _); [exact K|apply Qcle_refl].
  - assert (U' : forall x m n, In x l -> on x m -> on x n -> 0 < m -> 0 < n -> m = n)
      by (intros; eapply U; cbn; eauto).
    apply (IH U' k K). intros m M0 M1.
    destruct (exists_dec X (fun y => on y m) l (fun y => D y m)) as [H|H]; [exact H|].
    exfalso. assert (Hx : on x m).
    { destruct (C m M0 M1) as (y & [<-|I] & Hy); [exact Hy|]. elim H. eauto. }
    pose (h := m * / (1 + 1)).
    assert (E : h * (1 + 1) = m) by (unfold h; field; discriminate).
    apply (IH U' h); [qlra|]. intros n N0 N1.
    destruct (C n N0) as (y & [<-|I] & Hy); [qlra| |eauto].
    exfalso. assert (n = m) by (eapply U; cbn; eauto). qlra.
Qed.

Lemma closure_difference_incl : forall g g' first second first' second',
  (forall p, on_segments p first <-> on_segments p first') ->
  (forall p, on_segments p second <-> on_segments p second') ->
  closure_difference g first second -> closure_difference g' first' second' ->
  forall p, in_geometry p g -> in_geometry p g'.
Proof.
  intros g g' f s f' s' Ef Es (A1 & A2 & A3 & A4 & A5 & A6) (B1 & B2 & B3 & B4 & B5 & B6) p.
  unfold in_geometry in *. rewrite A1, B1 in *. intros [[]|(t & It & Ht)].
  destruct (on_segments_dec p (segments_of g')) as [Y|N]; [auto|exfalso].
  assert (Pt_ : proper t) by (rewrite Forall_forall in A3; auto).
  destruct (toward_on p t Pt_ Ht) as (r & Hr & Hon).
  destruct (avoid_segments p r (segments_of g') B3 N) as (l & L0 & L1 & L2).
  apply (not_covered segment (fun x m => on_segment (toward p r m) x /\ on_segment (toward p r m) t) s
    ltac:(intros x m; destruct (on_segment_dec (toward p r m) x), (on_segment_dec (toward p r m) t); tauto)) with (k := l).
  - intros x m n Ix [X1 X2] [Y1 Y2] M0 N0.
    destruct (Qc_eq_dec m n) as [E|E]; [exact E|exfalso].
    apply (A6 t x It Ix). exists (toward p r m), (toward p r n).
    split; [intro J; apply toward_inj in J; auto|auto].
  - exact L0.
  - intros m M0 M1. assert (O : on_segment (toward p r m) t) by (apply Hon; qlra).
    assert (F : on_segments (toward p r m) f) by (apply A5; right; exists t; auto).
    destruct (on_segments_dec (toward p r m) s) as [(x & Ix & Hx)|K]; [exists x; auto|].
    exfalso. apply (L2 m); [qlra|exact M1|].
    destruct (B4 (toward p r m)) as [[]|G]; [apply Ef, F|rewrite <- Es; exact K|exact G].
Qed.

(** Any two geometries meeting the difference specification have the same points. *)
Theorem closure_difference_unique : forall g g' first second first' second',
  (forall p, on_segments p first <-> on_segments p first') ->
  (forall p, on_segments p second <-> on_segments p second') ->
  closure_difference g first second -> closure_difference g' first' second' ->
  forall p, in_geometry p g <-> in_geometry p g'.
Proof.
  intros g g' f s f' s' Ef Es H H' p. split; [apply (closure_difference_incl g g' f s f' s')|apply (closure_difference_incl g' g f' s' f s)]; auto; intro q; symmetry; auto.
Qed.

Lemma closure_symmetric_incl : forall g g' first second first' second',
  (forall p, on_segments p first <-> on_segments p first') ->
  (forall p, on_segments p second <-> on_segments p second') ->
  closure_symmetric_difference g first second -> closure_symmetric_difference g' first' second' ->
  forall p, in_geometry p g -> in_geometry p g'.
Proof.
  intros g g' f s f' s' Ef Es (A1 & A2 & A3 & A4 & A5 & A6) (B1 & B2 & B3 & B4 & B5 & B6) p.
  unfold in_geometry in *. rewrite A1, B1 in *. intros [[]|(t & It & Ht)].
  destruct (on_segments_dec p (segments_of g')) as [Y|N]; [auto|exfalso].
  assert (Pt_ : proper t) by (rewrite Forall_forall in A3; auto).
  destruct (toward_on p t Pt_ Ht) as (r & Hr & Hon).
  destruct (avoid_segments p r (segments_of g') B3 N) as (l & L0 & L1 & L2).
  apply (not_covered (segment * segment) (fun x m => on_segment (toward p r m) (fst x)
     /\ on_segment (toward p r m) (snd x) /\ on_segment (toward p r m) t) (list_prod f s)
    ltac:(intros x m; destruct (on_segment_dec (toward p r m) (fst x)), (on_segment_dec (toward p r m) (snd x)),
        (on_segment_dec (toward p r m) t); tauto)) with (k := l).
  - intros [x y] m n Ix (X1 & X2 & X3) (Y1 & Y2 & Y3) M0 N0. apply in_prod_iff in Ix. destruct Ix as [Ix Iy].
    destruct (Qc_eq_dec m n) as [E|E]; [exact E|exfalso].
    apply (A6 t x y (toward p r m) (toward p r n) It Ix Iy).
    + intro J; apply toward_inj in J; auto.
    + repeat split; assumption.
  - exact L0.
  - intros m M0 M1. assert (O : on_segment (toward p r m) t) by (apply Hon; qlra).
    assert (NG : ~ on_segments (toward p r m) (segments_of g')) by (apply L2; [qlra|exact M1]).
    assert (F : on_segments (toward p r m) f \/ on_segments (toward p r m) s)
      by (apply A5; right; exists t; auto).
    assert (Q : on_segments (toward p r m) f /\ on_segments (toward p r m) s).
    { destruct (on_segments_dec (toward p r m) f) as [X|X], (on_segments_dec (toward p r m) s) as [Y|Y]; auto.
      - exfalso. destruct (B4 (toward p r m)) as [[]|G]; [|exact (NG G)].
        rewrite <- Ef, <- Es. auto.
      - exfalso. destruct (B4 (toward p r m)) as [[]|G]; [|exact (NG G)].
        rewrite <- Ef, <- Es. auto.
      - tauto. }
    destruct Q as [(x & Ix & Hx) (y & Iy & Hy)]. exists (x, y). split; [apply in_prod; assumption|auto].
Qed.

Theorem closure_symmetric_difference_unique : forall g g' first second first' second',
  (forall p, on_segments p first <-> on_segments p first') ->
  (forall p, on_segments p second <-> on_segments p second') ->
  closure_symmetric_difference g first second -> closure_symmetric_difference g' first' second' ->
  forall p, in_geometry p g <-> in_geometry p g'.
Proof.
  intros g g' f s f' s' Ef Es H H' p. split; [apply (closure_symmetric_incl g g' f s f' s')|apply (closure_symmetric_incl g' g f' s' f s)]; auto; intro q; symmetry; auto.
Qed.

Lemma closure_symmetric_swap : forall g first second,
  closure_symmetric_difference g first second -> closure_symmetric_difference g second first.
Proof.
  intros g f s (A1 & A2 & A3 & A4 & A5 & A6). unfold closure_symmetric_difference.
  split; [exact A1|]. split; [exact A2|]. split; [exact A3|]. split; [|split].
  - intros p H. apply A4. tauto.
  - intros p H. apply A5 in H. tauto.
  - intros t x y p q It Ix Iy N (X1 & X2 & X3 & Y1 & Y2 & Y3). apply (A6 t y x p q); auto 10.
Qed.

(** ** Independence of endpoint and operand order (C05) *)
Definition reversed (s : segment) : segment := Seg (s_end s) (s_start s).
Definition same_points (g g' : geometry) : Prop := forall p, in_geometry p g <-> in_geometry p g'.
Definition same_or_reversed (s s' : segment) : Prop := s' = s \/ s' = reversed s.

Lemma same_or_reversed_on : forall s s' p, same_or_reversed s s' -> (on_segments p [s] <-> on_segments p [s']).
Proof.
  intros s s' p [->| ->]; [tauto|]. rewrite !on_segments_1. destruct s as [a b]. apply on_segment_sym.
Qed.
Lemma same_or_reversed_proper : forall s s', same_or_reversed s s' -> proper s -> proper s'.
Proof. intros s s' [->| ->] P; [exact P|]. intro E. apply P. symmetry. exact E. Qed.

Theorem pair_order : forall a b a' b', proper a -> proper b ->
  same_or_reversed a a' -> same_or_reversed b b' ->
  same_points (intersect_segments a' b') (intersect_segments a b)
  /\ same_points (unite_segments a' b') (unite_segments a b)
  /\ same_points (subtract_segments a' b') (subtract_segments a b)
  /\ same_points (symmetric_subtract_segments a' b') (symmetric_subtract_segments a b)
  /\ same_points (intersect_segments b a) (intersect_segments a b)
  /\ same_points (unite_segments b a) (unite_segments a b)
  /\ same_points (symmetric_subtract_segments b a) (symmetric_subtract_segments a b).
Proof.
  intros a b a' b' Pa Pb Ha Hb.
  assert (Pa' := same_or_reversed_proper _ _ Ha Pa). assert (Pb' := same_or_reversed_proper _ _ Hb Pb).
  assert (Ea := fun p => same_or_reversed_on _ _ p Ha). assert (Eb := fun p => same_or_reversed_on _ _ p Hb).
  split; [|split; [|split; [|split; [|split; [|split]]]]].
  - intro p. rewrite !intersect_segments_points by assumption. specialize (Ea p). specialize (Eb p).
    rewrite !on_segments_1 in Ea, Eb. tauto.
  - intro p. pose proof (unite_segments_exact a b Pa Pb) as (_ & _ & _ & X).
    pose proof (unite_segments_exact a' b' Pa' Pb') as (_ & _ & _ & Y). rewrite X, Y, Ea, Eb. tauto.
  - intro p. symmetry. apply (closure_difference_unique _ _ [a] [b] [a'] [b']); auto using subtract_segments_closure.
  - intro p. symmetry. apply (closure_symmetric_difference_unique _ _ [a] [b] [a'] [b']);
      auto using symmetric_subtract_segments_closure.
  - intro p. rewrite !intersect_segments_points by assumption. tauto.
  - intro p. pose proof (unite_segments_exact a b Pa Pb) as (_ & _ & _ & X).
    pose proof (unite_segments_exact b a Pb Pa) as (_ & _ & _ & Y). rewrite X, Y. tauto.
  - intro p. apply (closure_symmetric_difference_unique _ _ [b] [a] [b] [a]);
      [tauto|tauto|auto using symmetric_subtract_segments_closure|].
    apply closure_symmetric_swap. auto using symmetric_subtract_segments_closure.
Qed.
