(** Points right below and right above of a point of an edge.  Proof support
    only, no part of /repo is modelled here. *)
From Coq Require Import Permutation.
From Verif Require Import QcTac Geom Spec SpecShape SpecSides SpecReach GeomFacts BoundingThms EvenOdd Faces Flip Toward Relation PairFacts Parity Outline Shapes Polygons Unique Sides Cycle Reach Fill.

Definition shifted (m : point) (k t : Qc) : point := Pt (px m + t) (py m - t * k).
Definition rate (s : segment) : Qc := (py (s_end s) - py (s_start s)) / (px (s_end s) - px (s_start s)).
Lemma cross_shifted : forall a b m k t, cross a b (shifted m k t) = cross a b m + t * - (k * (px b - px a) + (py b - py a)).
Proof. intros a b m k t. unfold cross, shifted. cbn [px py]. ring. Qed.
Lemma steep : forall a b k, px a < px b -> - rate (Seg a b) < k -> 0 < k * (px b - px a) + (py b - py a).
Proof.
  intros a b k L K. unfold rate in K. cbn [s_start s_end] in K. assert (D : px b - px a <> 0) by (intro Z; clear - Z L; qlra).
  assert (E : (py b - py a) / (px b - px a) * (px b - px a) = py b - py a) by (field; exact D). set (r := (py b - py a) / (px b - px a)) in *. clearbody r.
  assert (0 < (k + r) * (px b - px a)) by (apply mul_pos; qlra). rewrite <- E. replace (k * (px b - px a) + r * (px b - px a)) with ((k + r) * (px b - px a)) by ring. exact H.
Qed.
Lemma rate_reversed : forall s, px (s_start s) <> px (s_end s) -> rate (reversed s) = rate s.
Proof.
  intros [a b] N. unfold rate, reversed. cbn [s_start s_end] in *. field. split; intro Z; apply N; clear - Z; qlra.
Qed.
Lemma vertical_never : forall a b p, px a = px b -> passes_under (Seg a b) p = false.
Proof.
  intros a b p E. apply not_true_iff_false. unfold passes_under, lex_ltb, cross. cbn [s_start s_end]. rewrite E. breflect; cbn; intro K; try discriminate K; clear K; try qnra.
Qed.
Lemma soon_aside : forall x y, soon (fun t => x + t <> y).
Proof.
  intros x y. destruct (Qc_lt_total x y) as [K|[K|K]].
  - apply (soon_imp (fun t => 0 < (y - x) + t * - (1))); [intros t _ J E; rewrite <- E in J; clear - J; qlra|apply soon_pos; qlra].
  - apply soon_true. intros t T E. rewrite K in E. clear - E T. qlra.
  - apply soon_true. intros t T E. rewrite <- E in K. clear - K T. qlra.
Qed.
Lemma LtA : forall p q, px p < px q -> lex_ltb p q = true.
Proof. intros p q J; unfold lex_ltb; destruct (Qc_ltb_spec (px p) (px q)); [reflexivity|contradiction]. Qed.
Lemma LtB : forall p q, px q < px p -> lex_ltb p q = false.
Proof. intros p q J; unfold lex_ltb; breflect; cbn; try reflexivity; exfalso; qlra. Qed.
Lemma LtC : forall p q, px p = px q -> lex_ltb p q = Qc_ltb (py p) (py q).
Proof. intros p q J. unfold lex_ltb. rewrite J. destruct (Qc_ltb_spec (px q) (px q)) as [K|_]; [exfalso; exact (Qclt_not_eq _ _ K eq_refl)|]. destruct (Qc_eqb_spec (px q) (px q)) as [_|K]; [reflexivity|contradiction]. Qed.
Lemma soon_under_way : forall a b m k, px a < px b -> - rate (Seg a b) < k -> soon (fun t => passes_under (Seg a b) (shifted m k t) = passes_under (Seg a b) m).
Proof.
  intros a b m k L K. pose proof (steep a b k L K) as C.
  assert (Und : forall p, passes_under (Seg a b) p = negb (lex_ltb p a) && lex_ltb p b && Qc_ltb 0 (cross a b p)).
  { intro p. unfold passes_under. cbn [s_start s_end]. assert (F : negb (lex_ltb p b) && lex_ltb p a = false).
    { unfold lex_ltb. breflect; cbn; try reflexivity; exfalso; qlra. }
    rewrite F. cbn. apply orb_false_r. }
  destruct (Qclt_le_dec 0 (cross a b m)) as [P|P].
  - assert (S : soon (fun t => 0 < cross a b (shifted m k t))).
    { apply (soon_imp (fun t => 0 < cross a b m + t * - (k * (px b - px a) + (py b - py a)))); [intros t _ J; rewrite cross_shifted; exact J|apply soon_pos, P]. }
    assert (G : soon (fun t => negb (lex_ltb (shifted m k t) a) && lex_ltb (shifted m k t) b = negb (lex_ltb m a) && lex_ltb m b)).
    { unfold cross in P. destruct (Qc_lt_total (px m) (px a)) as [A|[A|A]].
      - apply (soon_imp (fun t => 0 < (px a - px m) + t * - (1))); [|apply soon_pos; qlra]. intros t _ J. rewrite (LtA (shifted m k t) a) by (cbn; clear - J; qlra). rewrite (LtA m a A). reflexivity.
      - apply (soon_imp (fun t => 0 < (px b - px a) + t * - (1))); [|apply soon_pos; qlra]. intros t T J. rewrite (LtB (shifted m k t) a) by (cbn; clear - T A; qlra). rewrite (LtA (shifted m k t) b) by (cbn; clear - A J; qlra).
        rewrite (LtC m a A), (LtA m b) by (rewrite A; exact L). rewrite A in P. replace ((px b - px a) * (py m - py a) - (py b - py a) * (px a - px a)) with ((px b - px a) * (py m - py a)) in P by ring.
        destruct (Qc_ltb_spec (py m) (py a)) as [Q|Q]; [exfalso|reflexivity]. assert (0 < (px b - px a) * (py a - py m)) by (apply mul_pos; qlra). clear - H P. qlra.
      - destruct (Qc_lt_total (px m) (px b)) as [B|[B|B]].
        + apply (soon_imp (fun t => 0 < (px b - px m) + t * - (1))); [|apply soon_pos; qlra]. intros t T J. rewrite (LtB (shifted m k t) a) by (cbn; clear - T A; qlra). rewrite (LtA (shifted m k t) b) by (cbn; clear - J; qlra).
          rewrite (LtB m a A), (LtA m b B). reflexivity.
        + apply soon_true. intros t T. rewrite (LtB (shifted m k t) a) by (cbn; clear - T A; qlra). rewrite (LtB (shifted m k t) b) by (cbn; clear - T B; qlra). rewrite (LtB m a A), (LtC m b B).
          rewrite B in P. destruct (Qc_ltb_spec (py m) (py b)) as [Q|Q]; [exfalso|reflexivity]. assert (0 < (px b - px a) * (py b - py m)) by (apply mul_pos; qlra). clear - H P. qlra.
        + apply soon_true. intros t T. rewrite (LtB (shifted m k t) b) by (cbn; clear - T B; qlra). rewrite (LtB m b B). rewrite !andb_false_r. reflexivity. }
    apply (soon_imp _ _ (fun t T H => H)). apply (soon_imp (fun t => 0 < cross a b (shifted m k t) /\ negb (lex_ltb (shifted m k t) a) && lex_ltb (shifted m k t) b = negb (lex_ltb m a) && lex_ltb m b)); [|apply soon_and; assumption].
    intros t T (J1 & J2). rewrite !Und, J2. f_equal. destruct (Qc_ltb_spec 0 (cross a b (shifted m k t))), (Qc_ltb_spec 0 (cross a b m)); try reflexivity; contradiction.
  - apply soon_true. intros t T. rewrite !Und. destruct (Qc_ltb_spec 0 (cross a b m)) as [Q|Q]; [exfalso; clear - P Q; qlra|].
    destruct (Qc_ltb_spec 0 (cross a b (shifted m k t))) as [R|R]; [exfalso|rewrite !andb_false_r; reflexivity].
    rewrite cross_shifted in R. assert (0 < t * (k * (px b - px a) + (py b - py a))) by (apply mul_pos; assumption). clear - R H P. qlra.
Qed.
Lemma soon_under : forall s m k, - rate s < k -> soon (fun t => passes_under s (shifted m k t) = passes_under s m).
Proof.
  intros [a b] m k K. destruct (Qc_lt_total (px a) (px b)) as [L|[L|L]].
  - apply soon_under_way; assumption.
  - apply soon_true. intros t _. rewrite !vertical_never by exact L. reflexivity.
  - apply (soon_imp (fun t => passes_under (Seg b a) (shifted m k t) = passes_under (Seg b a) m)).
    + intros t _ J. change (Seg b a) with (reversed (Seg a b)) in J. rewrite !passes_reversed in J. exact J.
    + apply soon_under_way; [exact L|]. change (Seg b a) with (reversed (Seg a b)). rewrite rate_reversed; [exact K|]. cbn. intro E. rewrite E in L. exact (Qclt_not_eq _ _ L eq_refl).
Qed.
(** The line through a point meets nothing else nearby. *)
Lemma soon_alone : forall s m k, proper s -> - rate s < k ->
  soon (fun t => forall x, on_segment x (Seg (shifted m k t) (shifted m k (- t))) -> on_segment x s -> on_segment m s /\ x = m).
Proof.
  intros s m k Ps K. destruct (on_segment_dec m s) as [O|O].
  - apply soon_true. intros t T x Hx Ox. split; [exact O|]. apply on_lerp in Hx. destruct Hx as (z & Z0 & Z1 & ->).
    assert (E : lerp (shifted m k t) (shifted m k (- t)) z = shifted m k (t * (1 - (z + z)))) by (unfold lerp, shifted; cbn [px py]; apply pt_ext; cbn [px py]; ring).
    rewrite E in *. set (w := t * (1 - (z + z))) in *. clearbody w. clear E. pose proof (on_cross _ s O) as C0. pose proof (on_cross _ s Ox) as C1. rewrite cross_shifted, C0 in C1.
    assert (Nz : k * (px (s_end s) - px (s_start s)) + (py (s_end s) - py (s_start s)) <> 0).
    { destruct s as [a b]. unfold proper in Ps. cbn [s_start s_end] in *. destruct (Qc_lt_total (px a) (px b)) as [L|[L|L]].
      - pose proof (steep a b k L K) as J. intro Z. rewrite Z in J. discriminate J.
      - rewrite L. intro Z. apply Ps. apply pt_ext; [exact L|]. assert (Q : k * (px b - px b) = 0) by ring. rewrite Q in Z. clear - Z. qlra.
      - assert (K' : - rate (Seg b a) < k). { change (Seg b a) with (reversed (Seg a b)). rewrite rate_reversed; [exact K|]. cbn. intro E. rewrite E in L. exact (Qclt_not_eq _ _ L eq_refl). }
        pose proof (steep b a k L K') as J. intro Z. assert (Q : k * (px a - px b) + (py a - py b) = 0) by (transitivity (- (k * (px b - px a) + (py b - py a))); [ring|rewrite Z; reflexivity]). rewrite Q in J. discriminate J. }
    assert (W : w * (k * (px (s_end s) - px (s_start s)) + (py (s_end s) - py (s_start s))) = 0) by (clear - C1; qlra).
    apply Qcmult_integral in W. destruct W as [W|W]; [|contradiction]. rewrite W. unfold shifted. apply pt_ext; cbn; ring.
  - destruct (separated m s Ps O) as (((a, b), c) & F & G).
    assert (Ef : forall t, aff (a, b, c) (shifted m k t) = aff (a, b, c) m + t * (a - b * k)) by (intro t; cbn; ring).
    apply (soon_imp (fun t => 0 < aff (a, b, c) m + t * (a - b * k) /\ 0 < aff (a, b, c) m + t * - (a - b * k))); [|apply soon_and; apply soon_pos; exact F].
    intros t T (A & B) x Hx Ox. exfalso. rewrite <- Ef in A. replace (t * - (a - b * k)) with ((- t) * (a - b * k)) in B by ring. rewrite <- Ef in B.
    pose proof (aff_between (a, b, c) _ _ x A B Hx) as Z. exact (Qcle_not_lt _ _ (G x Ox) Z).
Qed.
Theorem sides_at : forall all m, Forall proper all -> exists d u, inside_segment m (Seg d u)
  /\ (forall s, In s all -> passes_under s d = passes_under s m)
  /\ (forall s x, In s all -> on_segment x (Seg d u) -> on_segment x s -> on_segment m s /\ x = m).
Proof.
  intros all m Pr. destruct (above_all (map (fun s => - rate s) all)) as (k & K).
  assert (S : soon (fun t => forall s, In s all -> passes_under s (shifted m k t) = passes_under s m /\ (forall x, on_segment x (Seg (shifted m k t) (shifted m k (- t))) -> on_segment x s -> on_segment m s /\ x = m))).
  { apply soon_all. intros s Hs. assert (Ks : - rate s < k) by (apply K; exact (in_map (fun s => - rate s) all s Hs)). apply soon_and; [apply soon_under; exact Ks|apply soon_alone; [exact (proj1 (Forall_forall _ _) Pr s Hs)|exact Ks]]. }
  destruct S as (t & T0 & T1 & T). specialize (T t T0 (Qcle_refl t)). exists (shifted m k t), (shifted m k (- t)). split; [|split].
  - split; [|cbn [s_start s_end]; split; intro E; apply (f_equal px) in E; cbn in E; clear - E T0; qlra].
    apply on_lerp. exists (/ (1 + 1)). split; [discriminate|]. split; [discriminate|]. unfold lerp, shifted. apply pt_ext; cbn [px py]; field; discriminate.
  - intros s Hs. apply (T s Hs).
  - intros s x Hs. apply (T s Hs).
Qed.
