(** Regions of valid polygons are bounded by edges the modelled code takes
    from them.  Proof support only, no part of /repo is modelled here. *)
From Coq Require Import Permutation.
From Verif Require Import QcTac Geom Spec SpecShape GeomFacts Toward BoundingThms Relation PairFacts Parity Outline EvenOdd Contour ShrinkThms ConnectThms Tracing TraceThms RegionThms OrientThms Shapes LinearComplete.

Lemma NoDup_app_remove_l : forall (A : Type) (a b : list A), NoDup (a ++ b) -> NoDup b.
Proof. intros A a b. induction a as [|x a IH]; intro H; [exact H|]. apply IH. apply NoDup_cons_iff in H. apply H. Qed.
Lemma NoDup_app_remove_r : forall (A : Type) (a b : list A), NoDup (a ++ b) -> NoDup a.
Proof.
  intros A a b. induction a as [|x a IH]; intro H; [constructor|]. cbn in H. apply NoDup_cons_iff in H. destruct H as (N & H).
  constructor; [intro J; apply N, in_or_app; left; exact J|exact (IH H)].
Qed.
Lemma NoDup_app_disjoint : forall (A : Type) (a b : list A), NoDup (a ++ b) -> forall x, In x a -> ~ In x b.
Proof.
  intros A a b. induction a as [|y a IH]; intros H x Hx; [destruct Hx|]. cbn in H. apply NoDup_cons_iff in H. destruct H as (N & H).
  destruct Hx as [<-|Hx]; [intro J; apply N, in_or_app; right; exact J|exact (IH H x Hx)].
Qed.
(** ** Edges up to direction *)
Definition canon (s : segment) : segment := Seg (seg_lo s) (seg_hi s).
Definition turned (es fs : list segment) : Prop := Permutation (map canon es) (map canon fs).
Lemma canon_cases : forall s, canon s = s \/ canon s = reversed s.
Proof. intros (a, b). unfold canon. destruct (seg_lo_hi (Seg a b)) as [(-> & -> & _)|(-> & -> & _)]; [left|right]; reflexivity. Qed.
Lemma canon_reversed : forall s, canon (reversed s) = canon s.
Proof.
  intros (a, b). unfold canon, reversed, seg_lo, seg_hi. cbn. destruct (pt_ltb_spec a b) as [H|H], (pt_ltb_spec b a) as [J|J]; try reflexivity.
  - exfalso. exact (plt_irrefl _ (plt_trans _ _ _ H J)).
  - destruct (pt_eq_dec a b) as [->|N]; [reflexivity|]. exfalso. destruct (plt_total a b) as [K|[K|K]]; contradiction.
Qed.
Lemma passes_reversed : forall s p, passes_under (reversed s) p = passes_under s p.
Proof. intros s p. unfold passes_under, reversed. cbn [s_start s_end]. apply orb_comm. Qed.
Lemma passes_canon : forall s p, passes_under (canon s) p = passes_under s p.
Proof. intros s p. destruct (canon_cases s) as [->| ->]; [reflexivity|apply passes_reversed]. Qed.
Lemma on_reversed : forall s p, on_segment p (reversed s) <-> on_segment p s.
Proof. intros (a, b) p. split; intro H; apply on_segment_sym; exact H. Qed.
Lemma on_canon : forall s p, on_segment p (canon s) <-> on_segment p s.
Proof. intros s p. destruct (canon_cases s) as [->| ->]; [reflexivity|apply on_reversed]. Qed.
Lemma inside_canon : forall es p, inside (map canon es) p = inside es p.
Proof. intros es p. rewrite !inside_parity, parity_map. apply parity_ext. intros s _. apply passes_canon. Qed.
Lemma ons_canon : forall es p, on_segments p (map canon es) <-> on_segments p es.
Proof.
  intros es p. split.
  - intros (s & Hs & O). apply in_map_iff in Hs. destruct Hs as (t & <- & Ht). exists t. split; [exact Ht|apply on_canon; exact O].
  - intros (s & Hs & O). exists (canon s). split; [apply in_map; exact Hs|apply on_canon; exact O].
Qed.
Lemma even_canon : forall es, even_occurrences (endpoints_of (map canon es)) <-> even_occurrences (endpoints_of es).
Proof.
  intro es. rewrite !even_parity. assert (E : forall q, parity (fun p => pt_eqb p q) (endpoints_of (map canon es)) = parity (fun p => pt_eqb p q) (endpoints_of es)).
  { intro q. unfold endpoints_of. rewrite !parity_flat, parity_map. apply parity_ext. intros s _. cbn [parity].
    destruct (canon_cases s) as [->| ->]; [reflexivity|]. unfold reversed. cbn. destruct (pt_eqb (s_start s) q), (pt_eqb (s_end s) q); reflexivity. }
  split; intros H q; specialize (H q); rewrite E in *; exact H.
Qed.
Lemma pairwise_map : forall (A B : Type) (R : B -> B -> Prop) (f : A -> B) l, pairwise R (map f l) <-> pairwise (fun a b => R (f a) (f b)) l.
Proof.
  intros A B R f l. split; intros H i j x y N Ei Ej.
  - apply (H i j); [exact N|exact (map_nth_error f i l Ei)|exact (map_nth_error f j l Ej)].
  - rewrite nth_error_map in Ei, Ej. destruct (nth_error l i) as [a|] eqn:A1; [|discriminate]. destruct (nth_error l j) as [b|] eqn:B1; [|discriminate].
    injection Ei as <-. injection Ej as <-. exact (H i j a b N A1 B1).
Qed.
Lemma pairwise_iff : forall (A : Type) (R T : A -> A -> Prop) l, (forall a b, R a b <-> T a b) -> pairwise R l <-> pairwise T l.
Proof. intros A R T l E. split; intros H i j x y N Ei Ej; apply E; exact (H i j x y N Ei Ej). Qed.
Lemma overlap_canon : forall s t, overlap (canon s) (canon t) <-> overlap s t.
Proof.
  intros s t. unfold overlap. split; intros (p & q & N & A & B & C & D); exists p, q; (split; [exact N|]); rewrite !on_canon in *; repeat split; assumption.
Qed.
Lemma proper_canon : forall s, proper (canon s) <-> proper s.
Proof. intro s. destruct (canon_cases s) as [->| ->]; [reflexivity|]. unfold proper, reversed. cbn. split; intros H E; apply H; symmetry; exact E. Qed.
Lemma non_overlapping_canon : forall es, non_overlapping (map canon es) <-> non_overlapping es.
Proof.
  intro es. unfold non_overlapping. rewrite pairwise_map, Forall_map. rewrite (pairwise_iff _ (fun a b => ~ overlap (canon a) (canon b)) (fun a b => ~ overlap a b)) by (intros; rewrite overlap_canon; reflexivity).
  split; intros (A & B); (split; [|exact B]); eapply Forall_impl; try exact A; intros s; apply proper_canon.
Qed.
Lemma non_overlapping_perm : forall es fs, Permutation es fs -> non_overlapping es -> non_overlapping fs.
Proof.
  intros es fs H (A & B). split; [rewrite <- H; exact A|]. apply (LinearThms.pairwise_perm _ _ es); [|exact H|exact B].
  intros a b N O. apply N. destruct O as (p & q & Npq & X1 & X2 & X3 & X4). exists p, q. repeat split; assumption.
Qed.
Lemma turned_inside : forall es fs p, turned es fs -> inside es p = inside fs p.
Proof. intros es fs p H. rewrite <- (inside_canon es), <- (inside_canon fs), !inside_parity. apply parity_perm, H. Qed.
Lemma turned_on : forall es fs p, turned es fs -> on_segments p es <-> on_segments p fs.
Proof.
  intros es fs p H. rewrite <- (ons_canon es), <- (ons_canon fs). split; intros (s & Hs & O); exists s; (split; [|exact O]).
  - exact (Permutation_in _ H Hs).
  - exact (Permutation_in _ (Permutation_sym H) Hs).
Qed.
Lemma turned_even : forall es fs, turned es fs -> even_occurrences (endpoints_of es) -> even_occurrences (endpoints_of fs).
Proof.
  intros es fs H E. apply even_canon. apply even_canon in E. apply (even_perm (endpoints_of (map canon es))); [|exact E]. unfold endpoints_of. apply Permutation_flat_map, H.
Qed.
Lemma turned_non_overlapping : forall es fs, turned es fs -> non_overlapping es -> non_overlapping fs.
Proof. intros es fs H E. apply non_overlapping_canon. apply non_overlapping_canon in E. exact (non_overlapping_perm _ _ H E). Qed.
Lemma turned_sym : forall es fs, turned es fs -> turned fs es.
Proof. intros es fs H. exact (Permutation_sym H). Qed.
Lemma turned_perm : forall es fs, Permutation es fs -> turned es fs.
Proof. intros es fs H. apply Permutation_map, H. Qed.
Lemma turned_reversed : forall es, turned (map reversed es) es.
Proof. intro es. unfold turned. rewrite map_map. erewrite map_ext; [reflexivity|]. intro s. apply canon_reversed. Qed.
Lemma turned_trans : forall a b c, turned a b -> turned b c -> turned a c.
Proof. intros a b c H J. exact (Permutation_trans H J). Qed.
Lemma turned_app : forall a b c d, turned a b -> turned c d -> turned (a ++ c) (b ++ d).
Proof. intros a b c d H J. unfold turned. rewrite !map_app. apply Permutation_app; assumption. Qed.
Lemma turned_flat : forall (A : Type) (f g : A -> list segment) l, (forall x, In x l -> turned (f x) (g x)) -> turned (flat_map f l) (flat_map g l).
Proof.
  intros A f g l. induction l as [|x l IH]; intro H; [apply Permutation_refl|]. cbn. apply turned_app; [apply H; left; reflexivity|].
  apply IH. intros y Hy. apply H. right. exact Hy.
Qed.
Lemma turned_oriented : forall vs cw, turned (contour_oriented_edges vs cw) (contour_edges vs).
Proof.
  intros vs cw. destruct (oriented_edges_cycle vs cw) as [->| ->]; [apply Permutation_refl|].
  apply (turned_trans _ (map reversed (contour_edges vs))); [apply turned_perm; symmetry; apply Permutation_rev|apply turned_reversed].
Qed.
Lemma turned_polygon : forall g, turned (polygon_oriented_edges g) (polygon_edges g).
Proof. intro g. apply turned_app; [apply turned_oriented|]. apply turned_flat. intros h _. apply turned_oriented. Qed.
Lemma turned_polygons : forall gs, turned (flat_map polygon_oriented_edges gs) (flat_map polygon_edges gs).
Proof. intro gs. apply turned_flat. intros g _. apply turned_polygon. Qed.

(** ** Directions of edges of contours *)
Lemma simple_rev : forall vs, simple_contour vs -> simple_contour (rev vs).
Proof.
  intros vs (A & B & C). split; [rewrite rev_length; exact A|]. split; [apply NoDup_rev, B|].
  apply (LinearThms.pairwise_perm _ _ (map reversed (contour_edges vs))).
  - intros s t H p O1 O2. destruct (H p O2 O1) as (X & Y). split; assumption.
  - symmetry. apply reverse_edges.
  - apply pairwise_map. intros i j s t N Ei Ej p O1 O2. destruct (C i j s t N Ei Ej p) as (X & Y); [apply on_reversed; exact O1|apply on_reversed; exact O2|].
    unfold endpoint, reversed in *. cbn. split; [destruct X|destruct Y]; auto.
Qed.
Lemma left_inside_perm : forall es fs, Permutation es fs -> left_inside es -> left_inside fs.
Proof.
  intros es fs H L s m Hs Hm Ha. rewrite <- (turned_inside es fs m (turned_perm _ _ H)). apply L; [rewrite H; exact Hs|exact Hm|].
  intros t Ht N. apply Ha; [rewrite <- H; exact Ht|exact N].
Qed.
Lemma ccw_perm : forall es fs, Permutation es fs -> counterclockwise_at_least es -> counterclockwise_at_least fs.
Proof.
  intros es fs H C u v w A B D. apply C; [rewrite H; exact A|rewrite H; exact B|]. intros e He. apply D. rewrite <- H. exact He.
Qed.
Lemma simple_left : forall vs es, simple_contour vs -> Permutation es (contour_edges vs) \/ Permutation es (map reversed (contour_edges vs)) ->
  counterclockwise_at_least es -> left_inside es.
Proof.
  intros vs es Hv Hp Hc.
  assert (G : forall ws, simple_contour ws -> Permutation es (contour_edges ws) -> left_inside es).
  { intros ws Hw Pw. apply (left_inside_perm (contour_edges ws)); [symmetry; exact Pw|]. apply contour_left; [exact Hw|]. exact (ccw_perm _ _ Pw Hc). }
  destruct Hp as [Hp|Hp]; [exact (G vs Hv Hp)|]. apply (G (rev vs)); [apply simple_rev, Hv|]. rewrite Hp. symmetry. apply reverse_edges.
Qed.
Lemma border_left : forall vs, simple_contour vs -> left_inside (contour_oriented_edges vs false).
Proof.
  intros vs Hv. apply (simple_left vs); [exact Hv| |apply oriented_edges_counterclockwise; [apply Hv|apply simple_turns, Hv]].
  destruct (oriented_edges_cycle vs false) as [->| ->]; [left; reflexivity|right]. symmetry. apply Permutation_rev.
Qed.
Lemma hole_left : forall vs, simple_contour vs -> left_inside (map reversed (contour_oriented_edges vs true)).
Proof.
  intros vs Hv. apply (simple_left vs); [exact Hv| |apply oriented_edges_counterclockwise; [apply Hv|apply simple_turns, Hv]].
  destruct (oriented_edges_cycle vs true) as [->| ->]; [right; reflexivity|left]. rewrite map_rev, reversed_reversed. symmetry. apply Permutation_rev.
Qed.

(** ** Polygons *)
Lemma inside_app : forall a b p, inside (a ++ b) p = xorb (inside a p) (inside b p).
Proof. intros. rewrite !inside_parity. apply parity_app. Qed.
Lemma inside_flat : forall (A : Type) (f : A -> list segment) l p, inside (flat_map f l) p = parity (fun x => inside (f x) p) l.
Proof. intros. rewrite inside_parity, parity_flat. apply parity_ext. intros x _. rewrite inside_parity. reflexivity. Qed.
Lemma on_flat : forall (A : Type) (f : A -> list segment) l p, on_segments p (flat_map f l) <-> exists x, In x l /\ on_segments p (f x).
Proof.
  intros A f l p. unfold on_segments. split.
  - intros (s & Hs & O). apply in_flat_map in Hs. destruct Hs as (x & Hx & Hs). exists x. split; [exact Hx|exists s; split; assumption].
  - intros (x & Hx & s & Hs & O). exists s. split; [apply in_flat_map; exists x; split; assumption|exact O].
Qed.
(** At most one of elements satisfies [f]. *)
Lemma parity_single : forall (A : Type) (f : A -> bool) l, pairwise (fun x y => f x = true -> f y = true -> False) l ->
  parity f l = true <-> exists x, In x l /\ f x = true.
Proof.
  intros A f l. induction l as [|x l IH]; intro H; [cbn; split; [discriminate|intros (x & [] & _)]|].
  apply PairProofs.pairwise_cons in H. destruct H as (Hx & H). cbn [parity]. destruct (f x) eqn:E.
  - rewrite (parity_none f l); [split; [intros _; exists x; split; [left; reflexivity|exact E]|reflexivity]|].
    intros y Hy. destruct (f y) eqn:F; [|reflexivity]. exfalso. exact (proj1 (Hx y Hy) eq_refl F).
  - rewrite xorb_false_l, (IH H). split; intros (y & Hy & F); exists y; (split; [|exact F]); [right; exact Hy|destruct Hy as [<-|Hy]; [congruence|exact Hy]].
Qed.
Lemma region_or : forall es p, in_region es p <-> on_segments p es \/ interior es p.
Proof.
  intros es p. unfold in_region, interior. destruct (on_segments_dec p es) as [H|H]; tauto.
Qed.
Lemma interior_off : forall es p, ~ on_segments p es -> interior es p <-> in_region es p.
Proof. intros es p N. unfold interior, in_region. tauto. Qed.
Section Polygon.
Variable g : polygon.
Hypothesis Hg : valid_polygon g.
Let Hb : simple_contour (vertices (border g)) := proj1 Hg.
Let Hh : Forall (fun h => simple_contour (vertices h)) (holes g) := proj1 (proj2 Hg).
Let Hin : forall h p, In h (holes g) -> in_contour h p -> in_contour (border g) p := proj1 (proj2 (proj2 Hg)).
Let Hins : forall h p, In h (holes g) -> inside_contour h p -> inside_contour (border g) p := proj1 (proj2 (proj2 (proj2 Hg))).
Let Hpw : pairwise (fun h k => forall p, ~ (inside_contour h p /\ in_contour k p)) (holes g) := proj1 (proj2 (proj2 (proj2 (proj2 Hg)))).
Notation B := (contour_edges (vertices (border g))).
Notation H_ h := (contour_edges (vertices h)).

Lemma on_polygon : forall p, on_segments p (polygon_edges g) <-> on_segments p B \/ exists h, In h (holes g) /\ on_segments p (H_ h).
Proof.
  intro p. unfold polygon_edges. rewrite <- (on_flat _ (fun h => H_ h)). unfold on_segments. split.
  - intros (s & Hs & O). apply in_app_or in Hs. destruct Hs as [Hs|Hs]; [left|right]; exists s; split; assumption.
  - intros [(s & Hs & O)|(s & Hs & O)]; exists s; (split; [apply in_or_app|exact O]); [left|right]; exact Hs.
Qed.
Lemma edge_in_polygon : forall p, on_segments p (polygon_edges g) -> in_polygon g p.
Proof.
  intros p H. apply on_polygon in H. destruct H as [H|(h & Ih & H)].
  - split; [left; exact H|]. intros h Ih J. destruct (Hins h p Ih J) as (N & _). exact (N H).
  - split; [apply (Hin h p Ih); left; exact H|]. intros k Ik J. apply In_nth_error in Ih, Ik. destruct Ih as (i & Ei), Ik as (j & Ej).
    destruct (Nat.eq_dec i j) as [E|N].
    + assert (h = k) by congruence. subst k. exact (proj1 J H).
    + apply (Hpw j i k h (not_eq_sym N) Ej Ei p). split; [exact J|left; exact H].
Qed.
Lemma holes_parity : forall p, (forall h, In h (holes g) -> ~ on_segments p (H_ h)) ->
  parity (fun h => inside (H_ h) p) (holes g) = true <-> exists h, In h (holes g) /\ inside_contour h p.
Proof.
  intros p Off. rewrite parity_single.
  - split; intros (h & Ih & J); exists h; (split; [exact Ih|]); [split; [exact (Off h Ih)|exact J]|apply J].
  - intros i j h k N Ei Ej X Y. apply (Hpw i j h k N Ei Ej p).
    split; [split; [exact (Off h (nth_error_In _ _ Ei))|exact X]|right; exact Y].
Qed.
Lemma off_polygon : forall p, ~ on_segments p (polygon_edges g) -> inside (polygon_edges g) p = true <-> in_polygon g p.
Proof.
  intros p Off. assert (Ob : ~ on_segments p B) by (intro J; apply Off, on_polygon; left; exact J).
  assert (Oh : forall h, In h (holes g) -> ~ on_segments p (H_ h)) by (intros h Ih J; apply Off, on_polygon; right; exists h; split; assumption).
  unfold polygon_edges. rewrite inside_app, inside_flat. pose proof (holes_parity p Oh) as HP. unfold in_polygon, in_contour, in_region.
  destruct (parity (fun h => inside (H_ h) p) (holes g)).
  - destruct (proj1 HP eq_refl) as (h & Ih & J). rewrite (proj2 (Hins h p Ih J)). cbn. split; [discriminate|]. intros (_ & K). exfalso. exact (K h Ih J).
  - rewrite xorb_false_r. split; [intro J; split; [right; exact J|]|intros ([J|J] & _); [contradiction|exact J]].
    intros h Ih K. assert (X : false = true) by (apply HP; exists h; split; assumption). discriminate.
Qed.
Theorem polygon_region : forall p, in_region (polygon_edges g) p <-> in_polygon g p.
Proof.
  intro p. destruct (on_segments_dec p (polygon_edges g)) as [H|H].
  - split; intro J; [apply edge_in_polygon, H|left; exact H].
  - rewrite <- (off_polygon p H). unfold in_region. tauto.
Qed.
Theorem polygon_interior : forall p, interior (polygon_edges g) p <-> inside_polygon g p.
Proof.
  intro p. split.
  - intros (N & J). apply (off_polygon p N) in J. destruct J as (J & K). split.
    + split; [intro X; apply N, on_polygon; left; exact X|]. destruct J as [J|J]; [|exact J]. exfalso. apply N, on_polygon. left. exact J.
    + intros h Ih X. apply (K h Ih). apply interior_off; [|exact X]. intro Y. apply N, on_polygon. right. exists h. split; assumption.
  - intros ((N & J) & K). assert (Off : ~ on_segments p (polygon_edges g)).
    { intro X. apply on_polygon in X. destruct X as [X|(h & Ih & X)]; [exact (N X)|exact (K h Ih (or_introl X))]. }
    split; [exact Off|]. apply (off_polygon p Off). split; [right; exact J|]. intros h Ih (X & Y). apply (K h Ih). right. exact Y.
Qed.

(** Edges as the code directs them. *)
Lemma canon_in : forall es fs s, turned es fs -> In s es -> exists t, In t fs /\ (t = s \/ t = reversed s).
Proof.
  intros es fs s H Hs. assert (J : In (canon s) (map canon fs)) by (apply (Permutation_in _ H), in_map, Hs).
  apply in_map_iff in J. destruct J as (t & E & Ht). exists t. split; [exact Ht|].
  destruct (canon_cases s) as [Es|Es], (canon_cases t) as [Et|Et]; rewrite Es, Et in E; [left; exact E| | |left].
  - right. rewrite <- E. destruct t. reflexivity.
  - right. exact E.
  - destruct s, t. unfold reversed in E. cbn in E. injection E as -> ->. reflexivity.
Qed.
Lemma proper_directed : forall s, proper s -> (plt (s_end s) (s_start s) <-> ~ plt (s_start s) (s_end s)).
Proof.
  intros s N. split; [intros A C; exact (plt_irrefl _ (plt_trans _ _ _ A C))|]. intro A. destruct (plt_total (s_end s) (s_start s)) as [C|[C|C]]; [exact C| |contradiction].
  exfalso. apply N. symmetry. exact C.
Qed.
Lemma polygon_left : forall s m, In s (polygon_oriented_edges g) -> inside_segment m s ->
  (forall t, In t (polygon_oriented_edges g) -> t <> s -> ~ on_segment m t) ->
  NoDup (polygon_oriented_edges g) -> proper s ->
  (inside (polygon_edges g) m = true <-> plt (s_end s) (s_start s)).
Proof.
  intros s m Hs Hm Ha Nd Ps. unfold polygon_oriented_edges in Hs, Ha, Nd. unfold polygon_edges. rewrite inside_app, inside_flat.
  apply in_app_or in Hs. destruct Hs as [Hs|Hs].
  - assert (Off : forall h, In h (holes g) -> ~ on_segments m (H_ h)).
    { intros h Ih J. apply (turned_on _ _ m (turned_oriented (vertices h) true)) in J. destruct J as (t & Ht & O).
      apply (Ha t); [apply in_or_app; right; apply in_flat_map; exists h; split; assumption| |exact O].
      intro E. subst t. apply (NoDup_app_disjoint _ _ _ Nd s Hs). apply in_flat_map. exists h. split; assumption. }
    rewrite (parity_none _ (holes g)).
    + rewrite xorb_false_r. rewrite <- (turned_inside _ _ m (turned_oriented (vertices (border g)) false)).
      apply (border_left _ Hb s m Hs Hm). intros t Ht. apply Ha. apply in_or_app. left. exact Ht.
    + intros h Ih. destruct (inside (H_ h) m) eqn:E; [exfalso|reflexivity].
      destruct (Hins h m Ih (conj (Off h Ih) E)) as (N & _). apply N. apply (turned_on _ _ m (turned_oriented (vertices (border g)) false)).
      exists s. split; [exact Hs|apply Hm].
  - apply in_flat_map in Hs. destruct Hs as (h & Ih & Hs).
    assert (Oh : on_segments m (H_ h)) by (apply (turned_on _ _ m (turned_oriented (vertices h) true)); exists s; split; [exact Hs|apply Hm]).
    assert (Ob : ~ on_segments m B).
    { intro J. apply (turned_on _ _ m (turned_oriented (vertices (border g)) false)) in J. destruct J as (t & Ht & O).
      apply (Ha t); [apply in_or_app; left; exact Ht| |exact O]. intro E. subst t. apply (NoDup_app_disjoint _ _ _ Nd s Ht).
      apply in_flat_map. exists h. split; assumption. }
    assert (Ib : inside B m = true) by (destruct (Hin h m Ih (or_introl Oh)) as [J|J]; [contradiction|exact J]). rewrite Ib.
    assert (E : parity (fun h => inside (H_ h) m) (holes g) = inside (H_ h) m).
    { apply In_nth_error in Ih. destruct Ih as (i & Ei). apply nth_error_split in Ei. destruct Ei as (l1 & l2 & El & Li).
      assert (Other : forall k, In k (l1 ++ l2) -> inside (H_ k) m = false).
      { intros k Ik. destruct (inside (H_ k) m) eqn:E; [exfalso|reflexivity].
        assert (Jk : exists j, j <> i /\ nth_error (holes g) j = Some k).
        { apply in_app_or in Ik. destruct Ik as [Ik|Ik]; apply In_nth_error in Ik; destruct Ik as (j & Ej).
          - assert (j < length l1)%nat by (apply nth_error_Some; congruence). exists j. split; [lia|]. rewrite El, nth_error_app1 by assumption. exact Ej.
          - exists (S (length l1 + j))%nat. split; [lia|]. rewrite El, nth_error_app2 by lia. replace (S (length l1 + j) - length l1)%nat with (S j) by lia. exact Ej. }
        destruct Jk as (j & Nj & Ej). assert (Ei : nth_error (holes g) i = Some h) by (rewrite El, <- Li, nth_error_app2, Nat.sub_diag by lia; reflexivity).
        apply (Hpw j i k h Nj Ej Ei m). split; [split; [|exact E]|left; exact Oh].
        intro J. apply (turned_on _ _ m (turned_oriented (vertices k) true)) in J. destruct J as (t & Ht & O).
        assert (Ik2 : In k (holes g)) by exact (nth_error_In _ _ Ej).
        apply (Ha t); [apply in_or_app; right; apply in_flat_map; exists k; split; assumption| |exact O].
        intro X. subst t. apply NoDup_app_remove_l in Nd. rewrite El in Nd. rewrite flat_map_app in Nd. cbn [flat_map] in Nd.
        apply in_app_or in Ik. destruct Ik as [Ik|Ik].
        - apply (NoDup_app_disjoint _ _ _ Nd s); [apply in_flat_map; exists k; split; assumption|apply in_or_app; left; exact Hs].
        - apply NoDup_app_remove_l in Nd. apply (NoDup_app_disjoint _ _ _ Nd s Hs). apply in_flat_map. exists k. split; assumption. }
      rewrite El, parity_app. cbn [parity]. rewrite (parity_none _ l1), (parity_none _ l2), xorb_false_l, xorb_false_r; [reflexivity| |]; intros k Ik; apply Other, in_or_app; auto. }
    rewrite E. rewrite Forall_forall in Hh. pose proof (hole_left _ (Hh h Ih)) as L.
    assert (Q : inside (H_ h) m = true <-> plt (s_start s) (s_end s)).
    { rewrite <- (turned_inside _ _ m (turned_trans _ _ _ (turned_reversed _) (turned_oriented (vertices h) true))).
      apply (L (reversed s) m); [apply in_map; exact Hs|apply inside_sym; destruct s; exact Hm|].
      intros t Ht N O. apply in_map_iff in Ht. destruct Ht as (r & <- & Hr). apply (Ha r); [apply in_or_app; right; apply in_flat_map; exists h; split; assumption| |apply on_reversed; exact O].
      intros ->. apply N. reflexivity. }
    rewrite (proper_directed s Ps), <- Q. destruct (inside (H_ h) m); cbn; split; try discriminate; [intro K; exfalso; apply K; reflexivity|congruence].
Qed.
End Polygon.

(** ** Lists of polygons *)
Section Polygons.
Variable gs : list polygon.
Hypothesis Hgs : valid_polygons gs.
Let Hv : forall g, In g gs -> valid_polygon g := proj1 (Forall_forall _ _) (proj1 Hgs).
Let Hpw : pairwise (fun g k => forall p, ~ (inside_polygon g p /\ in_polygon k p)) gs := proj1 (proj2 Hgs).
Notation E := (flat_map polygon_edges gs).
Notation O := (flat_map polygon_oriented_edges gs).

Lemma apart : forall g k p, In g gs -> In k gs -> inside_polygon g p -> in_polygon k p -> g = k.
Proof.
  intros g k p Ig Ik A B. apply In_nth_error in Ig, Ik. destruct Ig as (i & Ei), Ik as (j & Ej). destruct (Nat.eq_dec i j) as [->|N]; [congruence|].
  exfalso. exact (Hpw i j g k N Ei Ej p (conj A B)).
Qed.
Lemma off_polygons : forall p, ~ on_segments p E -> inside E p = true <-> in_polygons gs p.
Proof.
  intros p Off. assert (Og : forall g, In g gs -> ~ on_segments p (polygon_edges g)) by (intros g Ig J; apply Off, on_flat; exists g; split; assumption).
  rewrite inside_flat, parity_single.
  - split; intros (g & Ig & J); exists g; (split; [exact Ig|]); apply (off_polygon g (Hv g Ig) p (Og g Ig)); exact J.
  - intros i j g k N Ei Ej X Y. pose proof (nth_error_In _ _ Ei) as Ig. pose proof (nth_error_In _ _ Ej) as Ik.
    apply (Hpw i j g k N Ei Ej p). split; [apply (polygon_interior g (Hv g Ig)); split; [exact (Og g Ig)|exact X]|].
    apply (off_polygon k (Hv k Ik) p (Og k Ik)). exact Y.
Qed.
Theorem polygons_region : forall p, in_region E p <-> in_polygons gs p.
Proof.
  intro p. destruct (on_segments_dec p E) as [H|H].
  - split; intro J; [|left; exact H]. apply on_flat in H. destruct H as (g & Ig & H). exists g. split; [exact Ig|]. apply (edge_in_polygon g (Hv g Ig)), H.
  - rewrite <- (off_polygons p H). unfold in_region. tauto.
Qed.
Theorem polygons_interior : forall p, interior E p <-> inside_polygons gs p.
Proof.
  intro p. split.
  - intros (N & J). apply (off_polygons p N) in J. destruct J as (g & Ig & J). exists g. split; [exact Ig|].
    assert (Ng : ~ on_segments p (polygon_edges g)) by (intro X; apply N, on_flat; exists g; split; assumption).
    apply (polygon_interior g (Hv g Ig)). split; [exact Ng|]. apply (off_polygon g (Hv g Ig) p Ng), J.
  - intros (g & Ig & J). assert (N : ~ on_segments p E).
    { intro X. apply on_flat in X. destruct X as (k & Ik & X). pose proof (apart g k p Ig Ik J (edge_in_polygon k (Hv k Ik) p X)). subst k.
      apply (polygon_interior g (Hv g Ig)) in J. exact (proj1 J X). }
    split; [exact N|]. apply (off_polygons p N). exists g. split; [exact Ig|]. apply (polygon_region g (Hv g Ig)). right. apply (polygon_interior g (Hv g Ig)) in J. apply J.
Qed.
Theorem oriented_region : forall p, in_region O p <-> in_polygons gs p.
Proof.
  intro p. rewrite <- polygons_region. unfold in_region. rewrite (turned_inside _ _ p (turned_polygons gs)), (turned_on _ _ p (turned_polygons gs)). reflexivity.
Qed.
Theorem oriented_interior : forall p, interior O p <-> inside_polygons gs p.
Proof.
  intro p. rewrite <- polygons_interior. unfold interior. rewrite (turned_inside _ _ p (turned_polygons gs)), (turned_on _ _ p (turned_polygons gs)). reflexivity.
Qed.
Lemma oriented_non_overlapping : non_overlapping O.
Proof. apply (turned_non_overlapping E); [apply turned_sym, turned_polygons|apply Hgs]. Qed.
Lemma non_overlapping_nodup : forall es, non_overlapping es -> NoDup es.
Proof.
  intros es (A & B). apply NoDup_nth_error. intros i j Hi Eq. destruct (Nat.eq_dec i j) as [|N]; [assumption|exfalso].
  destruct (nth_error es i) as [s|] eqn:Ei; [|apply nth_error_None in Ei; lia]. symmetry in Eq.
  apply (B i j s s N Ei Eq). exists (s_start s), (s_end s). rewrite Forall_forall in A.
  split; [exact (A s (nth_error_In _ _ Ei))|]. exact (conj (on_segment_start s) (conj (on_segment_start s) (conj (on_segment_end s) (on_segment_end s)))).
Qed.
Lemma edges_even : forall l, even_occurrences (endpoints_of (flat_map polygon_edges l)).
Proof.
  induction l as [|g l IH]; [intro p; reflexivity|]. cbn. rewrite endpoints_app. apply even_app; [|exact IH].
  unfold polygon_edges. rewrite endpoints_app. apply even_app; [apply contour_even|]. induction (holes g) as [|h hs IHh]; [intro p; reflexivity|].
  cbn. rewrite endpoints_app. apply even_app; [apply contour_even|exact IHh].
Qed.
Theorem oriented_boundary : region_boundary O.
Proof.
  split; [exact oriented_non_overlapping|]. split; [apply (turned_even E); [apply turned_sym, turned_polygons|apply edges_even]|].
  pose proof (non_overlapping_nodup O oriented_non_overlapping) as Nd. pose proof (proj1 oriented_non_overlapping) as Pr. rewrite Forall_forall in Pr.
  intros s m Hs Hm Ha. rewrite (turned_inside _ _ m (turned_polygons gs)), inside_flat. pose proof (Pr s Hs) as Ps.
  apply in_flat_map in Hs. destruct Hs as (g & Ig & Hs).
  assert (Og : on_segments m (polygon_edges g)) by (apply (turned_on _ _ m (turned_polygon g)); exists s; split; [exact Hs|apply Hm]).
  apply In_nth_error in Ig. destruct Ig as (i & Ei). pose proof (nth_error_split _ _ Ei) as (l1 & l2 & El & Li).
  assert (Other : forall k, In k (l1 ++ l2) -> inside (polygon_edges k) m = false).
  { intros k Ik. destruct (inside (polygon_edges k) m) eqn:Ein; [exfalso|reflexivity].
    assert (Jk : exists j, j <> i /\ nth_error gs j = Some k).
    { apply in_app_or in Ik. destruct Ik as [Ik|Ik]; apply In_nth_error in Ik; destruct Ik as (j & Ej).
      - assert (j < length l1)%nat by (apply nth_error_Some; congruence). exists j. split; [lia|]. rewrite El, nth_error_app1 by assumption. exact Ej.
      - exists (S (length l1 + j))%nat. split; [lia|]. rewrite El, nth_error_app2 by lia. replace (S (length l1 + j) - length l1)%nat with (S j) by lia. exact Ej. }
    destruct Jk as (j & Nj & Ej). pose proof (nth_error_In _ _ Ej) as Ik2.
    apply (Hpw j i k g Nj Ej Ei m). split; [|apply (edge_in_polygon g (Hv g (nth_error_In _ _ Ei))), Og].
    apply (polygon_interior k (Hv k Ik2)). split; [|exact Ein].
    intro J. apply (turned_on _ _ m (turned_polygon k)) in J. destruct J as (t & Ht & X).
    apply (Ha t); [apply in_flat_map; exists k; split; assumption| |exact X].
    intro Y. subst t. rewrite El, flat_map_app in Nd. cbn [flat_map] in Nd. apply in_app_or in Ik. destruct Ik as [Ik|Ik].
    - apply (NoDup_app_disjoint _ _ _ Nd s); [apply in_flat_map; exists k; split; assumption|apply in_or_app; left; exact Hs].
    - apply NoDup_app_remove_l in Nd. apply (NoDup_app_disjoint _ _ _ Nd s Hs). apply in_flat_map. exists k. split; assumption. }
  assert (P1 : parity (fun k => inside (polygon_edges k) m) l1 = false) by (apply parity_none; intros k Ik; apply Other, in_or_app; left; exact Ik).
  assert (P2 : parity (fun k => inside (polygon_edges k) m) l2 = false) by (apply parity_none; intros k Ik; apply Other, in_or_app; right; exact Ik).
  rewrite El, parity_app. cbn [parity]. rewrite P1, P2, xorb_false_l, xorb_false_r.
  apply (polygon_left g (Hv g (nth_error_In _ _ Ei)) s m Hs Hm).
  - intros t Ht. apply Ha. apply in_flat_map. exists g. split; [exact (nth_error_In _ _ Ei)|exact Ht].
  - rewrite El, flat_map_app in Nd. cbn [flat_map] in Nd. apply NoDup_app_remove_l in Nd. apply NoDup_app_remove_r in Nd. exact Nd.
  - exact Ps.
Qed.
End Polygons.
