(** Operands in a general position.
    Proof support only, no part of /repo is modelled here. *)
From Coq Require Import Permutation Sorted.
From Verif Require Import QcTac Geom Spec SpecShape SpecSides SpecNest GeomFacts EvenOdd Flip SortFacts Toward Bounding BoundingThms Relation PairFacts SweepGeo SweepInv SweepSteps Sweep SweepCmp SweepLink Linear SweepRun SweepLoop SweepStart SweepEnd SelectThms LinearMeaning LinearThms LinearComplete Contour Labelled Filter Mixed Shaped Parity Counting ShrinkThms ConnectThms Tracing TraceThms RegionThms OrientThms PairThms Erase Beneath Flow Labels LabelEnd Outline Classify Telescope Polygons Sides EvenStraight MixedThms MixedComplete ShapedThms ShapedProps QueueThms Cycle.

(** ** Edges at a point *)
(** Edges meeting each other in endpoints only, no three of them in the same one. *)
Definition sparse (es : list segment) : Prop :=
  NoDup es
  /\ (forall a b q, In a es -> In b es -> a <> b -> on_segment q a -> on_segment q b -> endpoint q a /\ endpoint q b)
  /\ (forall a b c q, In a es -> In b es -> In c es -> endpoint q a -> endpoint q b -> endpoint q c -> a = b \/ a = c \/ b = c).
Lemma before_lt : forall n i, (i < n)%nat -> (before n i < n)%nat.
Proof. intros n i Hi. unfold before. destruct i; lia. Qed.
Lemma before_inj : forall n i j, (i < n)%nat -> (j < n)%nat -> before n i = before n j -> i = j.
Proof. intros n i j Hi Hj. unfold before. destruct i, j; lia. Qed.
Lemma vertex_inj : forall vs i j, NoDup vs -> (i < length vs)%nat -> (j < length vs)%nat -> vertex vs i = vertex vs j -> i = j.
Proof. intros vs i j N Hi Hj E. exact (proj1 (NoDup_nth vs _) N i j Hi Hj E). Qed.
Lemma simple_sparse : forall vs, simple_contour vs -> sparse (contour_edges vs).
Proof.
  intros vs (L & N & W).
  assert (At : forall a, In a (contour_edges vs) -> exists i, (i < length vs)%nat /\ nth_error (contour_edges vs) i = Some a /\ a = Seg (vertex vs (before (length vs) i)) (vertex vs i)).
  { intros a Ha. unfold contour_edges in Ha. apply in_map_iff in Ha. destruct Ha as (i & <- & Hi). apply in_seq in Hi. exists i. split; [lia|]. split; [|reflexivity].
    unfold contour_edges. rewrite nth_error_map. rewrite (nth_error_nth' _ O) by (rewrite seq_length; lia). rewrite seq_nth by lia. reflexivity. }
  split; [|split].
  - apply (NoDup_map_inv s_end). unfold contour_edges. rewrite map_map. cbn [s_end].
    assert (E : map (vertex vs) (seq 0 (length vs)) = vs) by (unfold vertex; apply map_nth_seq). unfold vertex in E |- *. rewrite E. exact N.
  - intros a b q Ha Hb Nab Oa Ob. destruct (At a Ha) as (i & Hi & Ei & _), (At b Hb) as (j & Hj & Ej & _).
    apply (W i j a b); [intros ->; congruence|exact Ei|exact Ej|exact Oa|exact Ob].
  - intros a b c q Ha Hb Hc. destruct (At a Ha) as (i & Hi & _ & ->), (At b Hb) as (j & Hj & _ & ->), (At c Hc) as (k & Hk & _ & ->).
    assert (E1 : forall x y, (x < length vs)%nat -> (y < length vs)%nat -> q = vertex vs x -> q = vertex vs y -> x = y) by (intros x y Hx Hy -> E; exact (vertex_inj vs x y N Hx Hy E)).
    assert (E2 : forall x y, (x < length vs)%nat -> (y < length vs)%nat -> q = vertex vs (before (length vs) x) -> q = vertex vs (before (length vs) y) -> x = y).
    { intros x y Hx Hy A B. apply (before_inj (length vs)); [exact Hx|exact Hy|]. apply E1; auto using before_lt. }
    intros [A|A] [B|B] [C|C]; cbn in A, B, C; (left; f_equal; solve [auto|f_equal; auto]) || (right; left; f_equal; solve [auto|f_equal; auto]) || (right; right; f_equal; solve [auto|f_equal; auto]).
Qed.
Lemma endpoint_reversed : forall q s, endpoint q (reversed s) <-> endpoint q s.
Proof. intros q (a, b). unfold endpoint, reversed. cbn. tauto. Qed.
Lemma reversed_twice : forall s, reversed (reversed s) = s.
Proof. intros (a, b). reflexivity. Qed.
Lemma sparse_incl : forall es fs, NoDup es -> incl es fs -> sparse fs -> sparse es.
Proof.
  intros es fs N I (_ & A & B). split; [exact N|]. split.
  - intros a b q Ha Hb. apply A; apply I; assumption.
  - intros a b c q Ha Hb Hc. apply B; apply I; assumption.
Qed.
Lemma sparse_reversed : forall es, sparse es -> sparse (map reversed es).
Proof.
  intros es (N & A & B). split; [|split].
  - clear A B. induction N as [|s es K N IH]; [constructor|]. cbn. constructor; [|exact IH]. intro J. apply in_map_iff in J. destruct J as (t & E & J). apply K.
    rewrite <- (reversed_twice s), <- E, reversed_twice. exact J.
  - intros a b q Ha Hb. apply in_map_iff in Ha, Hb. destruct Ha as (a' & <- & Ha), Hb as (b' & <- & Hb). intros Nab Oa Ob. rewrite !endpoint_reversed.
    apply A; [exact Ha|exact Hb|congruence|apply on_reversed; exact Oa|apply on_reversed; exact Ob].
  - intros a b c q Ha Hb Hc. apply in_map_iff in Ha, Hb, Hc. destruct Ha as (a' & <- & Ha), Hb as (b' & <- & Hb), Hc as (c' & <- & Hc). rewrite !endpoint_reversed. intros E1 E2 E3.
    destruct (B a' b' c' q Ha Hb Hc E1 E2 E3) as [E|[E|E]]; rewrite E; auto.
Qed.
Lemma oriented_sparse : forall vs cw, simple_contour vs -> sparse (contour_oriented_edges vs cw).
Proof.
  intros vs cw H. pose proof (simple_sparse vs H) as K. destruct (oriented_edges_cycle vs cw) as [->| ->]; [exact K|]. pose proof (sparse_reversed _ K) as J.
  apply (sparse_incl _ (map reversed (contour_edges vs))); [apply NoDup_rev; exact (proj1 J)| |exact J]. intros s Hs. apply in_rev. exact Hs.
Qed.
Lemma sparse_concat : forall ls, Forall sparse ls -> pairwise (fun a b => forall p, on_segments p a -> ~ on_segments p b) ls -> sparse (concat ls).
Proof.
  induction ls as [|es ls IH]; intros F W; [split; [constructor|split; intros; contradiction]|]. apply PairProofs.pairwise_cons in W. destruct W as (W & Ws).
  destruct (Forall_inv F) as (N & A & B). destruct (IH (Forall_inv_tail F) Ws) as (N' & A' & B'). cbn [concat].
  assert (Off : forall s t q, In s es -> In t (concat ls) -> on_segment q s -> ~ on_segment q t).
  { intros s t q Hs Ht Os Ot. apply in_concat in Ht. destruct Ht as (fs & Hf & Ht). apply (proj1 (W fs Hf) q); [exists s|exists t]; auto. }
  assert (En : forall q s, endpoint q s -> on_segment q s) by (intros q s [->| ->]; [apply on_segment_start|apply on_segment_end]).
  split; [|split].
  - clear - N N' Off. induction N as [|s es K N IH]; [exact N'|]. cbn. constructor.
    + intro J. apply in_app_or in J. destruct J as [J|J]; [exact (K J)|]. exact (Off s s (s_start s) (or_introl eq_refl) J (on_segment_start s) (on_segment_start s)).
    + apply IH. intros t u q Ht. apply Off. right. exact Ht.
  - intros a b q Ha Hb Nab Oa Ob. apply in_app_or in Ha, Hb. destruct Ha as [Ha|Ha], Hb as [Hb|Hb]; [exact (A a b q Ha Hb Nab Oa Ob)| | |exact (A' a b q Ha Hb Nab Oa Ob)].
    + destruct (Off a b q Ha Hb Oa Ob).
    + destruct (Off b a q Hb Ha Ob Oa).
  - intros a b c q Ha Hb Hc Ea Eb Ec. apply in_app_or in Ha, Hb, Hc.
    destruct Ha as [Ha|Ha], Hb as [Hb|Hb], Hc as [Hc|Hc]; try solve [exact (B a b c q Ha Hb Hc Ea Eb Ec)|exact (B' a b c q Ha Hb Hc Ea Eb Ec)];
      exfalso; match goal with J : In ?u es, K : In ?v (concat ls) |- _ => exact (Off u v q J K (En q u ltac:(assumption)) (En q v ltac:(assumption))) end.
Qed.
Definition directed (gs : list polygon) : list (contour * bool) := flat_map (fun g => (border g, false) :: map (fun h => (h, true)) (holes g)) gs.
Lemma directed_contours : forall gs, map fst (directed gs) = polygon_contours gs.
Proof.
  induction gs as [|g gs IH]; [reflexivity|]. unfold directed, polygon_contours in *. cbn [flat_map]. rewrite map_app, IH. f_equal. cbn [map fst]. rewrite map_map. cbn [fst]. rewrite map_id. reflexivity.
Qed.
Lemma directed_edges : forall gs, edges_of gs = concat (map (fun x => contour_oriented_edges (vertices (fst x)) (snd x)) (directed gs)).
Proof.
  unfold edges_of. induction gs as [|g gs IH]; [reflexivity|]. unfold directed in *. cbn [flat_map]. rewrite IH, map_app, concat_app. f_equal. unfold polygon_oriented_edges. cbn [map concat fst snd]. f_equal.
  rewrite map_map. cbn [fst snd]. rewrite flat_map_concat_map. reflexivity.
Qed.
Lemma polygons_sparse : forall gs, valid_polygons gs -> separate_contours (polygon_contours gs) -> sparse (edges_of gs).
Proof.
  intros gs V S. rewrite directed_edges. rewrite <- directed_contours in S.
  assert (Hs : forall x, In x (directed gs) -> simple_contour (vertices (fst x))).
  { intros x Hx. apply in_flat_map in Hx. destruct Hx as (g & Hg & Hx). pose proof (proj1 (Forall_forall _ _) (proj1 V) g Hg) as Vg.
    destruct Hx as [<-|Hx]; [exact (proj1 Vg)|]. apply in_map_iff in Hx. destruct Hx as (h & <- & Hh). exact (proj1 (Forall_forall _ _) (proj1 (proj2 Vg)) h Hh). }
  apply sparse_concat.
  - apply Forall_forall. intros es He. apply in_map_iff in He. destruct He as (x & <- & Hx). apply oriented_sparse. exact (Hs x Hx).
  - intros i j a b N Ea Eb p. rewrite nth_error_map in Ea, Eb. destruct (nth_error (directed gs) i) as [x|] eqn:Ex; [|discriminate Ea]. destruct (nth_error (directed gs) j) as [y|] eqn:Ey; [|discriminate Eb].
    injection Ea as <-. injection Eb as <-. rewrite !(turned_on _ _ p (turned_oriented _ _)). apply (S i j (fst x) (fst y) N); rewrite nth_error_map; [rewrite Ex|rewrite Ey]; reflexivity.
Qed.
Lemma directed_vertex : forall gs a q, In a (edges_of gs) -> endpoint q a -> exists c, In c (polygon_contours gs) /\ In q (vertices c).
Proof.
  intros gs a q Ha Eq. rewrite directed_edges in Ha. apply in_concat in Ha. destruct Ha as (es & He & Ha). apply in_map_iff in He. destruct He as (x & <- & Hx).
  exists (fst x). split; [rewrite <- directed_contours; apply in_map; exact Hx|].
  assert (K : exists b, In b (contour_edges (vertices (fst x))) /\ endpoint q b).
  { destruct (oriented_edges_cycle (vertices (fst x)) (snd x)) as [E|E]; rewrite E in Ha; [exists a; auto|]. apply in_rev, in_map_iff in Ha. destruct Ha as (b & <- & Hb). exists b. split; [exact Hb|]. apply endpoint_reversed. exact Eq. }
  destruct K as (b & Hb & Eb). unfold contour_edges in Hb. apply in_map_iff in Hb. destruct Hb as (i & <- & Hi). apply in_seq in Hi. cbn in Hi.
  destruct Eb as [->| ->]; cbn; apply nth_In; [apply before_lt|]; lia.
Qed.
(** Edges of different operands do not go through endpoints of each other. *)
Definition strangers (es fs : list segment) : Prop := forall a b q, In a es -> In b fs -> on_segment q a -> on_segment q b -> ~ endpoint q a /\ ~ endpoint q b.
Lemma strangers_sym : forall es fs, strangers es fs -> strangers fs es.
Proof. intros es fs H a b q Ha Hb Oa Ob. destruct (H b a q Hb Ha Ob Oa). auto. Qed.
Lemma polygons_strangers : forall first second, general_position first second -> strangers (edges_of first) (edges_of second).
Proof.
  intros first second (_ & _ & A & B) a b q Ha Hb Oa Ob. split; intro E.
  - destruct (directed_vertex first a q Ha E) as (c & Hc & Hq). apply (A c q Hc Hq). apply (turned_on _ _ q (turned_polygons second)). exists b. auto.
  - destruct (directed_vertex second b q Hb E) as (c & Hc & Hq). apply (B c q Hc Hq). apply (turned_on _ _ q (turned_polygons first)). exists a. auto.
Qed.

(** ** Operands in a mild position *)
Lemma seg_lo_begins : forall s, proper s -> begins (seg_lo s) s.
Proof.
  intros s P. pose proof (seg_lo_lt_hi s P) as L. destruct (seg_lo_hi s) as [(E & E' & _)|(E & E' & _)]; rewrite E, E' in *; (split; [unfold endpoint; tauto|]); intros q [->| ->] N; congruence || exact L.
Qed.
Lemma finishes_seg_hi : forall p s, proper s -> finishes p s -> seg_hi s = p.
Proof.
  intros p s P (E & H). pose proof (seg_lo_lt_hi s P) as L. destruct (pt_eq_dec (seg_hi s) p) as [K|K]; [exact K|exfalso].
  assert (Eh : endpoint (seg_hi s) s) by (destruct (seg_lo_hi s) as [(_ & -> & _)|(_ & -> & _)]; [right|left]; reflexivity).
  assert (El : seg_lo s = p) by (destruct (seg_lo_hi s) as [(E1 & E2 & _)|(E1 & E2 & _)]; rewrite E1, E2 in *; destruct E; congruence).
  pose proof (H _ Eh K) as J. rewrite El in L. exact (plt_irrefl _ (plt_trans _ _ _ L J)).
Qed.
Lemma canon_lo_hi : forall s t, canon s = canon t -> seg_lo s = seg_lo t /\ seg_hi s = seg_hi t.
Proof. intros s t E. unfold canon in E. injection E as E1 E2. auto. Qed.
Lemma canon_on : forall s t p, canon s = canon t -> on_segment p s -> on_segment p t.
Proof. intros s t p E O. apply on_segment_norm in O. apply on_segment_norm. unfold canon in E. rewrite <- E. exact O. Qed.
Lemma turned_in : forall es fs a, turned es fs -> In a es -> exists b, In b fs /\ canon a = canon b.
Proof.
  intros es fs a T Ha. apply (in_map canon), (Permutation_in _ T), in_map_iff in Ha. destruct Ha as (b & E & Hb). exists b. auto.
Qed.
Lemma proper_canon : forall s t, canon s = canon t -> proper s -> proper t.
Proof.
  intros s t E P. destruct (canon_lo_hi s t E) as (E1 & E2). pose proof (seg_lo_lt_hi s P) as L. rewrite E1, E2 in L. intro K.
  destruct (seg_lo_hi t) as [(F1 & F2 & _)|(F1 & F2 & _)]; rewrite F1, F2, K in L; exact (plt_irrefl _ L).
Qed.
Lemma canon_endpoint : forall s t q, canon s = canon t -> endpoint q s -> endpoint q t.
Proof.
  intros s t q E K. destruct (canon_lo_hi s t E) as (E1 & E2).
  destruct (seg_lo_hi s) as [(F1 & F2 & _)|(F1 & F2 & _)], (seg_lo_hi t) as [(G1 & G2 & _)|(G1 & G2 & _)], K as [->| ->]; unfold endpoint; rewrite F1, F2, G1, G2 in *; auto.
Qed.
Lemma edges_turned : forall gs a, In a (edges_of gs) -> exists g b, In g gs /\ In b (polygon_edges g) /\ canon a = canon b.
Proof.
  intros gs a Ha. unfold edges_of in Ha. apply in_flat_map in Ha. destruct Ha as (g & Hg & Ha). destruct (turned_in _ _ a (turned_polygon g) Ha) as (b & Hb & E). exists g, b. auto.
Qed.
Lemma turned_edges : forall gs g b, In g gs -> In b (polygon_edges g) -> exists a, In a (edges_of gs) /\ canon b = canon a.
Proof.
  intros gs g b Hg Hb. destruct (turned_in _ _ b (Permutation_sym (turned_polygon g)) Hb) as (a & Ha & E). exists a. split; [|exact E]. apply in_flat_map. exists g. auto.
Qed.
Lemma edges_of_app : forall a b, edges_of (a ++ b) = edges_of a ++ edges_of b.
Proof. intros a b. apply flat_map_app. Qed.
Lemma begins_seg_lo : forall p s, proper s -> begins p s -> p = seg_lo s.
Proof.
  intros p s P (E & H). destruct (seg_ends s P) as (L & _ & _ & Es). apply Es in E. destruct E as [E|E]; [exact E|exfalso].
  assert (K : endpoint (seg_lo s) s) by (apply Es; left; reflexivity). subst p. specialize (H _ K (plt_neq _ _ L)). exact (plt_irrefl _ (plt_trans _ _ _ L H)).
Qed.
Lemma seg_hi_finishes : forall s, proper s -> finishes (seg_hi s) s.
Proof.
  intros s P. destruct (seg_ends s P) as (L & _ & _ & Es). split; [apply Es; right; reflexivity|]. intros q E N. apply Es in E. destruct E as [->|E]; [exact L|contradiction].
Qed.
Lemma mild_begins : forall first second, Forall proper (edges_of first ++ edges_of second) -> mild_position first second ->
  forall a b, In a (edges_of first ++ edges_of second) -> In b (edges_of first ++ edges_of second) -> inside_segment (seg_lo a) b ->
  exists c, In c (edges_of first ++ edges_of second) /\ (seg_hi c = seg_lo a \/ (seg_lo c = seg_lo a /\ cross (seg_lo a) (seg_hi b) (seg_hi c) <= 0)).
Proof.
  intros first second P M a b Ha Hb (O & S1 & S2). pose proof (proj1 (Forall_forall _ _) P a Ha) as Pa. pose proof (proj1 (Forall_forall _ _) P b Hb) as Pb. rewrite <- edges_of_app in *.
  destruct (edges_turned _ _ Ha) as (g & a' & Hg & Ha' & Ea), (edges_turned _ _ Hb) as (k & b' & Hk & Hb' & Eb).
  destruct (M g k a' b' (seg_lo a) Hg Hk Ha' Hb') as (c' & Hc' & F).
  - rewrite (proj1 (canon_lo_hi _ _ Ea)). apply seg_lo_begins. exact (proper_canon _ _ Ea Pa).
  - split; [exact (canon_on _ _ _ Eb O)|]. assert (Ne : ~ endpoint (seg_lo a) b') by (intro K; apply (canon_endpoint _ _ _ (eq_sym Eb)) in K; destruct K; contradiction).
    split; intro K; apply Ne; [left|right]; exact K.
  - assert (C : exists c, In c (edges_of (first ++ second)) /\ canon c' = canon c) by (destruct Hc' as [Hc'|Hc']; [exact (turned_edges _ g c' Hg Hc')|exact (turned_edges _ k c' Hk Hc')]).
    destruct C as (c & Hc & Ec). exists c. split; [exact Hc|]. rewrite <- (proj1 (canon_lo_hi _ _ Ec)), <- (proj2 (canon_lo_hi _ _ Ec)).
    assert (Pc : proper c') by (apply (proper_canon c c' (eq_sym Ec)); exact (proj1 (Forall_forall _ _) P c Hc)).
    destruct F as [F|(F & Nb)]; [left; exact (finishes_seg_hi _ _ Pc F)|right]. split; [symmetry; exact (begins_seg_lo _ _ Pc F)|].
    apply Nb; [exact (proj1 (seg_hi_finishes c' Pc))|]. rewrite (proj2 (canon_lo_hi _ _ Eb)). apply seg_hi_finishes. exact (proper_canon _ _ Eb Pb).
Qed.
Lemma mild_incl : forall first second first' second', incl first' first -> incl second' second -> mild_position first second -> mild_position first' second'.
Proof.
  intros first second first' second' I1 I2 M g h a b p Hg Hh. pose proof (incl_app_app I1 I2) as I. exact (M g h a b p (I g Hg) (I h Hh)).
Qed.

(** An endpoint of one of overlapping segments is on another one. *)
Lemma overlap_endpoint : forall s t, proper s -> proper t -> overlap s t -> exists q, on_segment q s /\ on_segment q t /\ (endpoint q s \/ endpoint q t).
Proof.
  intros s t Ps Pt (p & q & N & A & B & C & D). destruct (seg_ends s Ps) as (Ls & As & Bs & Es), (seg_ends t Pt) as (Lt & At & Bt & Et).
  assert (O : overlap (Seg (seg_lo s) (seg_hi s)) (Seg (seg_lo t) (seg_hi t))) by (exists p, q; rewrite <- !on_segment_norm; auto).
  destruct (overlap_line _ _ _ _ Ls Lt O) as (Hc & L1 & L2). destruct (pt_ltb_spec (seg_lo s) (seg_lo t)) as [K|K].
  - exists (seg_lo t). split; [|split; [exact At|right; apply Et; left; reflexivity]]. apply on_segment_norm. apply (on_segment_lex _ _ _ Ls). split; [apply Hc; cbn; tauto|]. split; apply ple_lt_eq; left; assumption.
  - exists (seg_lo s). split; [exact As|]. split; [|left; apply Es; left; reflexivity]. apply on_segment_norm. apply (on_segment_lex _ _ _ Lt). split; [apply Hc; cbn; tauto|]. split; [exact K|apply ple_lt_eq; left; assumption].
Qed.
Lemma general_mild : forall first second, valid_polygons first -> valid_polygons second -> general_position first second -> mild_position first second.
Proof.
  intros first second V1 V2 G. pose proof (polygons_strangers first second G) as S12. pose proof (polygons_sparse first V1 (proj1 G)) as S1. pose proof (polygons_sparse second V2 (proj1 (proj2 G))) as S2.
  assert (P : forall gs a, valid_polygons gs -> In a (edges_of gs) -> proper a) by (intros gs a V Ha; exact (proj1 (Forall_forall _ _) (proj1 (proj1 (oriented_boundary gs V))) a Ha)).
  intros g k a b p Hg Hk Ha Hb (Ep & _) (O & N1 & N2). exfalso.
    assert (Oa : on_segment p a) by (destruct Ep as [->| ->]; [apply on_segment_start|apply on_segment_end]).
    assert (Ne : ~ endpoint p b) by (intros [K|K]; contradiction).
    assert (Same : forall gs, valid_polygons gs -> sparse (edges_of gs) -> In g gs -> In k gs -> False).
    { intros gs V (_ & S & _) Hg' Hk'. destruct (turned_edges gs g a Hg' Ha) as (a' & Ha' & Ea), (turned_edges gs k b Hk' Hb) as (b' & Hb' & Eb).
      apply Ne, (canon_endpoint _ _ _ (eq_sym Eb)). apply (S a' b' p Ha' Hb'); [intros ->|exact (canon_on _ _ _ Ea Oa)|exact (canon_on _ _ _ Eb O)].
      apply Ne, (canon_endpoint a b); [congruence|exact Ep]. }
    assert (Other : forall gs hs, strangers (edges_of gs) (edges_of hs) -> In g gs -> In k hs -> False).
    { intros gs hs S Hg' Hk'. destruct (turned_edges gs g a Hg' Ha) as (a' & Ha' & Ea), (turned_edges hs k b Hk' Hb) as (b' & Hb' & Eb).
      destruct (S a' b' p Ha' Hb' (canon_on _ _ _ Ea Oa) (canon_on _ _ _ Eb O)) as (K & _). exact (K (canon_endpoint _ _ _ Ea Ep)). }
    apply in_app_or in Hg, Hk. destruct Hg as [Hg|Hg], Hk as [Hk|Hk].
    + exact (Same first V1 S1 Hg Hk).
    + exact (Other first second S12 Hg Hk).
    + exact (Other second first (strangers_sym _ _ S12) Hg Hk).
    + exact (Same second V2 S2 Hg Hk).
Qed.

(** ** Starts of a sweep *)
Section Start.
Variables (E1 E2 : list segment) (s0 : state).
Hypothesis Hf : filled (tag E1 E2) s0.
Hypothesis Hl : lawful (tag E1 E2).
Hypothesis Hb : forall a b, In a (E1 ++ E2) -> In b (E1 ++ E2) -> inside_segment (seg_lo a) b ->
  exists c, In c (E1 ++ E2) /\ (seg_hi c = seg_lo a \/ (seg_lo c = seg_lo a /\ cross (seg_lo a) (seg_hi b) (seg_hi c) <= 0)).
Notation R := (relevant_points s0).
Notation n := (length (lefts s0)).
Lemma tag_in : forall k b sg, nth_error (tag E1 E2) k = Some (b, sg) -> In sg (E1 ++ E2).
Proof.
  intros k b sg E. apply nth_error_In, in_operand in E. rewrite operand_tag in E. apply in_or_app. destruct b; auto.
Qed.
(** A piece beginning in a point of another one without going above is not steeper. *)
Lemma cross_slopes : forall e a b p u, on_segment p (Seg a b) -> pos e a < pos e b -> pos e p < pos e b -> pos e p < pos e u -> cross p b u <= 0 -> slope e p u <= slope e a b.
Proof.
  intros e a b p u O Lab Lpb Lpu C.
  pose proof (slope_eq e a b ltac:(intro K; clear - K Lab; qlra)) as Sb. pose proof (slope_eq e p u ltac:(intro K; clear - K Lpu; qlra)) as Su.
  set (m := slope e a b) in *. set (m' := slope e p u) in *.
  assert (Sp : m * (pos e b - pos e p) = py b - py p).
  { destruct O as (t & _ & _ & X & Y). cbn [s_start s_end] in X, Y. unfold pos in *. rewrite X, Y.
    transitivity ((1 - t) * (m * (px b + e * py b - (px a + e * py a)))); [ring|rewrite Sb; ring]. }
  destruct (Qclt_le_dec m m') as [K|K]; [exfalso|exact K].
  assert (D : cross p b u = (m' - m) * ((pos e u - pos e p) * (pos e b - pos e p))).
  { transitivity ((pos e b - pos e p) * (py u - py p) - (py b - py p) * (pos e u - pos e p)); [unfold cross, pos; ring|]. rewrite <- Su, <- Sp. ring. }
  assert (Z : 0 < (pos e u - pos e p) * (pos e b - pos e p)) by (assert (A : 0 < pos e u - pos e p) by (clear - Lpu; qlra); assert (B : 0 < pos e b - pos e p) by (clear - Lpb; qlra); clear - A B; qnra).
  assert (W : 0 < (m' - m) * ((pos e u - pos e p) * (pos e b - pos e p))) by (assert (A : 0 < m' - m) by (clear - K; qlra); clear - A Z; qnra).
  rewrite D in C. clear - C W. qlra.
Qed.
Theorem start_cleared : forall e, Sheared e R -> cleared (V e R) (abs e s0 []).
Proof.
  intros e Hsh. pose proof (init_geo _ s0 Hf Hl e Hsh) as G. pose proof (init_len _ s0 Hf Hl e Hsh) as Ln.
  intros i j Hi Hj (In1 & In2) E. cbn [abs vn vp] in *.
    destruct (in_tag _ s0 Hf i Hi) as (b & sg & Ei). destruct (in_tag _ s0 Hf j Hj) as (b' & sg' & Ej). pose proof (Ln j Hj) as Lj.
    assert (O : on_segment (l_start (lft s0 i)) sg').
    { apply (init_on _ s0 Hf j b' sg' _ Ej). apply (pc_on e s0 j _ Lj). change (pos e (l_start (lft s0 i))) with (lo (pc e s0 i)). split; [split; apply Qclt_le_weak; assumption|].
      rewrite E. rewrite <- (V_pos e R Hsh _ (relevant_start s0 i Hi)). reflexivity. }
    assert (Ne : ~ endpoint (l_start (lft s0 i)) sg').
    { intro K. assert (K' : pos e (l_start (lft s0 i)) = lo (pc e s0 j) \/ pos e (l_start (lft s0 i)) = hi (pc e s0 j)).
      { pose proof (proj1 (init_seg _ s0 Hf j b' sg' Ej)) as Sj. unfold seg_of in Sj. injection Sj as Sj1 Sj2. unfold pc. cbn [lo hi]. rewrite Sj1, Sj2.
        destruct (seg_lo_hi sg') as [(-> & -> & _)|(-> & -> & _)], K as [->| ->]; tauto. }
      change (pos e (l_start (lft s0 i))) with (lo (pc e s0 i)) in K'. destruct K' as [K'|K']; rewrite K' in *; qlra. }
    pose proof (proj1 (init_seg _ s0 Hf i b sg Ei)) as Si. unfold seg_of in Si. injection Si as Si1 _. rewrite Si1 in O, Ne.
    destruct (Hb sg sg' (tag_in i b sg Ei) (tag_in j b' sg' Ej)) as (c & Hc & Ec).
    { split; [exact O|]. split; intro K; apply Ne; [left|right]; exact K. }
    assert (Ht : exists k b'', nth_error (tag E1 E2) k = Some (b'', c)).
    { apply in_app_or in Hc. destruct Hc as [Hc|Hc]; [destruct (In_nth_error (tag E1 E2) (true, c)) as (k & Ek)|destruct (In_nth_error (tag E1 E2) (false, c)) as (k & Ek)];
        try (exists k; eexists; exact Ek); apply in_operand; rewrite operand_tag; exact Hc. }
    destruct Ht as (k & b'' & Ek).
    assert (Hk : (k < n)%nat) by (rewrite (f_lefts _ _ Hf); apply nth_error_Some; congruence).
    exists k. split; [exact Hk|]. pose proof (Ln k Hk) as Lk. pose proof (proj1 (init_seg _ s0 Hf k b'' c Ek)) as Sk. unfold seg_of in Sk. injection Sk as Sk1 Sk2.
    pose proof (proj1 (init_seg _ s0 Hf j b' sg' Ej)) as Sj. unfold seg_of in Sj. injection Sj as Sj1 Sj2.
    unfold pc in *. cbn [lo hi sl] in *. rewrite Si1, ?Sk1, ?Sk2, ?Sj1, ?Sj2 in *.
    destruct Ec as [Ec|(Ec & Cr)]; [left; rewrite Ec; reflexivity|right]. rewrite Ec in *. split; [reflexivity|].
    apply cross_slopes; [exact (proj1 (on_segment_norm _ _) O)|exact Lj|exact In2|exact Lk|exact Cr].
Qed.
End Start.
