(** Segments returned by operations of linear.py are the fragments of their
    operands.  Proof support only, no part of /repo is modelled here. *)
From Coq Require Import Permutation Sorted.
From Verif Require Import QcTac Geom Spec SpecNode GeomFacts SortFacts Relation Pair Bounding Toward BoundingThms UnpackThms SweepInv SweepSteps Sweep SweepCmp Linear SweepLoop SweepStart SweepEnd SelectThms LinearMeaning LinearThms LinearComplete LinearProps Nodes Cycle LoopThms PairFacts Fragments.

Lemma no_stop_beyond : forall o first second, sweep_lefts o no_stop first second = sweep_lefts o (beyond None) first second.
Proof. reflexivity. Qed.

(** ** Forms of results *)
Definition fits (first second : list segment) (ps : list point) (ts : list segment) : Prop :=
  arranged ts /\ (forall t, In t ts <-> fragment (first ++ second) first t /\ fragment (first ++ second) second t)
  /\ StronglySorted plt ps /\ forall p, In p ps <-> on_segments p first /\ on_segments p second /\ ~ on_common_segment p first second.
Lemma nodes_of : forall first second x_max s out, lawful (tag first second) -> (forall o, sweep_lefts o (beyond x_max) first second = Ok (s, map EL out)) ->
  forall i, (i < length (lefts s))%nat -> node (first ++ second) (l_start (lft s i)) /\ node (first ++ second) (end_of s i).
Proof. intros first second x_max s out Hl R. exact (linear_nodes first second x_max Hl (Oracle (fun _ _ => 0%nat) (fun _ _ => 0%nat)) s _ (R _)). Qed.

Lemma union_form : forall first second a b, non_overlapping first -> non_overlapping second -> segments_box first = Some a -> segments_box second = Some b ->
  disjoint_with a b = false -> exists ts, (forall o, unite_multisegments o first second = Ok (GMultisegment ts)) /\ arranged ts
  /\ forall t, In t ts <-> fragment (first ++ second) (first ++ second) t.
Proof.
  intros first second a b N1 N2 Ea Eb D. pose proof (lawful_operands _ _ N1 N2) as Hl. destruct (linear_sweep first second None Hl) as (s & out & pl & H & _ & R & _).
  exists (select (fun _ => true) (s, map EL out)). split; [intro o; unfold unite_multisegments, linear_union, with_boxes; rewrite Ea, Eb, D, no_stop_beyond, R; reflexivity|].
  split; [exact (result_arranged _ _ _ _ _ H (fun _ => true) eq_refl)|].
  exact (union_fragments first second None s out (proj1 N1) (proj1 N2) H (nodes_of _ _ _ _ _ Hl R) eq_refl).
Qed.
Lemma symmetric_form : forall first second a b, non_overlapping first -> non_overlapping second -> segments_box first = Some a -> segments_box second = Some b ->
  disjoint_with a b = false -> exists ts, (forall o, linear_symmetric_difference o first second = Ok (unpack_segments ts)) /\ arranged ts
  /\ forall t, In t ts <-> fragment (first ++ second) first t /\ ~ fragment (first ++ second) second t \/ fragment (first ++ second) second t /\ ~ fragment (first ++ second) first t.
Proof.
  intros first second a b N1 N2 Ea Eb D. pose proof (lawful_operands _ _ N1 N2) as Hl. destruct (linear_sweep first second None Hl) as (s & out & pl & H & _ & R & _).
  exists (select all_equal (s, map EL out)). split; [intro o; unfold linear_symmetric_difference, with_boxes; rewrite Ea, Eb, D, no_stop_beyond, R; reflexivity|].
  split; [exact (result_arranged _ _ _ _ _ H all_equal eq_refl)|].
  exact (symmetric_fragments first second None s out (proj1 N1) (proj1 N2) H (nodes_of _ _ _ _ _ Hl R) eq_refl).
Qed.
Lemma no_common_fragment : forall ss first second t, (forall p, ~ (on_segments p first /\ on_segments p second)) ->
  ~ (fragment ss first t /\ fragment ss second t).
Proof.
  intros ss first second t N (((s1 & H1 & W1) & _) & ((s2 & H2 & W2) & _)). apply (N (s_start t)).
  split; [exists s1|exists s2]; (split; [assumption|]); [apply W1|apply W2]; apply on_segment_start.
Qed.
Lemma intersection_form : forall first second a b, non_overlapping first -> non_overlapping second -> segments_box first = Some a -> segments_box second = Some b ->
  let f := to_coupled_segments b first in let g := to_coupled_segments a second in
  exists ts, (forall o, intersect_multisegments o first second = Ok (unpack_segments ts)) /\ arranged ts
  /\ forall t, In t ts <-> fragment (f ++ g) f t /\ fragment (f ++ g) g t.
Proof.
  intros first second a b N1 N2 Ea Eb f g. unfold intersect_multisegments, linear_intersection, with_boxes. rewrite Ea, Eb.
  assert (Emp : (forall p, ~ (on_segments p f /\ on_segments p g)) -> arranged [] /\ forall t, In t [] <-> fragment (f ++ g) f t /\ fragment (f ++ g) g t).
  { intro N. split; [exact empty_arranged|]. intro t. split; [intros []|]. intro K. exfalso. exact (no_common_fragment _ _ _ t N K). }
  destruct (disjoint_with a b) eqn:D.
  { exists []. split; [reflexivity|]. apply Emp. intros p ((s & Hs & Ps) & (t & Ht & Pt)). apply filter_In in Hs. apply filter_In in Ht.
    apply (disjoint_boxes first second a b p Ea Eb D); [exists s|exists t]; split; tauto. }
  change (to_coupled_segments b first) with f. change (to_coupled_segments a second) with g.
  assert (M1 : non_overlapping f) by (apply non_overlapping_filter; exact N1). assert (M2 : non_overlapping g) by (apply non_overlapping_filter; exact N2).
  destruct f as [|f0 fs] eqn:Ef; [exists []; split; [reflexivity|]; apply Emp; intros p ((s & [] & _) & _)|].
  destruct g as [|g0 gs] eqn:Eg; [exists []; split; [reflexivity|]; apply Emp; intros p (_ & (s & [] & _))|]. rewrite <- Ef, <- Eg in *. clear Emp.
  pose proof (lawful_operands _ _ M1 M2) as Hl. destruct (linear_sweep f g (x_max_min (segments_x_max f) (segments_x_max g)) Hl) as (s & out & pl & H & _ & R & _).
  destruct (min_covers f g) as (c & Cv). exists (select (fun l => negb (all_equal l)) (s, map EL out)). split; [intro o; rewrite R; reflexivity|].
  split; [exact (result_arranged _ _ _ _ _ H (fun l => negb (all_equal l)) eq_refl)|].
  apply (intersection_fragments f g _ s out (proj1 M1) (proj1 M2) H (nodes_of _ _ _ _ _ Hl R)). destruct c; [left|right]; exact Cv.
Qed.
(** Segments of operands without common points with the other operand add no nodes on common segments. *)
Lemma node_kept : forall first second f g p, (forall s, In s f -> In s first) -> (forall s, In s g -> In s second) ->
  (forall s t p, In s first -> In t second -> on_segment p s -> on_segment p t -> In s f) -> (forall s t p, In s first -> In t second -> on_segment p s -> on_segment p t -> In t g) ->
  on_segments p first -> on_segments p second -> (node (f ++ g) p <-> node (first ++ second) p).
Proof.
  intros first second f g p I1 I2 F1 F2 (s1 & H1 & O1) (s2 & H2 & O2).
  assert (Up : forall s, In s (f ++ g) -> In s (first ++ second)) by (intros s K; apply in_app_or in K; apply in_or_app; destruct K; auto).
  assert (Dn : forall s, In s (first ++ second) -> on_segment p s -> In s (f ++ g)).
  { intros s K O. apply in_app_or in K. apply in_or_app. destruct K as [K|K]; [left; exact (F1 s s2 p K H2 O O2)|right; exact (F2 s1 s p H1 K O1 O)]. }
  split; (intros [(s & Hs & E)|(s & t & Hs & Ht & Os & Ot & N)]; [left; exists s|right; exists s, t]).
  - split; [exact (Up s Hs)|exact E].
  - split; [exact (Up s Hs)|]. split; [exact (Up t Ht)|]. repeat split; assumption.
  - split; [|exact E]. apply Dn; [exact Hs|]. destruct E as [-> | ->]; [apply on_segment_start|apply on_segment_end].
  - split; [exact (Dn s Hs Os)|]. split; [exact (Dn t Ht Ot)|]. repeat split; assumption.
Qed.
Lemma complete_form : forall first second, non_overlapping first -> non_overlapping second -> first <> [] -> second <> [] ->
  exists ps ts, (forall o, linear_complete_intersection o first second = Ok (unpack_linear_mix (unpack_points ps) (unpack_segments ts))) /\ fits first second ps ts.
Proof.
  intros first second N1 N2 E1 E2. destruct (segments_box_some first E1) as (a & Ea). destruct (segments_box_some second E2) as (b & Eb).
  unfold linear_complete_intersection, with_boxes. rewrite Ea, Eb.
  assert (Emp : (forall p, ~ (on_segments p first /\ on_segments p second)) -> fits first second [] []).
  { intro N. split; [exact empty_arranged|]. split; [|split; [constructor|]].
    - intro t. split; [intros []|]. intro K. exfalso. exact (no_common_fragment _ _ _ t N K).
    - intro p. split; [intros []|]. intros (K & J & _). exact (N p (conj K J)). }
  destruct (disjoint_with a b) eqn:D.
  { exists [], []. split; [reflexivity|]. apply Emp. intros p (K1 & K2). exact (disjoint_boxes first second a b p Ea Eb D K1 K2). }
  set (f := to_intersecting_segments b first) in *. set (g := to_intersecting_segments a second) in *.
  assert (F1 : forall s t p, In s first -> In t second -> on_segment p s -> on_segment p t -> In s f).
  { intros s t p Hs Ht Ps Pt. exact (intersecting_kept second b first s t p Eb N1 Hs Ht Ps Pt). }
  assert (F2 : forall s t p, In s first -> In t second -> on_segment p s -> on_segment p t -> In t g).
  { intros s t p Hs Ht Ps Pt. exact (intersecting_kept first a second t s p Ea N2 Ht Hs Pt Ps). }
  assert (I1 : forall s, In s f -> In s first) by (intros s K; apply filter_In in K; exact (proj1 K)).
  assert (I2 : forall s, In s g -> In s second) by (intros s K; apply filter_In in K; exact (proj1 K)).
  assert (M1 : non_overlapping f) by (apply non_overlapping_filter; exact N1). assert (M2 : non_overlapping g) by (apply non_overlapping_filter; exact N2).
  destruct f as [|f0 fs] eqn:Ef; [exists [], []; split; [reflexivity|]; apply Emp; intros p ((s & Hs & Ps) & (t & Ht & Pt)); exact (F1 s t p Hs Ht Ps Pt)|].
  destruct g as [|g0 gs] eqn:Eg; [exists [], []; split; [reflexivity|]; apply Emp; intros p ((s & Hs & Ps) & (t & Ht & Pt)); exact (F2 s t p Hs Ht Ps Pt)|]. rewrite <- Ef, <- Eg in *. clear Emp.
  pose proof (lawful_operands _ _ M1 M2) as Hl. destruct (linear_sweep f g (x_max_min (segments_x_max f) (segments_x_max g)) Hl) as (s & out & pl & H & Hp & R & R').
  destruct (min_covers f g) as (c & Cv). exists (fst (complete_parts (s, pl))), (snd (complete_parts (s, pl))).
  split; [intro o; rewrite R'; cbn [bind_res]; destruct (complete_parts (s, pl)); reflexivity|].
  split; [exact (segments_arranged _ _ _ _ _ _ H Hp c Cv)|]. split; [|split; [exact (points_sorted s pl)|]].
  - intro t. rewrite (complete_fragments f g _ s out (proj1 M1) (proj1 M2) H (nodes_of _ _ _ _ _ Hl R) pl c Hp Cv t).
    assert (Tr : forall f' g' first' second' : list segment, (forall p, on_segments p first -> on_segments p second -> (node (f' ++ g') p <-> node (first' ++ second') p)) ->
      (exists s, In s first /\ forall p, on_segment p t -> on_segment p s) -> (exists s, In s second /\ forall p, on_segment p t -> on_segment p s) ->
      plt (s_start t) (s_end t) /\ node (f' ++ g') (s_start t) /\ node (f' ++ g') (s_end t) /\ (forall p, inside_segment p t -> ~ node (f' ++ g') p) ->
      plt (s_start t) (s_end t) /\ node (first' ++ second') (s_start t) /\ node (first' ++ second') (s_end t) /\ (forall p, inside_segment p t -> ~ node (first' ++ second') p)).
    { intros f' g' first' second' E (s1 & H1 & W1) (s2 & H2 & W2) (A & B & C & K).
      assert (T : forall p, on_segment p t -> (node (f' ++ g') p <-> node (first' ++ second') p)) by (intros p J; apply E; [exists s1; auto|exists s2; auto]).
      split; [exact A|]. split; [apply (T _ (on_segment_start t)); exact B|]. split; [apply (T _ (on_segment_end t)); exact C|].
      intros p J Q. apply (K p J). apply (T p (proj1 J)). exact Q. }
    assert (NK : forall p, on_segments p first -> on_segments p second -> (node (f ++ g) p <-> node (first ++ second) p)) by (intro p; exact (node_kept first second f g p I1 I2 F1 F2)).
    unfold fragment. split.
    + intros (((s1 & H1 & W1) & A) & ((s2 & H2 & W2) & _)).
      assert (X1 : exists s, In s first /\ forall p, on_segment p t -> on_segment p s) by (exists s1; auto). assert (X2 : exists s, In s second /\ forall p, on_segment p t -> on_segment p s) by (exists s2; auto).
      pose proof (Tr f g first second NK X1 X2 A) as B. split; split; assumption.
    + intros (((s1 & H1 & W1) & A) & ((s2 & H2 & W2) & _)).
      assert (X1 : exists s, In s first /\ forall p, on_segment p t -> on_segment p s) by (exists s1; auto). assert (X2 : exists s, In s second /\ forall p, on_segment p t -> on_segment p s) by (exists s2; auto).
      pose proof (Tr first second f g (fun p K J => iff_sym (NK p K J)) X1 X2 A) as B. pose proof (W1 _ (on_segment_start t)) as O1. pose proof (W2 _ (on_segment_start t)) as O2.
      split; (split; [|exact B]); [exists s1; split; [exact (F1 s1 s2 _ H1 H2 O1 O2)|exact W1]|exists s2; split; [exact (F2 s1 s2 _ H1 H2 O1 O2)|exact W2]].
  - intro p. rewrite (points_in _ _ _ _ _ _ H Hp c Cv p).
    assert (Common : on_common_segment p f g <-> on_common_segment p first second).
    { split; intros (s1 & s2 & H1 & H2 & O & Q1 & Q2); exists s1, s2; repeat split; try assumption; [exact (I1 _ H1)|exact (I2 _ H2)|exact (F1 s1 s2 p H1 H2 Q1 Q2)|exact (F2 s1 s2 p H1 H2 Q1 Q2)]. }
    rewrite Common. split; intros ((s1 & H1 & Q1) & (s2 & H2 & Q2) & N).
    + split; [exists s1; auto|]. split; [exists s2; auto|exact N].
    + split; [exists s1; split; [exact (F1 s1 s2 p H1 H2 Q1 Q2)|exact Q1]|]. split; [exists s2; split; [exact (F2 s1 s2 p H1 H2 Q1 Q2)|exact Q2]|exact N].
Qed.

(** ** Cuts *)
Lemma boxes_touch : forall first second a b, bounds first a -> bounds second b -> ~ separate a b -> disjoint_with a b = false.
Proof. intros first second a b A B K. destruct (disjoint_with a b) eqn:E; [|reflexivity]. exfalso. apply K. apply (separate_disjoint first second a b A B). exact E. Qed.
Theorem union_cut : forall first second a b, non_overlapping first -> non_overlapping second -> bounds first a -> bounds second b -> ~ separate a b ->
  exists ts, (forall o, unite_multisegments o first second = Ok (GMultisegment ts)) /\ arranged ts /\ forall t, In t ts <-> fragment (first ++ second) (first ++ second) t.
Proof.
  intros first second a b N1 N2 A B K. exact (union_form first second a b N1 N2 (proj2 (segments_box_bounds _ _) A) (proj2 (segments_box_bounds _ _) B) (boxes_touch _ _ _ _ A B K)).
Qed.
Lemma symmetric_cut : forall first second a b, non_overlapping first -> non_overlapping second -> bounds first a -> bounds second b -> ~ separate a b ->
  exists g, (forall o, linear_symmetric_difference o first second = Ok g) /\ canonical g /\ points_of g = [] /\ polygons_of g = [] /\ arranged (segments_of g)
  /\ forall t, In t (segments_of g) <-> fragment (first ++ second) first t /\ ~ fragment (first ++ second) second t \/ fragment (first ++ second) second t /\ ~ fragment (first ++ second) first t.
Proof.
  intros first second a b N1 N2 A B K.
  destruct (symmetric_form first second a b N1 N2 (proj2 (segments_box_bounds _ _) A) (proj2 (segments_box_bounds _ _) B) (boxes_touch _ _ _ _ A B K)) as (ts & R & Ar & In').
  destruct (unpack_segments_canonical ts) as (C1 & C2 & C3 & C4). exists (unpack_segments ts). rewrite C3. split; [exact R|]. split; [exact C1|]. split; [exact C2|]. split; [exact C4|]. split; [exact Ar|exact In'].
Qed.
Theorem symmetric_multi_cut : forall first second a b, non_overlapping first -> non_overlapping second -> bounds first a -> bounds second b -> ~ separate a b ->
  exists g, (forall o, symmetric_subtract_multisegments o first second = Ok g) /\ canonical g /\ points_of g = [] /\ polygons_of g = [] /\ arranged (segments_of g)
  /\ forall t, In t (segments_of g) <-> fragment (first ++ second) first t /\ ~ fragment (first ++ second) second t \/ fragment (first ++ second) second t /\ ~ fragment (first ++ second) first t.
Proof. exact symmetric_cut. Qed.
Lemma single_non_overlapping : forall s, proper s -> non_overlapping [s].
Proof. intros s P. split; [constructor; [exact P|constructor]|]. intros [|[|i]] [|[|j]] x y N X Y; cbn in *; congruence. Qed.
Theorem symmetric_segment_cut : forall s second a b, proper s -> non_overlapping second -> bounds [s] a -> bounds second b -> ~ separate a b ->
  exists g, (forall o, symmetric_subtract_multisegment_from_segment o s second = Ok g) /\ canonical g /\ points_of g = [] /\ polygons_of g = [] /\ arranged (segments_of g)
  /\ forall t, In t (segments_of g) <-> fragment (s :: second) [s] t /\ ~ fragment (s :: second) second t \/ fragment (s :: second) second t /\ ~ fragment (s :: second) [s] t.
Proof. intros s second a b P N A B K. exact (symmetric_cut [s] second a b (single_non_overlapping s P) N A B K). Qed.
Lemma complete_cut : forall first second, non_overlapping first -> non_overlapping second -> first <> [] -> second <> [] ->
  exists g, (forall o, linear_complete_intersection o first second = Ok g) /\ canonical g /\ polygons_of g = [] /\ arranged (segments_of g)
  /\ (forall t, In t (segments_of g) <-> fragment (first ++ second) first t /\ fragment (first ++ second) second t)
  /\ StronglySorted plt (points_of g) /\ forall p, In p (points_of g) <-> on_segments p first /\ on_segments p second /\ ~ on_common_segment p first second.
Proof.
  intros first second N1 N2 E1 E2. destruct (complete_form first second N1 N2 E1 E2) as (ps & ts & R & Ft). destruct (unpack_linear_mix_canonical ps ts) as (C1 & C2 & C3 & C4).
  eexists. split; [exact R|]. split; [exact C1|]. split; [exact C4|]. rewrite C2, C3. exact Ft.
Qed.
Theorem complete_multi_cut : forall first second, non_overlapping first -> non_overlapping second -> first <> [] -> second <> [] ->
  exists g, (forall o, complete_intersect_multisegments o first second = Ok g) /\ canonical g /\ polygons_of g = [] /\ arranged (segments_of g)
  /\ (forall t, In t (segments_of g) <-> fragment (first ++ second) first t /\ fragment (first ++ second) second t)
  /\ StronglySorted plt (points_of g) /\ forall p, In p (points_of g) <-> on_segments p first /\ on_segments p second /\ ~ on_common_segment p first second.
Proof. exact complete_cut. Qed.
Theorem complete_segment_cut : forall s second, proper s -> non_overlapping second -> second <> [] ->
  exists g, (forall o, complete_intersect_segment_with_multisegment o s second = Ok g) /\ canonical g /\ polygons_of g = [] /\ arranged (segments_of g)
  /\ (forall t, In t (segments_of g) <-> fragment (s :: second) [s] t /\ fragment (s :: second) second t)
  /\ StronglySorted plt (points_of g) /\ forall p, In p (points_of g) <-> on_segment p s /\ on_segments p second /\ ~ on_common_segment p [s] second.
Proof.
  intros s second P N E. destruct (complete_cut [s] second (single_non_overlapping s P) N ltac:(discriminate) E) as (g & G & C1 & C2 & C3 & C4 & C5 & C6).
  exists g. repeat (split; [assumption|]). intro p. rewrite (C6 p).
  assert (X : on_segments p [s] <-> on_segment p s) by (split; [intros (x & [<-|[]] & K); exact K|intro K; exists s; split; [left; reflexivity|exact K]]). rewrite X. reflexivity.
Qed.

(** ** Operands with the same segments *)
Lemma turned_on : forall s p, on_segment p (turned_over s) <-> on_segment p s.
Proof. intros [a b] p. unfold turned_over. cbn. symmetry. apply on_segment_sym. Qed.
Definition alike (s s' : segment) : Prop := (forall p, on_segment p s <-> on_segment p s') /\ forall p, endpoint p s <-> endpoint p s'.
Lemma alike_turned : forall s, alike s (turned_over s).
Proof. intro s. split; intro p; [symmetry; apply turned_on|]. unfold endpoint, turned_over. cbn. tauto. Qed.
Lemma alike_refl : forall s, alike s s.
Proof. intro s. split; intro p; tauto. Qed.
Lemma redrawn_alike : forall ss ss', redrawn ss ss' -> forall s, In s ss -> exists s', In s' ss' /\ alike s s'.
Proof. intros ss ss' (A & _) s Hs. destruct (A s Hs) as [K|K]; [exists s; split; [exact K|apply alike_refl]|exists (turned_over s); split; [exact K|apply alike_turned]]. Qed.
Lemma redrawn_sym : forall ss ss', redrawn ss ss' -> redrawn ss' ss.
Proof. intros ss ss' (A & B). split; assumption. Qed.
Lemma redrawn_app : forall a b a' b', redrawn a a' -> redrawn b b' -> redrawn (a ++ b) (a' ++ b').
Proof.
  intros a b a' b' (A1 & A2) (B1 & B2). split; intros s K; apply in_app_or in K; destruct K as [K|K];
    [destruct (A1 s K)|destruct (B1 s K)|destruct (A2 s K)|destruct (B2 s K)]; rewrite ?in_app_iff; tauto.
Qed.
Lemma same_members_redrawn : forall ss ss', (forall s, In s ss <-> In s ss') -> redrawn ss ss'.
Proof. intros ss ss' E. split; intros s K; left; apply E; exact K. Qed.
Lemma redrawn_node_half : forall ss ss', redrawn ss ss' -> forall p, node ss p -> node ss' p.
Proof.
  intros ss ss' R p [(s & Hs & E)|(s & t & Hs & Ht & Os & Ot & N)].
  - destruct (redrawn_alike _ _ R s Hs) as (s' & Hs' & _ & K). left. exists s'. split; [exact Hs'|apply K; exact E].
  - destruct (redrawn_alike _ _ R s Hs) as (s' & Hs' & K & _). destruct (redrawn_alike _ _ R t Ht) as (t' & Ht' & J & _). right. exists s', t'.
    split; [exact Hs'|]. split; [exact Ht'|]. split; [apply K; exact Os|]. split; [apply J; exact Ot|]. intros (u & v & Q & U1 & U2 & V1 & V2). apply N. exists u, v.
    split; [exact Q|]. split; [apply K; exact U1|]. split; [apply J; exact U2|]. split; [apply K; exact V1|apply J; exact V2].
Qed.
Lemma redrawn_fragment_half : forall ss ss' of of', redrawn ss ss' -> redrawn of of' -> forall t, fragment ss of t -> fragment ss' of' t.
Proof.
  intros ss ss' of of' R Q t ((s & Hs & W) & L & A & B & C). destruct (redrawn_alike _ _ Q s Hs) as (s' & Hs' & K & _). split; [exists s'; split; [exact Hs'|intros p J; apply K, W, J]|].
  split; [exact L|]. split; [exact (redrawn_node_half _ _ R _ A)|]. split; [exact (redrawn_node_half _ _ R _ B)|].
  intros p J N. exact (C p J (redrawn_node_half _ _ (redrawn_sym _ _ R) _ N)).
Qed.
Lemma redrawn_fragment : forall ss ss' of of', redrawn ss ss' -> redrawn of of' -> forall t, fragment ss of t <-> fragment ss' of' t.
Proof. intros ss ss' of of' R Q t. split; [apply redrawn_fragment_half; assumption|apply redrawn_fragment_half; apply redrawn_sym; assumption]. Qed.
Lemma redrawn_on : forall ss ss', redrawn ss ss' -> forall p, on_segments p ss <-> on_segments p ss'.
Proof.
  assert (G : forall ss ss', redrawn ss ss' -> forall p, on_segments p ss -> on_segments p ss').
  { intros ss ss' R p (s & Hs & O). destruct (redrawn_alike _ _ R s Hs) as (s' & Hs' & K & _). exists s'. split; [exact Hs'|apply K; exact O]. }
  intros ss ss' R p. split; apply G; [exact R|apply redrawn_sym; exact R].
Qed.
Lemma redrawn_common : forall a b a' b', redrawn a a' -> redrawn b b' -> forall p, on_common_segment p a b <-> on_common_segment p a' b'.
Proof.
  assert (G : forall a b a' b', redrawn a a' -> redrawn b b' -> forall p, on_common_segment p a b -> on_common_segment p a' b').
  { intros a b a' b' R Q p (s & t & Hs & Ht & (u & v & N & U1 & U2 & V1 & V2) & Os & Ot).
    destruct (redrawn_alike _ _ R s Hs) as (s' & Hs' & K & _). destruct (redrawn_alike _ _ Q t Ht) as (t' & Ht' & J & _). exists s', t'.
    split; [exact Hs'|]. split; [exact Ht'|]. split; [|split; [apply K; exact Os|apply J; exact Ot]]. exists u, v.
    split; [exact N|]. split; [apply K; exact U1|]. split; [apply J; exact U2|]. split; [apply K; exact V1|apply J; exact V2]. }
  intros a b a' b' R Q p. split; apply G; try assumption; apply redrawn_sym; assumption.
Qed.
Lemma redrawn_bounds : forall ss ss' b, redrawn ss ss' -> bounds ss b -> bounds ss' b.
Proof.
  intros ss ss' b R (A & (p1 & B1 & C1) & (p2 & B2 & C2) & (p3 & B3 & C3) & (p4 & B4 & C4)). pose proof (redrawn_on _ _ R) as E. split; [intros p K; apply A, E, K|].
  split; [exists p1|split; [exists p2|split; [exists p3|exists p4]]]; (split; [apply (proj1 (E _)); assumption|assumption]).
Qed.
Lemma redrawn_box : forall ss ss', redrawn ss ss' -> segments_box ss' = segments_box ss.
Proof.
  intros ss ss' R. destruct (segments_box ss) as [b|] eqn:E.
  - apply segments_box_bounds in E. apply segments_box_bounds. exact (redrawn_bounds _ _ b R E).
  - destruct ss as [|s ss]; [|discriminate E]. destruct ss' as [|s' ss']; [reflexivity|]. destruct (proj2 R s' (or_introl eq_refl)) as [[]|[]].
Qed.

Theorem union_redrawn : forall first second first' second' a b, non_overlapping first -> non_overlapping second -> non_overlapping first' -> non_overlapping second' ->
  redrawn first first' -> redrawn second second' -> bounds first a -> bounds second b -> ~ separate a b ->
  forall o o', unite_multisegments o first second = unite_multisegments o' first' second'.
Proof.
  intros first second first' second' a b N1 N2 N1' N2' R1 R2 A B K o o'.
  destruct (union_cut first second a b N1 N2 A B K) as (ts & G & Ar & E). destruct (union_cut first' second' a b N1' N2' (redrawn_bounds _ _ _ R1 A) (redrawn_bounds _ _ _ R2 B) K) as (ts' & G' & Ar' & E').
  rewrite G, G'. do 2 f_equal. apply arranged_unique; [exact Ar|exact Ar'|]. intro t. rewrite E, E'. apply redrawn_fragment; apply redrawn_app; assumption.
Qed.
Theorem symmetric_redrawn : forall first second first' second' a b, non_overlapping first -> non_overlapping second -> non_overlapping first' -> non_overlapping second' ->
  redrawn first first' -> redrawn second second' -> bounds first a -> bounds second b -> ~ separate a b ->
  forall o o', symmetric_subtract_multisegments o first second = symmetric_subtract_multisegments o' first' second'.
Proof.
  intros first second first' second' a b N1 N2 N1' N2' R1 R2 A B K o o'. unfold symmetric_subtract_multisegments.
  pose proof (redrawn_bounds _ _ _ R1 A) as A'. pose proof (redrawn_bounds _ _ _ R2 B) as B'.
  destruct (symmetric_form first second a b N1 N2 (proj2 (segments_box_bounds _ _) A) (proj2 (segments_box_bounds _ _) B) (boxes_touch _ _ _ _ A B K)) as (ts & G & Ar & E).
  destruct (symmetric_form first' second' a b N1' N2' (proj2 (segments_box_bounds _ _) A') (proj2 (segments_box_bounds _ _) B') (boxes_touch _ _ _ _ A' B' K)) as (ts' & G' & Ar' & E').
  rewrite G, G'. do 2 f_equal. apply arranged_unique; [exact Ar|exact Ar'|]. intro t. rewrite E, E'.
  rewrite (redrawn_fragment _ _ _ _ (redrawn_app _ _ _ _ R1 R2) R1 t), (redrawn_fragment _ _ _ _ (redrawn_app _ _ _ _ R1 R2) R2 t). reflexivity.
Qed.
Lemma linear_empty : forall A first second (f : box -> box -> res A), first = [] \/ second = [] -> with_boxes first second f = Err ValueError.
Proof. intros A first second f [-> | ->]; [reflexivity|]. unfold with_boxes. destruct (segments_box first); reflexivity. Qed.
Lemma redrawn_nil : forall ss ss', redrawn ss ss' -> ss = [] -> ss' = [].
Proof. intros ss ss' (_ & R) ->. destruct ss' as [|s ss']; [reflexivity|]. destruct (R s (or_introl eq_refl)) as [[]|[]]. Qed.
Lemma empty_or : forall a b : list segment, (a = [] \/ b = []) \/ a <> [] /\ b <> [].
Proof. intros [|x a] [|y b]; [left; left; reflexivity|left; left; reflexivity|left; right; reflexivity|right; split; discriminate]. Qed.
Theorem complete_redrawn : forall first second first' second', non_overlapping first -> non_overlapping second -> non_overlapping first' -> non_overlapping second' ->
  redrawn first first' -> redrawn second second' ->
  forall o o', complete_intersect_multisegments o first second = complete_intersect_multisegments o' first' second'.
Proof.
  intros first second first' second' N1 N2 N1' N2' R1 R2 o o'. unfold complete_intersect_multisegments. destruct (empty_or first second) as [Z|(E1 & E2)].
  - unfold linear_complete_intersection. rewrite !linear_empty; [reflexivity| |exact Z]. destruct Z as [Z|Z]; [left; exact (redrawn_nil _ _ R1 Z)|right; exact (redrawn_nil _ _ R2 Z)].
  - destruct (complete_form first second N1 N2 E1 E2) as (ps & ts & G & Ar & E & Sp & Ep).
    destruct (complete_form first' second' N1' N2') as (ps' & ts' & G' & Ar' & E' & Sp' & Ep'); [intro Z; exact (E1 (redrawn_nil _ _ (redrawn_sym _ _ R1) Z))|intro Z; exact (E2 (redrawn_nil _ _ (redrawn_sym _ _ R2) Z))|].
    rewrite G, G'. replace ts' with ts; [replace ps' with ps; [reflexivity|]|].
    + apply points_unique; [exact Sp|exact Sp'|]. intro p. rewrite Ep, Ep', (redrawn_on _ _ R1 p), (redrawn_on _ _ R2 p), (redrawn_common _ _ _ _ R1 R2 p). reflexivity.
    + apply arranged_unique; [exact Ar|exact Ar'|]. intro t. rewrite E, E', (redrawn_fragment _ _ _ _ (redrawn_app _ _ _ _ R1 R2) R1 t), (redrawn_fragment _ _ _ _ (redrawn_app _ _ _ _ R1 R2) R2 t). reflexivity.
Qed.

(** ** Order of segments *)
Theorem intersection_reordered : forall first second first' second', non_overlapping first -> non_overlapping second -> non_overlapping first' -> non_overlapping second' ->
  (forall s, In s first <-> In s first') -> (forall s, In s second <-> In s second') ->
  forall o o', intersect_multisegments o first second = intersect_multisegments o' first' second'.
Proof.
  intros first second first' second' N1 N2 N1' N2' Q1 Q2 o o'. pose proof (same_members_redrawn _ _ Q1) as R1. pose proof (same_members_redrawn _ _ Q2) as R2. destruct (empty_or first second) as [Z|(E1 & E2)].
  - unfold intersect_multisegments, linear_intersection. rewrite !linear_empty; [reflexivity| |exact Z]. destruct Z as [Z|Z]; [left; exact (redrawn_nil _ _ R1 Z)|right; exact (redrawn_nil _ _ R2 Z)].
  - destruct (segments_box_some first E1) as (a & Ea). destruct (segments_box_some second E2) as (b & Eb).
    destruct (intersection_form first second a b N1 N2 Ea Eb) as (ts & G & Ar & E).
    destruct (intersection_form first' second' a b N1' N2' (eq_trans (redrawn_box _ _ R1) Ea) (eq_trans (redrawn_box _ _ R2) Eb)) as (ts' & G' & Ar' & E').
    rewrite G, G'. do 2 f_equal. apply arranged_unique; [exact Ar|exact Ar'|]. intro t. rewrite E, E'.
    assert (S1 : redrawn (to_coupled_segments b first) (to_coupled_segments b first')) by (apply same_members_redrawn; intro s; unfold to_coupled_segments; rewrite !filter_In, Q1; reflexivity).
    assert (S2 : redrawn (to_coupled_segments a second) (to_coupled_segments a second')) by (apply same_members_redrawn; intro s; unfold to_coupled_segments; rewrite !filter_In, Q2; reflexivity).
    rewrite (redrawn_fragment _ _ _ _ (redrawn_app _ _ _ _ S1 S2) S1 t), (redrawn_fragment _ _ _ _ (redrawn_app _ _ _ _ S1 S2) S2 t). reflexivity.
Qed.

(** ** Swapped operands *)
Lemma disjoint_swap : forall a b, disjoint_with a b = disjoint_with b a.
Proof. intros a b. unfold disjoint_with. destruct (Qc_ltb (max_x b) (min_x a)), (Qc_ltb (max_x a) (min_x b)), (Qc_ltb (max_y b) (min_y a)), (Qc_ltb (max_y a) (min_y b)); reflexivity. Qed.
Lemma swapped : forall a b : list segment, redrawn (a ++ b) (b ++ a).
Proof. intros a b. apply same_members_redrawn. intro s. rewrite !in_app_iff. tauto. Qed.
Lemma redrawn_refl : forall ss, redrawn ss ss.
Proof. intro ss. apply same_members_redrawn. tauto. Qed.
Lemma sorted_swap : forall a b, sort_by seg_ltb (a ++ b) = sort_by seg_ltb (b ++ a).
Proof.
  intros a b. apply (sorted_unique _ (fun s t => ~ segment_lt t s)); [|apply sorted_segments|apply sorted_segments|].
  - intros x y K J. destruct (seg_ltb_spec y x) as [L|L]; [elim (K L)|]. destruct (proj1 (seg_le x y)) as [M|M]; [destruct (seg_ltb_spec y x); [contradiction|reflexivity]|elim (J M)|exact M].
  - rewrite !sort_by_perm. apply Permutation_app_comm.
Qed.
Lemma common_swap : forall a b p, on_common_segment p a b <-> on_common_segment p b a.
Proof.
  assert (G : forall a b p, on_common_segment p a b -> on_common_segment p b a).
  { intros a b p (s & t & Hs & Ht & O & Os & Ot). exists t, s. split; [exact Ht|]. split; [exact Hs|]. split; [apply overlap_sym; exact O|]. split; assumption. }
  intros a b p. split; apply G.
Qed.
Theorem union_swap : forall first second, non_overlapping first -> non_overlapping second -> forall o o', unite_multisegments o first second = unite_multisegments o' second first.
Proof.
  intros first second N1 N2 o o'. destruct (empty_or first second) as [Z|(E1 & E2)]; [unfold unite_multisegments, linear_union; rewrite !linear_empty; [reflexivity|tauto|tauto]|].
  destruct (segments_box_some first E1) as (a & Ea). destruct (segments_box_some second E2) as (b & Eb). destruct (disjoint_with a b) eqn:D.
  - unfold unite_multisegments, linear_union, with_boxes. rewrite Ea, Eb, (disjoint_swap b a), D, sorted_swap. reflexivity.
  - destruct (union_form first second a b N1 N2 Ea Eb D) as (ts & G & Ar & E). destruct (union_form second first b a N2 N1 Eb Ea) as (ts' & G' & Ar' & E'); [rewrite disjoint_swap; exact D|].
    rewrite G, G'. do 2 f_equal. apply arranged_unique; [exact Ar|exact Ar'|]. intro t. rewrite E, E'. apply redrawn_fragment; apply swapped.
Qed.
Theorem symmetric_swap : forall first second, non_overlapping first -> non_overlapping second ->
  forall o o', symmetric_subtract_multisegments o first second = symmetric_subtract_multisegments o' second first.
Proof.
  intros first second N1 N2 o o'. unfold symmetric_subtract_multisegments. destruct (empty_or first second) as [Z|(E1 & E2)]; [unfold linear_symmetric_difference; rewrite !linear_empty; [reflexivity|tauto|tauto]|].
  destruct (segments_box_some first E1) as (a & Ea). destruct (segments_box_some second E2) as (b & Eb). destruct (disjoint_with a b) eqn:D.
  - unfold linear_symmetric_difference, with_boxes. rewrite Ea, Eb, (disjoint_swap b a), D, sorted_swap. reflexivity.
  - destruct (symmetric_form first second a b N1 N2 Ea Eb D) as (ts & G & Ar & E). destruct (symmetric_form second first b a N2 N1 Eb Ea) as (ts' & G' & Ar' & E'); [rewrite disjoint_swap; exact D|].
    rewrite G, G'. do 2 f_equal. apply arranged_unique; [exact Ar|exact Ar'|]. intro t. rewrite E, E'.
    rewrite (redrawn_fragment _ _ _ _ (swapped first second) (redrawn_refl first) t), (redrawn_fragment _ _ _ _ (swapped first second) (redrawn_refl second) t). tauto.
Qed.
Theorem intersection_swap : forall first second, non_overlapping first -> non_overlapping second ->
  forall o o', intersect_multisegments o first second = intersect_multisegments o' second first.
Proof.
  intros first second N1 N2 o o'. destruct (empty_or first second) as [Z|(E1 & E2)]; [unfold intersect_multisegments, linear_intersection; rewrite !linear_empty; [reflexivity|tauto|tauto]|].
  destruct (segments_box_some first E1) as (a & Ea). destruct (segments_box_some second E2) as (b & Eb).
  destruct (intersection_form first second a b N1 N2 Ea Eb) as (ts & G & Ar & E). destruct (intersection_form second first b a N2 N1 Eb Ea) as (ts' & G' & Ar' & E').
  rewrite G, G'. do 2 f_equal. apply arranged_unique; [exact Ar|exact Ar'|]. intro t. rewrite E, E'.
  set (f := to_coupled_segments b first). set (g := to_coupled_segments a second).
  rewrite (redrawn_fragment _ _ _ _ (swapped f g) (redrawn_refl f) t), (redrawn_fragment _ _ _ _ (swapped f g) (redrawn_refl g) t). tauto.
Qed.
Theorem complete_swap : forall first second, non_overlapping first -> non_overlapping second ->
  forall o o', complete_intersect_multisegments o first second = complete_intersect_multisegments o' second first.
Proof.
  intros first second N1 N2 o o'. unfold complete_intersect_multisegments. destruct (empty_or first second) as [Z|(E1 & E2)]; [unfold linear_complete_intersection; rewrite !linear_empty; [reflexivity|tauto|tauto]|].
  destruct (complete_form first second N1 N2 E1 E2) as (ps & ts & G & Ar & E & Sp & Ep). destruct (complete_form second first N2 N1 E2 E1) as (ps' & ts' & G' & Ar' & E' & Sp' & Ep').
  rewrite G, G'. replace ts' with ts; [replace ps' with ps; [reflexivity|]|].
  - apply points_unique; [exact Sp|exact Sp'|]. intro p. rewrite Ep, Ep', (common_swap first second p). tauto.
  - apply arranged_unique; [exact Ar|exact Ar'|]. intro t. rewrite E, E'.
    rewrite (redrawn_fragment _ _ _ _ (swapped first second) (redrawn_refl first) t), (redrawn_fragment _ _ _ _ (swapped first second) (redrawn_refl second) t). tauto.
Qed.
