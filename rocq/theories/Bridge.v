(** Sides of darts as points next to middles of edges.
    Proof support only, no part of /repo is modelled here. *)
From Coq Require Import Permutation.
From Verif Require Import QcTac Geom Spec SpecShape GeomFacts Toward Relation SweepGeo SweepInv SweepSteps SweepCmp SweepLink SweepRun SweepLoop SweepStart Outline Sweep Linear Contour ConnectThms Tracing TraceThms RegionThms Parity EvenOdd Polygons Loops Labelled Filter Mixed Shaped Holey ShapedThms FollowThms Faces Flip TracedLoops Walks Shift EvenStraight.

Section Bridge.
Variable ts : list traced.
Notation n := (length ts).
Hypothesis Hpair : paired ts.
Hypothesis Htidy : tidy ts.
Notation st i := (t_start (tev ts i)).
Notation en i := (t_end (tev ts i)).
Notation lf i := (t_left (tev ts i)).
Notation op := (opp ts).
Notation drawn Z := (map (edge ts) (chosen ts Z)).
Lemma drawn_count : forall Z q, (forall i, (i < n)%nat -> Z (op i) = Z i) ->
  Nat.odd (count_occ pt_eq_dec (endpoints_of (drawn Z)) q) = parity (fun i => Z i && pt_eqb (st i) q) (seq 0 n).
Proof.
  intros Z q Zop. rewrite <- parity_occ. unfold endpoints_of. rewrite parity_flat, parity_map. unfold chosen. rewrite parity_filter.
  assert (Pm : Permutation (map op (seq 0 n)) (seq 0 n)) by exact (opp_perm ts Hpair).
  assert (E2 : parity (fun k => negb (lf k) && Z k && pt_eqb (st k) q) (seq 0 n) = parity (fun k => lf k && Z k && pt_eqb (en k) q) (seq 0 n)).
  { rewrite <- (parity_perm _ _ _ Pm), parity_map. apply parity_ext. intros k Hk. apply in_seq in Hk.
    rewrite (td_left ts Htidy k), (Zop k), (en_st ts Hpair k), Bool.negb_involutive by lia. reflexivity. }
  rewrite (parity_ext (fun k => Z k && pt_eqb (st k) q) (fun k => xorb (lf k && Z k && pt_eqb (st k) q) (negb (lf k) && Z k && pt_eqb (st k) q))).
  - rewrite parity_xor, E2, <- parity_xor. apply parity_ext. intros k Hk. cbn [parity edge s_start s_end].
    destruct (lf k), (Z k), (pt_eqb (st k) q), (pt_eqb (en k) q); reflexivity.
  - intros k _. destruct (lf k), (Z k), (pt_eqb (st k) q); reflexivity.
Qed.
Lemma drawn_in : forall Z sg, In sg (drawn Z) -> exists k, (k < n)%nat /\ lf k = true /\ Z k = true /\ sg = edge ts k.
Proof. intros Z sg H. apply in_map_iff in H. destruct H as (k & <- & Hk). apply chosen_in in Hk. exists k. tauto. Qed.
Lemma in_drawn : forall (Z : nat -> bool) k, (k < n)%nat -> lf k = true -> Z k = true -> In (edge ts k) (drawn Z).
Proof. intros Z k A B C. apply in_map, filter_In. split; [apply in_seq; lia|]. rewrite B, C. reflexivity. Qed.
Lemma drawn_proper : forall Z, Forall proper (drawn Z).
Proof. intros Z. apply Forall_forall. intros sg H. destruct (drawn_in Z sg H) as (k & Hk & _ & _ & ->). exact (edge_proper ts Hpair Htidy k Hk). Qed.

Section Closed.
Variable Z : nat -> bool.
Hypothesis Zop : forall i, (i < n)%nat -> Z (op i) = Z i.
Hypothesis Zeven : forall p, parity (fun i => Z i && pt_eqb (st i) p) (seq 0 n) = false.
Lemma drawn_even : even_occurrences (endpoints_of (drawn Z)).
Proof. intro q. rewrite <- Nat.negb_odd, (drawn_count Z q Zop), Zeven. reflexivity. Qed.
Lemma under_inside : forall e m i, Sheared e (m :: starts ts) -> (i < n)%nat -> inside_segment m (edge ts i) ->
  under ts e Z i = inside (drawn Z) m.
Proof.
  intros e m i Hsm Hi (Om & Ns & Ne). assert (Hsh : Sheared e (starts ts)) by (apply (sheared_incl e _ _ Hsm); intros p Hp; right; exact Hp).
  set (K := fun i => kp e (edge ts i)).
  pose proof (all_proper ts Hpair Htidy) as Ap. pose proof (all_ends ts Hpair) as Ae.
  assert (Ae' : incl (endpoints_of (all_edges ts)) (m :: starts ts)) by (intros p Hp; right; apply Ae, Hp).
  pose proof (proj1 (k_on e (m :: starts ts) Hsm (all_edges ts) Ap Ae' (edge ts i) m (all_in ts i Hi)) Om) as (Hm & Ym). fold (K i) in Hm, Ym.
  assert (Um : pos e m < hi (K i)).
  { destruct Hm as (_ & M). destruct (Qcle_lt_or_eq _ _ M) as [L|L]; [exact L|exfalso].
    assert (J : m = seg_hi (edge ts i)).
    { apply (sheared_eq e _ Hsm); [left; reflexivity|right; apply Ae, in_flat_map; exists (edge ts i); split; [apply all_in, Hi|]|exact L].
      destruct (seg_lo_hi (edge ts i)) as [(_ & -> & _)|(_ & -> & _)]; cbn; auto. }
    destruct (seg_lo_hi (edge ts i)) as [(_ & E & _)|(_ & E & _)]; rewrite E in J; [exact (Ne J)|exact (Ns J)]. }
  assert (Eu : under ts e Z i = parity (fun k => undermost false (K i) (pos e m) (K k)) (chosen ts Z)).
  { unfold under. rewrite <- (parity_map _ _ (fun k => K k) (undermost false (K i) (lo (K i)))), <- (parity_map _ _ (fun k => K k) (undermost false (K i) (pos e m))).
    symmetry. apply (along_range (V e (starts ts))); [exact (proj1 Hm)| |].
    - intros k Hk. apply in_map_iff in Hk. destruct Hk as (j & <- & Hj). destruct (chosen_in ts Z j Hj) as (Lj & Fj & _).
      split; [exact (K_len ts Hpair Htidy e Hsh j Lj)|]. destruct (k_V e (starts ts) Hsh (all_edges ts) Ap Ae _ (all_in ts j Lj)) as (V1 & V2). split; [exact V1|]. split; [exact V2|].
      intros t A B Ht E. right. destruct (Nat.eq_dec j i) as [->|N2].
      + split; [apply coll_refl|]. split; [apply Qcle_refl|exact Um].
      + destruct (Nat.eq_dec j (op i)) as [->|N].
        * unfold K. rewrite (K_opp ts Hpair Htidy e i Hi). split; [apply coll_refl|]. split; [apply Qcle_refl|exact Um].
        * exfalso. destruct (K_apart ts Hpair Htidy e Hsh i j t Hi Lj N2 N) as ([X|X] & _); [split; fold (K i); qlra|exact Ht|symmetry; exact E| |]; fold (K i) in X; rewrite X in *; qlra.
    - intros t _ _. exact (chosen_even ts Hpair Htidy e Hsh Z Zop Zeven t). }
  rewrite Eu. rewrite <- (parity_map _ _ (fun k => K k) (undermost false (K i) (pos e m))).
  replace (map (fun k => K k) (chosen ts Z)) with (map (kp e) (drawn Z)) by (rewrite map_map; reflexivity).
  apply (k_inside e (m :: starts ts) Hsm (drawn Z)); [exact (drawn_proper Z)| |left; reflexivity|symmetry; exact Ym|].
  - intros p Hp. apply in_flat_map in Hp. destruct Hp as (sg & Hs & Hp). apply Ae'. apply in_flat_map. exists sg. split; [|exact Hp].
    destruct (drawn_in Z sg Hs) as (k & Hk & _ & _ & ->). exact (all_in ts k Hk).
  - intros sg Hs Os. destruct (drawn_in Z sg Hs) as (k & Hk & _ & _ & ->). right. destruct (Nat.eq_dec k i) as [->|N]; [apply coll_refl|].
    destruct (Nat.eq_dec k (op i)) as [->|N']; [unfold K; rewrite (K_opp ts Hpair Htidy e i Hi); apply coll_refl|exfalso].
    destruct (td_apart ts Htidy i k m Hi Hk N N' Om Os) as ([X|X] & _); [exact (Ns X)|exact (Ne X)].
Qed.
(** Points next to an edge. *)
Definition beside_edge (i : nat) (m d u : point) : Prop := inside_segment m (edge ts i) /\ inside_segment m (Seg d u)
  /\ (forall s, In s (all_edges ts) -> passes_under s d = passes_under s m)
  /\ (forall s x, In s (all_edges ts) -> on_segment x (Seg d u) -> on_segment x s -> on_segment m s /\ x = m).
Lemma drawn_sub : forall sg, In sg (drawn Z) -> In sg (all_edges ts).
Proof. intros sg H. destruct (drawn_in Z sg H) as (k & Hk & _ & _ & ->). exact (all_in ts k Hk). Qed.
Lemma through_edge : forall i m k, (i < n)%nat -> (k < n)%nat -> inside_segment m (edge ts i) -> on_segment m (edge ts k) -> k = i \/ k = op i.
Proof.
  intros i m k Hi Hk (Om & Ns & Ne) Ok_. destruct (Nat.eq_dec k i) as [E|N]; [left; exact E|]. destruct (Nat.eq_dec k (op i)) as [E|N']; [right; exact E|exfalso].
  destruct (td_apart ts Htidy i k m Hi Hk N N' Om Ok_) as ([X|X] & _); [exact (Ns X)|exact (Ne X)].
Qed.
Lemma beside_below : forall i m d u, beside_edge i m d u -> inside (drawn Z) d = inside (drawn Z) m.
Proof. intros i m d u (_ & _ & A & _). rewrite !inside_parity. apply parity_ext. intros sg H. apply A, drawn_sub, H. Qed.
Lemma beside_above : forall i m d u, (i < n)%nat -> beside_edge i m d u -> inside (drawn Z) u = xorb (inside (drawn Z) m) (Z i).
Proof.
  intros i m d u Hi B. rewrite <- (beside_below i m d u B). destruct B as (Im & Iu & _ & B).
  assert (Ndu : forall sg x, In sg (drawn Z) -> on_segment x (Seg d u) -> on_segment x sg -> on_segment m sg /\ x = m) by (intros sg x H; apply B, drawn_sub, H).
  destruct (Z i) eqn:Ez.
  - set (j := if lf i then i else op i).
    assert (Hj : (j < n)%nat /\ lf j = true /\ Z j = true).
    { unfold j. destruct (lf i) eqn:El; [auto|]. split; [exact (opp_lt ts Hpair i Hi)|]. split; [rewrite (td_left ts Htidy i Hi), El; reflexivity|rewrite Zop; assumption]. }
    assert (Ij : inside_segment m (edge ts j)).
    { unfold j. destruct (lf i); [exact Im|]. destruct Im as (Om & Ns & Ne). unfold edge in *. cbn [s_start s_end] in *. rewrite <- (en_st ts Hpair i Hi), <- (st_en ts Hpair i Hi).
      split; [|split; assumption]. apply (on_reversed (Seg (en i) (st i)) m). exact Om. }
    assert (Jc : In j (chosen ts Z)) by (apply filter_In; split; [apply in_seq; lia|destruct Hj as (_ & -> & ->); reflexivity]).
    assert (Nd : NoDup (chosen ts Z)) by (apply NoDup_filter, seq_NoDup).
    destruct (in_split _ _ Jc) as (a & b & Ec). rewrite Ec in Nd.
    assert (Pm : Permutation (drawn Z) (edge ts j :: map (edge ts) (a ++ b))) by (rewrite Ec; rewrite !map_app; cbn [map]; apply Permutation_sym, Permutation_middle).
    assert (Pe : even_occurrences (endpoints_of (edge ts j :: map (edge ts) (a ++ b)))).
    { intro q. rewrite <- (drawn_even q). f_equal. apply Permutation_count_occ. apply Permutation_flat_map, Permutation_sym, Pm. }
    assert (Pp : Forall proper (edge ts j :: map (edge ts) (a ++ b))) by (eapply Permutation_Forall; [exact Pm|apply drawn_proper]).
    pose proof (flip (edge ts j) (map (edge ts) (a ++ b)) m d u Pp Pe Ij Iu) as F.
    rewrite (inside_perm _ _ u Pm), (inside_perm _ _ d Pm). rewrite F; [destruct (inside _ u); reflexivity| |].
    + intros x Hx Ox. apply (Ndu (edge ts j) x); [apply in_map, Jc|exact Hx|exact Ox].
    + intros sg Hs x Hx Ox. apply in_map_iff in Hs. destruct Hs as (k & <- & Hk). assert (Kc : In k (chosen ts Z)) by (rewrite Ec; apply in_app_or in Hk; apply in_or_app; cbn; tauto).
      destruct (Ndu (edge ts k) x (in_map _ _ _ Kc) Hx Ox) as (Om & _). pose proof (chosen_in ts Z k Kc) as (Lk & Fk & _). destruct Hj as (Lj & Fj & _).
      destruct (through_edge j m k Lj Lk Ij Om) as [->| ->].
      * apply NoDup_remove_2 in Nd. exact (Nd Hk).
      * rewrite (td_left ts Htidy j Lj), Fj in Fk. discriminate Fk.
  - rewrite xorb_false_r. symmetry. apply inside_const; [apply drawn_proper|exact drawn_even|]. intros sg Hs. left. intros x Hx Ox.
    destruct (Ndu sg x Hs Hx Ox) as (Om & _). destruct (drawn_in Z sg Hs) as (k & Hk & Fk & Zk & ->). destruct (through_edge i m k Hi Hk Im Om) as [->| ->]; [congruence|rewrite Zop in Zk by exact Hi; congruence].
Qed.
Lemma beside_side : forall e i m d u, Sheared e (m :: starts ts) -> (i < n)%nat -> beside_edge i m d u ->
  side ts e Z i = inside (drawn Z) (if lf i then u else d) /\ inside (drawn Z) (if lf i then d else u) = xorb (inside (drawn Z) (if lf i then u else d)) (Z i).
Proof.
  intros e i m d u Hs Hi B. unfold side. rewrite (under_inside e m i Hs Hi (proj1 B)). pose proof (beside_below i m d u B) as X. pose proof (beside_above i m d u Hi B) as Y.
  destruct (lf i); cbn [andb]; rewrite X, Y; destruct (inside (drawn Z) m), (Z i); split; reflexivity.
Qed.
End Closed.
(** The first of darts of a closed set. *)
Hypothesis Hsort : forall i j, (i < j)%nat -> (j < n)%nat -> ple (st i) (st j).
Lemma first_of : forall Z e0, (forall i, (i < n)%nat -> Z (op i) = Z i) -> (e0 < n)%nat -> Z e0 = true -> (forall i, (i < e0)%nat -> Z i = false) -> lf e0 = true.
Proof.
  intros Z e0 Zop He Ze Mn. destruct (lf e0) eqn:El; [reflexivity|exfalso].
  pose proof (right_lt ts Hpair Htidy e0 He El) as L. rewrite (en_st ts Hpair e0 He) in L. pose proof (opp_lt ts Hpair e0 He) as Ho.
  destruct (Nat.lt_trichotomy (op e0) e0) as [J|[J|J]].
  - pose proof (Mn _ J) as Q. rewrite Zop, Ze in Q by exact He. discriminate Q.
  - rewrite J in L. exact (plt_irrefl _ L).
  - exact (Hsort e0 (op e0) J Ho L).
Qed.
Lemma first_under : forall e Z e0, Sheared e (starts ts) -> (forall i, (i < n)%nat -> Z (op i) = Z i) -> (e0 < n)%nat -> Z e0 = true -> (forall i, (i < e0)%nat -> Z i = false) -> under ts e Z e0 = false.
Proof.
  intros e Z e0 Hsh Zop He Ze Mn. pose proof (first_of Z e0 Zop He Ze Mn) as El. rewrite (under_left ts Hpair Htidy e Hsh Z e0 He El).
  assert (Ge : forall k, In k (chosen ts Z) -> (e0 <= k)%nat).
  { intros k Hk. destruct (chosen_in ts Z k Hk) as (_ & _ & Zk). destruct (Nat.le_gt_cases e0 k) as [J|J]; [exact J|]. rewrite (Mn k J) in Zk. discriminate Zk. }
  rewrite !parity_none; [reflexivity| |].
  - intros k Hk. destruct (Nat.ltb_spec k e0) as [J|J]; [|apply andb_false_r]. pose proof (Ge k Hk). lia.
  - intros k Hk. pose proof (Ge k Hk) as G. destruct (chosen_in ts Z k Hk) as (Lk & Fk & _). unfold passing. rewrite ltb_false; [reflexivity|].
    destruct (K_left ts Htidy e k Lk Fk) as (-> & _). destruct (Nat.eq_dec e0 k) as [->|N]; [apply Qcle_refl|].
    apply (sheared_le e (starts ts) Hsh); [apply st_in; exact He|apply st_in; exact Lk|]. apply Hsort; lia.
Qed.
End Bridge.
