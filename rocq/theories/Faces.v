(** Sides of closed sets of edges in a plane graph: the next dart around a
    vertex is on the same side as the one before unless an edge is between.
    Proof support only, no part of /repo is modelled here. *)
From Coq Require Import Permutation.
From Verif Require Import QcTac Geom Spec GeomFacts Toward Relation SweepGeo SweepInv SweepSteps SweepCmp SweepLink SweepRun SweepLoop SweepStart Outline Sweep SpecShape Contour ConnectThms Tracing TraceThms RegionThms Parity EvenOdd Loops.

(** Edges meet at their endpoints only; events at the same point are sorted. *)
Record tidy (ts : list traced) : Prop := {
  td_left : forall i, (i < length ts)%nat -> t_left (tev ts (opp ts i)) = negb (t_left (tev ts i));
  td_lt : forall i, (i < length ts)%nat -> t_left (tev ts i) = true -> plt (t_start (tev ts i)) (t_end (tev ts i));
  td_apart : forall i j p, (i < length ts)%nat -> (j < length ts)%nat -> j <> i -> j <> opp ts i ->
    on_segment p (edge ts i) -> on_segment p (edge ts j) ->
    (p = t_start (tev ts i) \/ p = t_end (tev ts i)) /\ (p = t_start (tev ts j) \/ p = t_end (tev ts j));
  td_order : forall i j, (i < j)%nat -> (j < length ts)%nat -> t_start (tev ts i) = t_start (tev ts j) ->
    (t_left (tev ts i) = true -> t_left (tev ts j) = true) /\
    (t_left (tev ts i) = t_left (tev ts j) ->
     if t_left (tev ts i) then 0 < cross (t_start (tev ts i)) (t_end (tev ts i)) (t_end (tev ts j))
     else cross (t_start (tev ts i)) (t_end (tev ts i)) (t_end (tev ts j)) < 0) }.

Lemma gap_before : forall (l : list Qc) u v, u < v -> exists t, u < t /\ t < v /\ forall x, In x l -> x < v -> x < t.
Proof.
  induction l as [|y l IH]; intros u v H.
  - destruct (half_between u v H) as (H1 & H2). exists (half * (u + v)). repeat split; [exact H1|exact H2|]. intros x [].
  - destruct (Qclt_le_dec y v) as [L|L].
    + destruct (Qclt_le_dec u y) as [M|M].
      * destruct (IH y v L) as (t & A & B & C). exists t. repeat split; [qlra|exact B|]. intros x [<-|Hx] J; [exact A|exact (C x Hx J)].
      * destruct (IH u v H) as (t & A & B & C). exists t. repeat split; [exact A|exact B|]. intros x [<-|Hx] J; [qlra|exact (C x Hx J)].
    + destruct (IH u v H) as (t & A & B & C). exists t. repeat split; [exact A|exact B|]. intros x [<-|Hx] J; [exfalso; qlra|exact (C x Hx J)].
Qed.
Lemma parity_run : forall f n a i, (a <= i <= n)%nat ->
  parity (fun k => ((a <=? k) && (k <? i))%nat && f k) (seq 0 n) = parity f (seq a (i - a)).
Proof.
  intros f n a i H. replace (seq 0 n) with (seq 0 a ++ seq a (i - a) ++ seq i (n - i)).
  - rewrite !parity_app, (parity_none _ (seq 0 a)), (parity_none _ (seq i (n - i))), Bool.xorb_false_r.
    + cbn [xorb]. rewrite (parity_ext _ f (seq a (i - a))); [destruct (parity f (seq a (i - a))); reflexivity|].
      intros x Hx. apply in_seq in Hx. destruct (Nat.leb_spec a x); [|lia]. destruct (Nat.ltb_spec x i); [reflexivity|lia].
    + intros x Hx. apply in_seq in Hx. destruct (Nat.ltb_spec x i); [lia|]. rewrite Bool.andb_false_r. reflexivity.
    + intros x Hx. apply in_seq in Hx. destruct (Nat.leb_spec a x); [lia|reflexivity].
  - replace (seq i (n - i)) with (seq (a + (i - a)) (n - i)) by (f_equal; lia). rewrite <- seq_app.
    replace (seq a (i - a + (n - i))) with (seq (0 + a) (i - a + (n - i))) by (f_equal; lia). rewrite <- seq_app. f_equal. lia.
Qed.
Lemma mul_nonneg : forall a b : Qc, 0 <= a -> 0 <= b -> 0 <= a * b.
Proof. intros a b A B. pose proof (Qcmult_le_compat_r _ _ b A B) as J. rewrite Qcmult_0_l in J. exact J. Qed.
Lemma cross_swap : forall a b c, cross b a c = - cross a b c.
Proof. intros a b c. unfold cross. ring. Qed.

Section Faces.
Variable ts : list traced.
Notation n := (length ts).
Hypothesis Hpair : paired ts.
Hypothesis Htidy : tidy ts.
Notation st i := (t_start (tev ts i)).
Notation en i := (t_end (tev ts i)).
Notation lf i := (t_left (tev ts i)).
Notation op := (opp ts).
Variable e : Qc.
Hypothesis Hsh : Sheared e (starts ts).
Notation K i := (kp e (edge ts i)).

Lemma st_in : forall i, (i < n)%nat -> In (st i) (starts ts).
Proof. intros i Hi. unfold starts. apply in_map. unfold tev. apply nth_In. exact Hi. Qed.
Lemma opp_lt : forall i, (i < n)%nat -> (op i < n)%nat.
Proof. intros i Hi. apply Hpair, Hi. Qed.
Lemma opp_opp : forall i, (i < n)%nat -> op (op i) = i.
Proof. intros i Hi. apply Hpair, Hi. Qed.
Lemma en_st : forall i, (i < n)%nat -> en i = st (op i).
Proof. intros i Hi. apply Hpair, Hi. Qed.
Lemma st_en : forall i, (i < n)%nat -> st i = en (op i).
Proof. intros i Hi. rewrite (en_st _ (opp_lt i Hi)), (opp_opp i Hi). reflexivity. Qed.
Lemma opp_perm : Permutation (map op (seq 0 n)) (seq 0 n).
Proof.
 apply NoDup_Permutation_bis.
    - assert (J : forall l, NoDup l -> (forall x, In x l -> (x < n)%nat) -> NoDup (map op l)).
      { induction l as [|x l IH]; intros N Hx; [constructor|]. apply NoDup_cons_iff in N. destruct N as (N1 & N2). cbn. constructor.
        - intro J. apply in_map_iff in J. destruct J as (y & Ey & Hy). apply N1. rewrite <- (opp_opp x (Hx x (or_introl eq_refl))), <- Ey, (opp_opp y (Hx y (or_intror Hy))). exact Hy.
        - apply IH; [exact N2|intros y Hy; apply Hx; right; exact Hy]. }
      apply J; [apply seq_NoDup|]. intros x Hx. apply in_seq in Hx. lia.
    - rewrite map_length. apply Nat.le_refl.
    - intros x Hx. apply in_map_iff in Hx. destruct Hx as (y & <- & Hy). apply in_seq in Hy. apply in_seq. pose proof (opp_lt y). lia.
Qed.
Lemma right_lt : forall i, (i < n)%nat -> lf i = false -> plt (en i) (st i).
Proof.
  intros i Hi L. pose proof (td_lt ts Htidy (op i) (opp_lt i Hi)) as J. rewrite (td_left ts Htidy i Hi), L in J. specialize (J eq_refl).
  rewrite <- (en_st i Hi), <- (st_en i Hi) in J. exact J.
Qed.
Lemma edge_left : forall i, (i < n)%nat -> lf i = true -> seg_lo (edge ts i) = st i /\ seg_hi (edge ts i) = en i.
Proof.
  intros i Hi L. pose proof (td_lt ts Htidy i Hi L) as J. unfold seg_lo, seg_hi, edge. cbn [s_start s_end].
  destruct (pt_ltb_spec (en i) (st i)) as [M|M]; [|split; reflexivity]. exfalso. exact (plt_irrefl _ (plt_trans _ _ _ J M)).
Qed.
Lemma edge_right : forall i, (i < n)%nat -> lf i = false -> seg_lo (edge ts i) = en i /\ seg_hi (edge ts i) = st i.
Proof.
  intros i Hi L. pose proof (right_lt i Hi L) as J. unfold seg_lo, seg_hi, edge. cbn [s_start s_end].
  destruct (pt_ltb_spec (en i) (st i)) as [M|M]; [split; reflexivity|]. contradiction.
Qed.
Lemma edge_proper : forall i, (i < n)%nat -> proper (edge ts i).
Proof.
  intros i Hi E. cbn in E. destruct (lf i) eqn:L.
  - pose proof (td_lt ts Htidy i Hi L) as J. rewrite E in J. exact (plt_irrefl _ J).
  - pose proof (right_lt i Hi L) as J. rewrite E in J. exact (plt_irrefl _ J).
Qed.
Lemma K_opp : forall i, (i < n)%nat -> K (op i) = K i.
Proof.
  intros i Hi. pose proof (opp_lt i Hi) as Ho. pose proof (td_left ts Htidy i Hi) as T. unfold kp. destruct (lf i) eqn:L; cbn in T.
  - destruct (edge_left i Hi L) as (-> & ->), (edge_right _ Ho T) as (-> & ->). rewrite <- (en_st i Hi), <- (st_en i Hi). reflexivity.
  - destruct (edge_right i Hi L) as (-> & ->), (edge_left _ Ho T) as (-> & ->). rewrite <- (en_st i Hi), <- (st_en i Hi). reflexivity.
Qed.
Lemma K_left : forall i, (i < n)%nat -> lf i = true -> lo (K i) = pos e (st i) /\ hi (K i) = pos e (en i).
Proof. intros i Hi L. destruct (edge_left i Hi L) as (A & B). unfold kp. cbn. rewrite A, B. split; reflexivity. Qed.
Lemma K_right : forall i, (i < n)%nat -> lf i = false -> lo (K i) = pos e (en i) /\ hi (K i) = pos e (st i).
Proof. intros i Hi L. destruct (edge_right i Hi L) as (A & B). unfold kp. cbn. rewrite A, B. split; reflexivity. Qed.
Definition all_edges : list segment := map (edge ts) (seq 0 n).
Lemma all_in : forall i, (i < n)%nat -> In (edge ts i) all_edges.
Proof. intros i Hi. apply in_map, in_seq. lia. Qed.
Lemma all_proper : Forall proper all_edges.
Proof. apply Forall_forall. intros sg H. apply in_map_iff in H. destruct H as (i & <- & Hi). apply in_seq in Hi. apply edge_proper. lia. Qed.
Lemma all_ends : incl (endpoints_of all_edges) (starts ts).
Proof.
  intros p H. apply in_flat_map in H. destruct H as (sg & Hs & Hp). apply in_map_iff in Hs. destruct Hs as (i & <- & Hi). apply in_seq in Hi.
  cbn in Hp. destruct Hp as [<-|[<-|[]]]; [apply st_in; lia|]. rewrite en_st by lia. apply st_in, opp_lt. lia.
Qed.
Lemma K_len : forall i, (i < n)%nat -> lo (K i) < hi (K i).
Proof. intros i Hi. exact (k_len e (starts ts) Hsh all_edges all_proper all_ends _ (all_in i Hi)). Qed.
Lemma K_at : forall i, (i < n)%nat -> ht (K i) (pos e (st i)) = py (st i).
Proof.
  intros i Hi. destruct (lf i) eqn:L.
  - destruct (edge_left i Hi L) as (A & B). pose proof (k_lo e (edge ts i)) as J. rewrite A in J. rewrite (proj1 (K_left i Hi L)) in J. exact J.
  - destruct (edge_right i Hi L) as (A & B). pose proof (k_hi e (starts ts) Hsh all_edges all_proper all_ends _ (all_in i Hi)) as J. rewrite B in J. rewrite (proj2 (K_right i Hi L)) in J. exact J.
Qed.
Lemma K_end : forall i, (i < n)%nat -> ht (K i) (pos e (en i)) = py (en i).
Proof. intros i Hi. rewrite (en_st i Hi), <- (K_opp i Hi). apply K_at, opp_lt, Hi. Qed.
Lemma st_eq : forall i j, (i < n)%nat -> (j < n)%nat -> pos e (st i) = pos e (st j) -> st i = st j.
Proof. intros i j Hi Hj E. apply (sheared_eq e (starts ts) Hsh); [apply st_in, Hi|apply st_in, Hj|exact E]. Qed.
(** Different edges meet at tips only. *)
Lemma K_apart : forall i j t, (i < n)%nat -> (j < n)%nat -> j <> i -> j <> op i -> has (K i) t -> has (K j) t -> ht (K i) t = ht (K j) t ->
  (t = lo (K i) \/ t = hi (K i)) /\ (t = lo (K j) \/ t = hi (K j)).
Proof.
  intros i j t Hi Hj N1 N2 T1 T2 E.
  pose proof (k_on_at e (starts ts) Hsh all_edges all_proper all_ends _ t (all_in i Hi) T1) as O1.
  pose proof (k_on_at e (starts ts) Hsh all_edges all_proper all_ends _ t (all_in j Hj) T2) as O2. rewrite <- E in O2.
  destruct (td_apart ts Htidy i j _ Hi Hj N1 N2 O1 O2) as (A & B).
  assert (Q : forall k, (k < n)%nat -> at_pos e t (ht (K i) t) = st k \/ at_pos e t (ht (K i) t) = en k -> t = lo (K k) \/ t = hi (K k)).
  { intros k Hk J. destruct (lf k) eqn:L.
    - destruct (K_left k Hk L) as (-> & ->). destruct J as [J|J]; rewrite <- J, pos_at; [left|right]; reflexivity.
    - destruct (K_right k Hk L) as (-> & ->). destruct J as [J|J]; rewrite <- J, pos_at; [right|left]; reflexivity. }
  split; apply Q; assumption.
Qed.
(** Order of slopes. *)
Lemma slopes_left : forall i j, (i < j)%nat -> (j < n)%nat -> st i = st j -> lf i = true -> lf j = true -> sl (K i) < sl (K j).
Proof.
  intros i j Hij Hj E Li Lj. assert (Hi : (i < n)%nat) by lia. destruct (td_order ts Htidy i j Hij Hj E) as (_ & O). rewrite Li, Lj in O. specialize (O eq_refl).
  destruct (edge_left i Hi Li) as (A & B). destruct (K_left i Hi Li) as (C & D). destruct (K_left j Hj Lj) as (C' & D').
  pose proof (K_len i Hi) as L1. pose proof (K_len j Hj) as L2.
  rewrite (cross_line e) in O by (intro J; rewrite C, D, J in L1; qlra).
  assert (H1 : ht (K i) (pos e (en j)) = line_at e (st i) (en i) (pos e (en j))) by (rewrite kp_ht, A, B; reflexivity).
  rewrite <- H1, <- (K_end j Hj) in O.
  pose proof (K_at i Hi) as H2. pose proof (K_at j Hj) as H3. rewrite <- E in H3.
  rewrite C, D in L1. rewrite C', D', <- E in L2. unfold ht in *. clear - O H2 H3 L1 L2. 
  set (a := pos e (st i)) in *. set (b := pos e (en i)) in *. set (c := pos e (en j)) in *. set (p := sl (K i)) in *. set (q := sl (K j)) in *. set (x := ic (K i)) in *. set (y := ic (K j)) in *. set (z := py (st i)) in *.
  clearbody a b c p q x y z.
  assert (O' : 0 < (b - a) * ((q - p) * (c - a))).
  { assert (J : q * c + y - (p * c + x) = (q - p) * (c - a)) by (assert (y = z - q * a) by qlra; assert (x = z - p * a) by qlra; subst; ring). rewrite J in O. exact O. }
  destruct (Qclt_le_dec p q) as [J|J]; [exact J|exfalso].
  assert (0 <= (p - q) * (c - a)) by (apply mul_nonneg; qlra). assert (W : 0 <= (b - a) * ((p - q) * (c - a))) by (apply mul_nonneg; [qlra|assumption]).
  replace ((b - a) * ((p - q) * (c - a))) with (- ((b - a) * ((q - p) * (c - a)))) in W by ring. set (w := (b - a) * ((q - p) * (c - a))) in *. clearbody w. clear - W O'. qlra.
Qed.
Lemma slopes_right : forall i j, (i < j)%nat -> (j < n)%nat -> st i = st j -> lf i = false -> lf j = false -> sl (K j) < sl (K i).
Proof.
  intros i j Hij Hj E Li Lj. assert (Hi : (i < n)%nat) by lia. destruct (td_order ts Htidy i j Hij Hj E) as (_ & O). rewrite Li, Lj in O. specialize (O eq_refl).
  destruct (edge_right i Hi Li) as (A & B). destruct (K_right i Hi Li) as (C & D). destruct (K_right j Hj Lj) as (C' & D').
  pose proof (K_len i Hi) as L1. pose proof (K_len j Hj) as L2.
  assert (O0 : 0 < cross (en i) (st i) (en j)) by (rewrite cross_swap; qlra). clear O.
  rewrite (cross_line e) in O0 by (intro J; rewrite C, D, J in L1; qlra).
  assert (H1 : ht (K i) (pos e (en j)) = line_at e (en i) (st i) (pos e (en j))) by (rewrite kp_ht, A, B; reflexivity).
  rewrite <- H1, <- (K_end j Hj) in O0.
  pose proof (K_at i Hi) as H2. pose proof (K_at j Hj) as H3. rewrite <- E in H3.
  rewrite C, D in L1. rewrite C', D', <- E in L2. unfold ht in *. clear - O0 H2 H3 L1 L2.
  set (a := pos e (st i)) in *. set (b := pos e (en i)) in *. set (c := pos e (en j)) in *. set (p := sl (K i)) in *. set (q := sl (K j)) in *. set (x := ic (K i)) in *. set (y := ic (K j)) in *. set (z := py (st i)) in *.
  clearbody a b c p q x y z.
  assert (O' : 0 < (a - b) * ((p - q) * (a - c))).
  { assert (J : q * c + y - (p * c + x) = (p - q) * (a - c)) by (assert (y = z - q * a) by qlra; assert (x = z - p * a) by qlra; subst; ring). rewrite J in O0. exact O0. }
  destruct (Qclt_le_dec q p) as [J|J]; [exact J|exfalso].
  assert (0 <= (q - p) * (a - c)) by (apply mul_nonneg; qlra). assert (W : 0 <= (a - b) * ((q - p) * (a - c))) by (apply mul_nonneg; [qlra|assumption]).
  replace ((a - b) * ((q - p) * (a - c))) with (- ((a - b) * ((p - q) * (a - c)))) in W by ring. set (w := (a - b) * ((p - q) * (a - c))) in *. clearbody w. clear - W O'. qlra.
Qed.

(** ** Edges of a closed set under an edge *)
Variable Z : nat -> bool.
Hypothesis Zop : forall i, (i < n)%nat -> Z (op i) = Z i.
Hypothesis Zeven : forall p, parity (fun i => Z i && pt_eqb (st i) p) (seq 0 n) = false.
Definition chosen : list nat := filter (fun k => lf k && Z k) (seq 0 n).
Lemma chosen_in : forall k, In k chosen -> (k < n)%nat /\ lf k = true /\ Z k = true.
Proof. intros k H. apply filter_In in H. destruct H as (A & B). apply in_seq in A. apply andb_prop in B. split; [lia|exact B]. Qed.
Definition under (i : nat) : bool := parity (fun k => undermost false (K i) (lo (K i)) (K k)) chosen.
Definition side (i : nat) : bool := xorb (under i) (lf i && Z i).
(** Edges passing strictly under a point. *)
Definition passing (p : point) (k : nat) : bool :=
  Qc_ltb (lo (K k)) (pos e p) && Qc_ltb (pos e p) (hi (K k)) && Qc_ltb (ht (K k) (pos e p)) (py p).
Lemma side_opp : forall i, (i < n)%nat -> side (op i) = xorb (side i) (Z i).
Proof.
  intros i Hi. unfold side, under. rewrite (K_opp i Hi), (td_left ts Htidy i Hi), (Zop i Hi).
  destruct (lf i), (Z i), (parity (fun k => undermost false (K i) (lo (K i)) (K k)) chosen); reflexivity.
Qed.
Lemma under_left : forall i, (i < n)%nat -> lf i = true ->
  under i = xorb (parity (passing (st i)) chosen) (parity (fun k => pt_eqb (st k) (st i) && (k <? i)%nat) chosen).
Proof.
  intros i Hi Li. unfold under. rewrite <- parity_xor. apply parity_ext. intros k Hk. destruct (chosen_in k Hk) as (Lk & Fk & _). clear Hk.
  destruct (K_left i Hi Li) as (Ei & Hii), (K_left k Lk Fk) as (Ek & Hik). pose proof (K_len i Hi) as L1. pose proof (K_len k Lk) as L2.
  unfold undermost, passing. rewrite <- Ei.
  assert (Hp : ht (K i) (lo (K i)) = py (st i)) by (rewrite Ei; apply K_at, Hi).
  destruct (Nat.eq_dec k i) as [->|N].
  - rewrite (ltb_false (lo (K i)) (lo (K i))) by apply Qcle_refl. rewrite Nat.ltb_irrefl, Bool.andb_false_r. cbn [andb xorb].
    unfold germ. rewrite !(ltb_false _ _ (Qcle_refl _)). cbn. rewrite !Bool.andb_false_r. reflexivity.
  - assert (N2 : k <> op i). { intro E. subst k. rewrite (td_left ts Htidy i Hi), Li in Fk. discriminate Fk. }
    destruct (Qc_lt_total (lo (K k)) (lo (K i))) as [J|[J|J]].
    + (* begins before *)
      assert (Ns : pt_eqb (st k) (st i) = false).
      { destruct (pt_eqb_spec (st k) (st i)) as [M|M]; [|reflexivity]. exfalso. rewrite Ei, Ek, M in J. qlra. }
      rewrite Ns, (ltb_true _ _ J). cbn [andb]. rewrite Bool.xorb_false_r.
      destruct (Qc_ltb_spec (lo (K i)) (hi (K k))) as [M|M].
      * rewrite (covers_yes (K k) (lo (K i))) by (try exact M; qlra). cbn [andb]. rewrite germ_apart; [rewrite Hp; reflexivity|].
        intro E. destruct (K_apart i k (lo (K i)) Hi Lk N N2) as (_ & [A|A]); [split; qlra|split; qlra|symmetry; exact E| |]; rewrite A in *; qlra.
      * rewrite (covers_not (K k) (lo (K i))) by (right; qlra). reflexivity.
    + (* begins at the same point *)
      assert (Es : st k = st i) by (apply st_eq; [exact Lk|exact Hi|congruence]).
      rewrite (ltb_false (lo (K k)) (lo (K i))) by qlra. cbn [andb]. rewrite (covers_yes (K k) (lo (K i))) by qlra. cbn [andb].
      destruct (pt_eqb_spec (st k) (st i)) as [_|M]; [|contradiction]. cbn [andb].
      assert (Eh : ht (K k) (lo (K i)) = ht (K i) (lo (K i))) by (rewrite Hp, <- J, Ek, <- Es; apply K_at, Lk).
      unfold germ. rewrite Eh, (ltb_false _ _ (Qcle_refl _)), Qc_eqb_same. cbn [orb andb]. rewrite Bool.orb_false_r.
      destruct (Nat.ltb_spec k i) as [M|M].
      * rewrite (ltb_true _ _ (slopes_left k i M Hi Es Fk Li)). reflexivity.
      * assert (M' : (i < k)%nat) by lia. pose proof (slopes_left i k M' Lk (eq_sym Es) Li Fk) as S. rewrite ltb_false by qlra. reflexivity.
    + (* begins after *)
      assert (Ns : pt_eqb (st k) (st i) = false).
      { destruct (pt_eqb_spec (st k) (st i)) as [M|M]; [|reflexivity]. exfalso. rewrite Ei, Ek, M in J. qlra. }
      rewrite Ns, (ltb_false (lo (K k)) (lo (K i))) by qlra. rewrite (covers_not (K k) (lo (K i))) by (left; exact J). reflexivity.
Qed.
Lemma chosen_even : forall t, parity (fun k => xorb (Qc_eqb t (lo k)) (Qc_eqb t (hi k))) (map (fun i => K i) chosen) = false.
Proof.
  intro t. rewrite parity_map. unfold chosen. rewrite parity_filter.
  assert (Pm : Permutation (map op (seq 0 n)) (seq 0 n)) by exact opp_perm.
  assert (Al : parity (fun k => Z k && Qc_eqb t (pos e (st k))) (seq 0 n) = false).
  { destruct (existsb (fun k => Qc_eqb t (pos e (st k))) (seq 0 n)) eqn:Ex.
    - apply existsb_exists in Ex. destruct Ex as (i & Hi & E). apply in_seq in Hi. destruct (Qc_eqb_spec t (pos e (st i))) as [->|]; [|discriminate E].
      rewrite <- (Zeven (st i)). apply parity_ext. intros k Hk. apply in_seq in Hk. f_equal.
      destruct (Qc_eqb_spec (pos e (st i)) (pos e (st k))) as [J|J], (pt_eqb_spec (st k) (st i)) as [M|M]; try reflexivity.
      + exfalso. apply M. apply st_eq; [lia|lia|symmetry; exact J].
      + exfalso. apply J. rewrite M. reflexivity.
    - apply parity_none. intros k Hk. destruct (Qc_eqb t (pos e (st k))) eqn:J; [|apply Bool.andb_false_r]. exfalso.
      assert (X : existsb (fun k => Qc_eqb t (pos e (st k))) (seq 0 n) = true) by (apply existsb_exists; exists k; split; assumption). congruence. }
  assert (E2 : parity (fun k => negb (lf k) && Z k && Qc_eqb t (pos e (st k))) (seq 0 n) = parity (fun k => lf k && Z k && Qc_eqb t (pos e (en k))) (seq 0 n)).
  { rewrite <- (parity_perm _ _ _ Pm), parity_map. apply parity_ext. intros k Hk. apply in_seq in Hk.
    rewrite (td_left ts Htidy k), (Zop k), (en_st k), Bool.negb_involutive by lia. reflexivity. }
  rewrite <- Al. rewrite (parity_ext (fun k => Z k && Qc_eqb t (pos e (st k)))
    (fun k => xorb (lf k && Z k && Qc_eqb t (pos e (st k))) (negb (lf k) && Z k && Qc_eqb t (pos e (st k))))).
  - rewrite parity_xor, E2, <- parity_xor. apply parity_ext. intros k Hk. apply in_seq in Hk.
    destruct (lf k) eqn:L; cbn [andb xorb]; [|reflexivity]. destruct (K_left k ltac:(lia) L) as (-> & ->). destruct (Z k); reflexivity.
  - intros k _. destruct (lf k), (Z k), (Qc_eqb t (pos e (st k))); reflexivity.
Qed.
(** An edge which ends at a point, just before it. *)
Lemma under_right : forall i, (i < n)%nat -> lf i = false ->
  under i = xorb (parity (passing (st i)) chosen) (parity (fun k => pt_eqb (en k) (st i) && (op k <? i)%nat) chosen).
Proof.
  intros i Hi Li. destruct (K_right i Hi Li) as (Ei & Hii). pose proof (K_len i Hi) as L1.
  destruct (gap_before (map (pos e) (starts ts)) _ _ L1) as (u & U1 & U2 & Ug).
  assert (Gap : forall k, (k < n)%nat -> pos e (st k) < hi (K i) -> pos e (st k) < u).
  { intros k Hk J. apply Ug; [apply in_map, st_in, Hk|exact J]. }
  assert (Eu : under i = parity (fun k => undermost false (K i) u (K k)) chosen).
  { unfold under. rewrite <- (parity_map _ _ (fun k => K k) (undermost false (K i) (lo (K i)))), <- (parity_map _ _ (fun k => K k) (undermost false (K i) u)).
    symmetry. apply (along_range (V e (starts ts))); [qlra| |].
    - intros k Hk. apply in_map_iff in Hk. destruct Hk as (j & <- & Hj). destruct (chosen_in j Hj) as (Lj & Fj & _).
      split; [exact (K_len j Lj)|]. destruct (k_V e (starts ts) Hsh all_edges all_proper all_ends _ (all_in j Lj)) as (V1 & V2). split; [exact V1|]. split; [exact V2|].
      intros t A B Ht E. right. destruct (Nat.eq_dec j (op i)) as [->|N].
      + rewrite (K_opp i Hi). split; [apply coll_refl|]. split; [apply Qcle_refl|exact U2].
      + exfalso. assert (N2 : j <> i) by (intro; subst j; congruence).
        destruct (K_apart i j t Hi Lj N2 N) as ([X|X] & _); [split; qlra|exact Ht|symmetry; exact E| |]; rewrite X in *; qlra.
    - intros t _ _. apply chosen_even. }
  rewrite Eu, <- parity_xor. apply parity_ext. intros k Hk. destruct (chosen_in k Hk) as (Lk & Fk & _). clear Hk Eu.
  destruct (K_left k Lk Fk) as (Ek & Hik). pose proof (K_len k Lk) as L2. pose proof (opp_lt k Lk) as Lo.
  unfold undermost, passing. rewrite <- Hii.
  assert (Hp : ht (K i) (hi (K i)) = py (st i)) by (rewrite Hii; apply K_at, Hi).
  destruct (Nat.eq_dec k (op i)) as [->|N].
  - rewrite (K_opp i Hi). rewrite (ltb_false (hi (K i)) (hi (K i))) by apply Qcle_refl. rewrite (opp_opp i Hi), Nat.ltb_irrefl, !Bool.andb_false_r. cbn [andb xorb].
    unfold germ. rewrite !(ltb_false _ _ (Qcle_refl _)). cbn. rewrite !Bool.andb_false_r. reflexivity.
  - assert (N2 : k <> i) by (intro; subst k; congruence).
    assert (Ns : hi (K k) <> hi (K i) -> pt_eqb (en k) (st i) = false).
    { intro J. destruct (pt_eqb_spec (en k) (st i)) as [M|M]; [|reflexivity]. exfalso. apply J. rewrite Hii, Hik, M. reflexivity. }
    destruct (Qc_lt_total (hi (K k)) (hi (K i))) as [J|[J|J]].
    + rewrite Ns by (intro X; rewrite X in J; qlra). rewrite (ltb_false (hi (K i)) (hi (K k))) by qlra. rewrite !Bool.andb_false_r. cbn [andb xorb].
      rewrite covers_not; [reflexivity|]. right. rewrite Hik, (en_st k Lk) in *. pose proof (Gap (op k) Lo J). qlra.
    + assert (Es : en k = st i) by (rewrite (en_st k Lk) in *; apply st_eq; [exact Lo|exact Hi|congruence]).
      rewrite (ltb_false (hi (K i)) (hi (K k))) by (rewrite J; apply Qcle_refl). rewrite !Bool.andb_false_r. cbn [andb xorb].
      destruct (pt_eqb_spec (en k) (st i)) as [_|M]; [|contradiction]. cbn [andb].
      assert (Eo : st (op k) = st i) by (rewrite <- (en_st k Lk); exact Es).
      assert (Fo : lf (op k) = false) by (rewrite (td_left ts Htidy k Lk), Fk; reflexivity).
      assert (Eh : ht (K k) (hi (K i)) = ht (K i) (hi (K i))) by (rewrite Hp, <- J, Hik, <- Es; apply K_end, Lk).
      rewrite covers_yes; [cbn [andb]| |rewrite J; exact U2].
      2:{ rewrite Ek. apply Qclt_le_weak, Gap; [exact Lk|]. rewrite <- Ek, <- J. exact L2. }
      destruct (Nat.ltb_spec (op k) i) as [M|M].
      * pose proof (slopes_right (op k) i M Hi Eo Fo Li) as S. rewrite (K_opp k Lk) in S.
        pose proof (ht_before (K i) (K k) (hi (K i)) u (eq_sym Eh) S U2) as Q. rewrite germ_apart by (intro X; rewrite X in Q; qlra). apply ltb_true. exact Q.
      * assert (M' : (i < op k)%nat). { destruct (Nat.eq_dec i (op k)) as [X|X]; [|lia]. exfalso. apply N. rewrite X. symmetry. apply opp_opp, Lk. }
        pose proof (slopes_right i (op k) M' Lo (eq_sym Eo) Li Fo) as S. rewrite (K_opp k Lk) in S.
        pose proof (ht_before (K k) (K i) (hi (K i)) u Eh S U2) as Q. rewrite germ_apart by (intro X; rewrite X in Q; qlra). apply ltb_false. qlra.
    + rewrite Ns by (intro X; rewrite X in J; qlra). cbn [andb]. rewrite Bool.xorb_false_r. rewrite (ltb_true (hi (K i)) (hi (K k)) J), Bool.andb_true_r.
      destruct (Qc_ltb_spec (lo (K k)) (hi (K i))) as [M|M].
      * assert (Lu : lo (K k) < u) by (rewrite Ek in *; apply Gap; assumption).
        rewrite covers_yes by qlra. cbn [andb]. rewrite (germ_ahead false (K k) (K i) u (hi (K i)) U2); [rewrite Hp; reflexivity|].
        intros t T1 T2 E. destruct (K_apart i k t Hi Lk N2 N) as ([X|X] & Y); [split; qlra|split; qlra|symmetry; exact E| |].
        { rewrite X in *. qlra. } { destruct Y as [Y|Y]; rewrite X in *; rewrite Y in *; qlra. }
      * rewrite covers_not by (left; qlra). reflexivity.
Qed.
End Faces.

(** Every closed set of edges has sides. *)
Theorem faces_at : forall (ts : list traced) (vtx : nat -> nat) (c : list nat), paired ts -> tidy ts -> grouped (starts ts) ->
  (forall i j, (i < length ts)%nat -> (j < length ts)%nat -> vtx i = vtx j <-> t_start (tev ts i) = t_start (tev ts j)) ->
  events_to_connectivity ts = Ok c ->
  forall e, Sheared e (starts ts) -> forall Z, closed (length ts) vtx (opp ts) Z -> sides (length ts) (opp ts) (fun i => nth i c O) Z (side ts e Z).
Proof.
  intros ts vtx c Hpair Htidy Hgroup Hids Hconn e Hsh Z (Zop & Zev).
  assert (Zeven : forall p, parity (fun i => Z i && pt_eqb (t_start (tev ts i)) p) (seq 0 (length ts)) = false).
  { intro p. destruct (existsb (fun i => pt_eqb (t_start (tev ts i)) p) (seq 0 (length ts))) eqn:Ex.
    - apply existsb_exists in Ex. destruct Ex as (j & Hj & E). apply in_seq in Hj. destruct (pt_eqb_spec (t_start (tev ts j)) p) as [<-|]; [|discriminate E].
      rewrite <- (Zev (vtx j)). apply parity_ext. intros i Hi. apply in_seq in Hi. f_equal.
      destruct (pt_eqb_spec (t_start (tev ts i)) (t_start (tev ts j))) as [M|M], (Nat.eqb_spec (vtx i) (vtx j)) as [M'|M']; try reflexivity; exfalso.
      + apply M'. apply Hids; [lia|lia|exact M].
      + apply M. apply Hids; [lia|lia|exact M'].
    - apply parity_none. intros i Hi. destruct (pt_eqb (t_start (tev ts i)) p) eqn:J; [|apply Bool.andb_false_r]. exfalso.
      assert (X : existsb (fun i => pt_eqb (t_start (tev ts i)) p) (seq 0 (length ts)) = true) by (apply existsb_exists; exists i; split; assumption). congruence. }
  split; [apply side_opp; assumption|].
  destruct (connectivity_cycles ts) as (c' & E' & Ln & C). rewrite Hconn in E'. injection E' as <-.
  intros i Hi. destruct (C i Hi) as (a & m & b & H1 & H2 & H3 & H4 & H5 & H6 & Rs & Ls).
  assert (Sb : forall j, (a <= j < b)%nat -> t_start (tev ts j) = t_start (tev ts a)) by (intros j Hj; apply H4, Hj).
  assert (Gr : forall j, (j < length ts)%nat -> t_start (tev ts j) = t_start (tev ts a) -> (a <= j < b)%nat).
  { intros j Hj E. apply (group_of ts a b a Hgroup); try assumption; lia. }
  assert (Lf : forall j, (m <= j < b)%nat -> t_left (tev ts j) = true).
  { intros j Hj. destruct (Nat.eq_dec j m) as [->|N]; [apply Ls; lia|].
    apply (proj1 (td_order ts Htidy m j ltac:(lia) ltac:(lia) ltac:(rewrite (Sb m) by lia; rewrite (Sb j) by lia; reflexivity))). apply Ls. lia. }
  set (X := parity (passing ts e (t_start (tev ts a))) (chosen ts Z)).
  assert (Tot : parity Z (seq a (b - a)) = false).
  { rewrite <- (Zeven (t_start (tev ts a))), <- (parity_run Z (length ts) a b) by lia. apply parity_ext. intros k Hk. apply in_seq in Hk.
    destruct (pt_eqb_spec (t_start (tev ts k)) (t_start (tev ts a))) as [M|M].
    - pose proof (Gr k ltac:(lia) M). destruct (Nat.leb_spec a k), (Nat.ltb_spec k b); try lia. destruct (Z k); reflexivity.
    - destruct (Nat.leb_spec a k), (Nat.ltb_spec k b); cbn [andb]; rewrite ?Bool.andb_false_r; try reflexivity. exfalso. apply M, Sb. lia. }
  assert (Ul : forall j, (m <= j < b)%nat -> side ts e Z j = xorb X (parity Z (seq m (S j - m)))).
  { intros j Hj. unfold side. rewrite (under_left ts Hpair Htidy e Hsh Z j ltac:(lia) (Lf j Hj)), (Lf j Hj), (Sb j) by lia. fold X.
    replace (S j - m)%nat with ((j - m) + 1)%nat by lia. rewrite seq_app, parity_app. cbn [seq parity]. replace (m + (j - m))%nat with j by lia.
    cbn [andb]. rewrite Bool.xorb_false_r, Bool.xorb_assoc. do 2 f_equal. unfold chosen. rewrite parity_filter, <- (parity_run Z (length ts) m j) by lia.
    apply parity_ext. intros k Hk. apply in_seq in Hk. destruct (pt_eqb_spec (t_start (tev ts k)) (t_start (tev ts a))) as [M|M].
    - pose proof (Gr k ltac:(lia) M). destruct (Nat.leb_spec m k) as [Q|Q]; [rewrite (Lf k) by lia|rewrite (Rs k) by lia]; cbn [andb]; [|reflexivity].
      destruct (Z k), (k <? j)%nat; reflexivity.
    - rewrite !Bool.andb_false_r. destruct (Nat.leb_spec m k), (Nat.ltb_spec k j); try reflexivity. exfalso. apply M, Sb. lia. }
  assert (Ur : forall j, (a <= j < m)%nat -> side ts e Z j = xorb X (parity Z (seq a (j - a)))).
  { intros j Hj. unfold side. rewrite (under_right ts Hpair Htidy e Hsh Z Zop Zeven j ltac:(lia) (Rs j Hj)), (Rs j Hj), (Sb j) by lia. fold X.
    cbn [andb]. rewrite Bool.xorb_false_r. f_equal. unfold chosen. rewrite parity_filter, <- (parity_run Z (length ts) a j) by lia.
    assert (Pm : Permutation (map (opp ts) (seq 0 (length ts))) (seq 0 (length ts))) by (apply opp_perm; exact Hpair).
    rewrite <- (parity_perm (fun k => ((a <=? k) && (k <? j))%nat && Z k) _ _ Pm), parity_map.
    apply parity_ext. intros k Hk. apply in_seq in Hk.
    rewrite (en_st ts Hpair k) by lia.
    pose proof (opp_lt ts Hpair k ltac:(lia)) as Lo. rewrite Zop by lia.
    destruct (pt_eqb_spec (t_start (tev ts (opp ts k))) (t_start (tev ts a))) as [M|M].
    - pose proof (Gr (opp ts k) Lo M) as Q.
      pose proof (td_left ts Htidy k ltac:(lia)) as T.
      destruct (Nat.leb_spec a (opp ts k)) as [_|]; [|lia]. cbn [andb]. destruct (Nat.ltb_spec (opp ts k) j) as [W|W]; [|rewrite !Bool.andb_false_r; reflexivity].
      rewrite (Rs (opp ts k)) in T by lia. destruct (t_left (tev ts k)); [|discriminate T]. destruct (Z k); reflexivity.
    - cbn [andb]. rewrite !Bool.andb_false_r. destruct (Nat.leb_spec a (opp ts k)), (Nat.ltb_spec (opp ts k) j); try reflexivity. exfalso. apply M, Sb. lia. }
  destruct (H4 i H1) as (-> & _). unfold turn.
  destruct (Nat.ltb_spec i m) as [Q|Q].
  - rewrite (Ur i) by lia. destruct (Nat.ltb_spec (S i) m) as [W|W].
    + rewrite (Ur (S i)) by lia. replace (S i - a)%nat with ((i - a) + 1)%nat by lia. rewrite seq_app, parity_app. cbn [seq parity]. replace (a + (i - a))%nat with i by lia.
      rewrite Bool.xorb_false_r, Bool.xorb_assoc. reflexivity.
    + assert (Em : (m = a + (i - a) + 1)%nat) by lia.
      assert (Ef : parity Z (seq a (m - a)) = xorb (parity Z (seq a (i - a))) (Z i)).
      { replace (m - a)%nat with ((i - a) + 1)%nat by lia. rewrite seq_app, parity_app. cbn [seq parity]. replace (a + (i - a))%nat with i by lia. rewrite Bool.xorb_false_r. reflexivity. }
      destruct (Nat.ltb_spec m b) as [V|V].
      * rewrite (Ul (b - 1)%nat) by lia. replace (S (b - 1) - m)%nat with (b - m)%nat by lia.
        replace (b - a)%nat with ((m - a) + (b - m))%nat in Tot by lia. rewrite seq_app, parity_app in Tot. replace (a + (m - a))%nat with m in Tot by lia. rewrite Ef in Tot.
        clear - Tot. destruct X, (parity Z (seq a (i - a))), (Z i), (parity Z (seq m (b - m))); cbn in *; congruence.
      * rewrite (Ur a) by lia. rewrite Nat.sub_diag. cbn [seq parity]. replace (b - a)%nat with (m - a)%nat in Tot by lia. rewrite Ef in Tot.
        clear - Tot. destruct X, (parity Z (seq a (i - a))), (Z i); cbn in *; congruence.
  - rewrite (Ul i) by lia. destruct (Nat.eqb_spec i m) as [W|W].
    + subst i. replace (S m - m)%nat with 1%nat by lia. cbn [seq parity]. destruct (Nat.ltb_spec a m) as [V|V].
      * rewrite (Ur a) by lia. rewrite Nat.sub_diag. cbn [seq parity]. clear. destruct X, (Z m); reflexivity.
      * rewrite (Ul (b - 1)%nat) by lia. replace (S (b - 1) - m)%nat with (b - a)%nat by lia. replace m with a in * by lia. rewrite Tot. clear. destruct X, (Z a); reflexivity.
    + rewrite (Ul (i - 1)%nat) by lia. replace (S (i - 1) - m)%nat with (i - m)%nat by lia. replace (S i - m)%nat with ((i - m) + 1)%nat by lia.
      rewrite seq_app, parity_app. cbn [seq parity]. replace (m + (i - m))%nat with i by lia. clear. destruct X, (Z i), (parity Z (seq m (i - m))); reflexivity.
Qed.
Theorem faces : forall (ts : list traced) (vtx : nat -> nat) (c : list nat), paired ts -> tidy ts -> grouped (starts ts) ->
  (forall i j, (i < length ts)%nat -> (j < length ts)%nat -> vtx i = vtx j <-> t_start (tev ts i) = t_start (tev ts j)) ->
  events_to_connectivity ts = Ok c ->
  forall Z, closed (length ts) vtx (opp ts) Z -> exists sg, sides (length ts) (opp ts) (fun i => nth i c O) Z sg.
Proof.
  intros ts vtx c Hpair Htidy Hgroup Hids Hconn Z HZ. destruct (shear_exists (starts ts)) as (e & _ & Hsh).
  exists (side ts e Z). exact (faces_at ts vtx c Hpair Htidy Hgroup Hids Hconn e Hsh Z HZ).
Qed.
