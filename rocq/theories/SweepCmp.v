(** Link between the sweep model and its abstract view: pieces of a state in
    sheared coordinates, meaning of both comparisons, search in the tree.
    Proof support only, no part of /repo is modelled here. *)
From Coq Require Import Permutation.
From Verif Require Import QcTac Geom Spec GeomFacts Relation SweepGeo SweepInv SweepSteps Sweep.

(** ** Pieces of a state *)
Definition pc (e : Qc) (s : state) (i : nat) : piece :=
  let a := l_start (lft s i) in let b := end_of s i in
  Piece (pos e a) (pos e b) (slope e a b) (py a - slope e a b * pos e a) (l_first (lft s i)).

Lemma pc_ht : forall e s i t, ht (pc e s i) t = line_at e (l_start (lft s i)) (end_of s i) t.
Proof. intros. unfold ht, pc. cbn. symmetry. apply line_aff. Qed.
Lemma pc_ht_lo : forall e s i, ht (pc e s i) (lo (pc e s i)) = py (l_start (lft s i)).
Proof. intros. rewrite pc_ht. apply line_at_start. Qed.
Lemma pc_ht_hi : forall e s i, lo (pc e s i) < hi (pc e s i) ->
  ht (pc e s i) (hi (pc e s i)) = py (end_of s i).
Proof. intros e s i H. rewrite pc_ht. apply line_at_end. cbn in H. intro J. rewrite J in H. qlra. Qed.

Lemma pc_on : forall e s i p, lo (pc e s i) < hi (pc e s i) ->
  (on_segment p (seg_of s i) <-> has (pc e s i) (pos e p) /\ py p = ht (pc e s i) (pos e p)).
Proof.
  intros e s i p H. unfold seg_of. rewrite (on_segment_sheared e _ _ p H). rewrite pc_ht.
  unfold has. cbn. tauto.
Qed.
Lemma pc_on_at : forall e s i t, lo (pc e s i) < hi (pc e s i) -> has (pc e s i) t ->
  on_segment (at_pos e t (ht (pc e s i) t)) (seg_of s i).
Proof. intros e s i t H J. apply (pc_on e s i _ H). rewrite pos_at, py_at. split; [exact J|reflexivity]. Qed.

(** ** The sweep line order *)
Section Affine.
Variables (x y : piece).
Hypothesis Hx : lo x < hi x.
Hypothesis Hy : lo y < hi y.
Hypothesis Hxy : lo x <= hi y.
Hypothesis Hyx : lo y <= hi x.

Definition gap (t : Qc) : Qc := ht y t - ht x t.
Lemma gap_up : forall a b, sl x < sl y -> a <= b -> gap a <= gap b /\ (a < b -> gap a < gap b).
Proof. unfold gap, ht. intros a b H J. split; intros; qnra. Qed.
Lemma gap_down : forall a b, sl y < sl x -> a <= b -> gap b <= gap a /\ (a < b -> gap b < gap a).
Proof. unfold gap, ht. intros a b H J. split; intros; qnra. Qed.
Lemma gap_flat : forall a b, sl y = sl x -> gap a = gap b.
Proof. unfold gap, ht. intros a b H. rewrite H. qring. Qed.

Lemma gap_below : below x y <->
  0 < gap (Qc_max (lo x) (lo y))
  \/ (gap (Qc_max (lo x) (lo y)) = 0 /\ (sl x < sl y \/ (sl x = sl y /\ op x = true /\ op y = false))).
Proof.
  unfold below, gap. set (m := Qc_max (lo x) (lo y)). split; (intros [H|(H & J)]; [left; qlra|right; split; [qlra|exact J]]).
Qed.

(** The decision made by the code, as a function of four signs. *)
Definition decision (a b c d : orientation) (collinear : bool) : bool :=
  if orientation_eqb a b
  then (if negb (orientation_eqb a COLLINEAR) then orientation_eqb a COUNTERCLOCKWISE else collinear)
  else if orientation_eqb c d then orientation_eqb c CLOCKWISE
  else if orientation_eqb a COLLINEAR then orientation_eqb b COUNTERCLOCKWISE
  else if orientation_eqb c COLLINEAR then orientation_eqb d CLOCKWISE
  else if orientation_eqb d COLLINEAR then orientation_eqb c CLOCKWISE
  else orientation_eqb a COUNTERCLOCKWISE.

Lemma decision_below : forall coll_, (coll x y -> (coll_ = true <-> op x = true /\ op y = false)) ->
  (decision (sgn (gap (lo y))) (sgn (gap (hi y))) (sgn (- gap (lo x))) (sgn (- gap (hi x))) coll_ = true
   <-> below x y).
Proof.
  intros coll_ Hc. rewrite gap_below.
  assert (Hm : (Qc_max (lo x) (lo y) = lo x /\ lo y <= lo x) \/ (Qc_max (lo x) (lo y) = lo y /\ lo x < lo y))
    by (apply Qc_max_cases).
  destruct (Qc_lt_total (sl x) (sl y)) as [Hs|[Hs|Hs]].
  - pose proof (proj2 (gap_up _ _ Hs (Qclt_le_weak _ _ Hx)) Hx).
    pose proof (proj2 (gap_up _ _ Hs (Qclt_le_weak _ _ Hy)) Hy).
    pose proof (proj1 (gap_up _ _ Hs Hxy)). pose proof (proj1 (gap_up _ _ Hs Hyx)).
    destruct Hm as [(-> & Hm)|(-> & Hm)].
    + pose proof (proj1 (gap_up _ _ Hs Hm)).
      destruct (sgnP (gap (lo y))), (sgnP (gap (hi y))), (sgnP (- gap (lo x))), (sgnP (- gap (hi x))); cbn;
        try (exfalso; qlra); (split; [intro J; try discriminate J|]); try reflexivity;
        try (left; qlra); try (right; split; [qlra|left; exact Hs]); intros [J|(J & _)]; qlra.
    + pose proof (proj2 (gap_up _ _ Hs (Qclt_le_weak _ _ Hm)) Hm).
      destruct (sgnP (gap (lo y))), (sgnP (gap (hi y))), (sgnP (- gap (lo x))), (sgnP (- gap (hi x))); cbn;
        try (exfalso; qlra); (split; [intro J; try discriminate J|]); try reflexivity;
        try (left; qlra); try (right; split; [qlra|left; exact Hs]); intros [J|(J & _)]; qlra.
  - pose proof (gap_flat (lo x) (lo y) (eq_sym Hs)) as E1. pose proof (gap_flat (hi x) (lo y) (eq_sym Hs)) as E2.
    pose proof (gap_flat (hi y) (lo y) (eq_sym Hs)) as E3. rewrite E1, E2, E3.
    assert (Em : gap (Qc_max (lo x) (lo y)) = gap (lo y)) by (apply gap_flat; symmetry; exact Hs). rewrite Em.
    destruct (sgnP (gap (lo y))) as [Hg|Hg|Hg]; cbn.
    + split; [discriminate|]. intros [J|(J & _)]; qlra.
    + assert (K : coll x y) by (apply (ht_slopes x y (lo y)); [unfold gap in Hg; qlra|exact Hs]).
      rewrite (Hc K). split.
      * intros J. right. split; [exact Hg|right; split; [exact Hs|exact J]].
      * intros [J|(_ & [J|(_ & J)])]; [qlra|qlra|exact J].
    + split; [intros _; left; exact Hg|reflexivity].
  - pose proof (proj2 (gap_down _ _ Hs (Qclt_le_weak _ _ Hx)) Hx).
    pose proof (proj2 (gap_down _ _ Hs (Qclt_le_weak _ _ Hy)) Hy).
    pose proof (proj1 (gap_down _ _ Hs Hxy)). pose proof (proj1 (gap_down _ _ Hs Hyx)).
    destruct Hm as [(-> & Hm)|(-> & Hm)].
    + pose proof (proj1 (gap_down _ _ Hs Hm)).
      destruct (sgnP (gap (lo y))), (sgnP (gap (hi y))), (sgnP (- gap (lo x))), (sgnP (- gap (hi x))); cbn;
        try (exfalso; qlra); (split; [intro J; try discriminate J|]); try reflexivity;
        try (left; qlra); intros [J|(J & [J'|(J' & _)])]; qlra.
    + pose proof (proj2 (gap_down _ _ Hs (Qclt_le_weak _ _ Hm)) Hm).
      destruct (sgnP (gap (lo y))), (sgnP (gap (hi y))), (sgnP (- gap (lo x))), (sgnP (- gap (hi x))); cbn;
        try (exfalso; qlra); (split; [intro J; try discriminate J|]); try reflexivity;
        try (left; qlra); intros [J|(J & [J'|(J' & _)])]; qlra.
Qed.
End Affine.

Lemma line_ltb_decision : forall s i j, i <> j -> binary_line_ltb s i j =
  decision (orient (l_start (lft s i)) (end_of s i) (l_start (lft s j)))
           (orient (l_start (lft s i)) (end_of s i) (end_of s j))
           (orient (l_start (lft s j)) (end_of s j) (l_start (lft s i)))
           (orient (l_start (lft s j)) (end_of s j) (end_of s i))
           (if negb (Bool.eqb (l_first (lft s i)) (l_first (lft s j))) then l_first (lft s i)
            else collinear_ltb (l_start (lft s i)) (end_of s i) (l_start (lft s j)) (end_of s j)).
Proof.
  intros s i j H. unfold binary_line_ltb, decision, crossing_ltb. apply Nat.eqb_neq in H. rewrite H. reflexivity.
Qed.

Lemma binary_line_ltb_below : forall e s i j, i <> j ->
  lo (pc e s i) < hi (pc e s i) -> lo (pc e s j) < hi (pc e s j) ->
  lo (pc e s i) <= hi (pc e s j) -> lo (pc e s j) <= hi (pc e s i) ->
  ~ (coll (pc e s i) (pc e s j) /\ op (pc e s i) = op (pc e s j)) ->
  (binary_line_ltb s i j = true <-> below (pc e s i) (pc e s j)).
Proof.
  intros e s i j Hij Hi Hj H1 H2 Hn. rewrite (line_ltb_decision s i j Hij).
  rewrite !(orient_line e) by (exact Hi || exact Hj).
  rewrite <- !(pc_ht e).
  assert (E1 : py (l_start (lft s j)) - ht (pc e s i) (pos e (l_start (lft s j))) = gap (pc e s i) (pc e s j) (lo (pc e s j)))
    by (unfold gap; rewrite pc_ht_lo; reflexivity).
  assert (E2 : py (end_of s j) - ht (pc e s i) (pos e (end_of s j)) = gap (pc e s i) (pc e s j) (hi (pc e s j)))
    by (unfold gap; rewrite (pc_ht_hi e s j Hj); reflexivity).
  assert (E3 : py (l_start (lft s i)) - ht (pc e s j) (pos e (l_start (lft s i))) = - gap (pc e s i) (pc e s j) (lo (pc e s i)))
    by (unfold gap; rewrite pc_ht_lo; cbn [lo pc]; qring).
  assert (E4 : py (end_of s i) - ht (pc e s j) (pos e (end_of s i)) = - gap (pc e s i) (pc e s j) (hi (pc e s i)))
    by (unfold gap; rewrite (pc_ht_hi e s i Hi); cbn [hi pc]; qring).
  rewrite E1, E2, E3, E4. apply decision_below; try assumption.
  intros K. cbn [op pc]. destruct (Bool.bool_dec (l_first (lft s i)) (l_first (lft s j))) as [E|E].
  - exfalso. apply Hn. split; [exact K|exact E].
  - rewrite (proj2 (Bool.eqb_false_iff _ _) E). cbn [negb].
    destruct (l_first (lft s i)), (l_first (lft s j)); split; intuition congruence.
Qed.
Lemma binary_line_ltb_irrefl : forall s i, binary_line_ltb s i i = false.
Proof. intros. unfold binary_line_ltb. rewrite Nat.eqb_refl. reflexivity. Qed.

(** ** The events queue order *)
Definition evn (s : state) (ev : event) : bool * nat :=
  match ev with EL i => (true, i) | ER r => (false, r_left (rgt s r)) end.

(** Lexicographic order of keys of events. *)
Definition kless (p : nat -> piece) (a b : bool * nat) : Prop :=
  let t (x : bool * nat) := if fst x then lo (p (snd x)) else hi (p (snd x)) in
  t a < t b
  \/ (t a = t b
      /\ ((fst a = false /\ fst b = true)
          \/ (fst a = fst b
              /\ ((if fst a then sl (p (snd a)) < sl (p (snd b)) else sl (p (snd b)) < sl (p (snd a)))
                  \/ (sl (p (snd a)) = sl (p (snd b)) /\ op (p (snd a)) = false /\ op (p (snd b)) = true))))).

Lemma kless_irrefl : forall p a, ~ kless p a a.
Proof.
  intros p (b, i) [H|(_ & [(H & J)|(_ & [H|(_ & H & J)])])]; cbn in *; try qlra; try congruence.
  destruct b; qlra.
Qed.
Lemma kless_trans : forall p a b c, kless p a b -> kless p b c -> kless p a c.
Proof.
  unfold kless. intros p (b1, i) (b2, j) (b3, k). cbn [fst snd].
  intros [H|(H & H')] [J|(J & J')]; [left; qlra|left; rewrite <- J; exact H|left; rewrite H; exact J|right].
  split; [congruence|].
  destruct H' as [(H1 & H2)|(H1 & H2)], J' as [(J1 & J2)|(J1 & J2)]; try (left; split; congruence).
  right. split; [congruence|]. subst b2 b3.
  destruct H2 as [H2|(H2 & H3 & H4)], J2 as [J2|(J2 & J3 & J4)]; try congruence; left; destruct b1; qlra.
Qed.
Lemma kless_total : forall p a b, kless p a b \/ kless p b a
  \/ (fst a = fst b /\ (if fst a then lo (p (snd a)) = lo (p (snd b)) else hi (p (snd a)) = hi (p (snd b)))
      /\ sl (p (snd a)) = sl (p (snd b)) /\ op (p (snd a)) = op (p (snd b))).
Proof.
  unfold kless. intros p (b1, i) (b2, j). cbn [fst snd].
  destruct (Qc_lt_total (if b1 then lo (p i) else hi (p i)) (if b2 then lo (p j) else hi (p j))) as [H|[H|H]];
    [left; left; exact H| |right; left; left; exact H].
  destruct (Qc_lt_total (sl (p i)) (sl (p j))) as [J|[J|J]].
  - destruct b1, b2.
    + left. right. split; [exact H|right; split; [reflexivity|left; exact J]].
    + right. left. right. split; [symmetry; exact H|left; split; reflexivity].
    + left. right. split; [exact H|left; split; reflexivity].
    + right. left. right. split; [symmetry; exact H|right; split; [reflexivity|left; exact J]].
  - destruct (op (p i)) eqn:Ei, (op (p j)) eqn:Ej, b1, b2;
      try (left; right; split; [exact H|left; split; reflexivity]);
      try (right; left; right; split; [symmetry; exact H|left; split; reflexivity]);
      try (right; right; split; [reflexivity|split; [exact H|split; [exact J|reflexivity]]]);
      try (left; right; split; [exact H|right; split; [reflexivity|right; split; [exact J|split; reflexivity]]]);
      (right; left; right; split; [symmetry; exact H|right; split; [reflexivity|right; split; [symmetry; exact J|split; reflexivity]]]).
  - destruct b1, b2.
    + right. left. right. split; [symmetry; exact H|right; split; [reflexivity|left; exact J]].
    + right. left. right. split; [symmetry; exact H|left; split; reflexivity].
    + left. right. split; [exact H|left; split; reflexivity].
    + left. right. split; [exact H|right; split; [reflexivity|left; exact J]].
Qed.

(** ** Well-formed stores of events *)
Definition in_range (s : state) (ev : event) : Prop :=
  match ev with EL i => (i < length (lefts s))%nat | ER r => (r < length (rights s))%nat end.
Record wf (s : state) : Prop := {
  w_len : length (rights s) = length (lefts s);
  w_lr : forall i, (i < length (lefts s))%nat ->
    (l_right (lft s i) < length (rights s))%nat /\ r_left (rgt s (l_right (lft s i))) = i;
  w_rl : forall r, (r < length (rights s))%nat ->
    (r_left (rgt s r) < length (lefts s))%nat /\ l_right (lft s (r_left (rgt s r))) = r;
  w_q : forall ev, In ev (queue s) -> in_range s ev
}.

Lemma left_of_range : forall s ev, wf s -> in_range s ev -> (left_of s ev < length (lefts s))%nat.
Proof. intros s [i|r] H J; [exact J|exact (proj1 (w_rl s H r J))]. Qed.
Lemma evn_left : forall s ev, evn s ev = (is_left ev, left_of s ev).
Proof. intros s [i|r]; reflexivity. Qed.
Lemma evn_inj : forall s a b, wf s -> in_range s a -> in_range s b -> evn s a = evn s b -> a = b.
Proof.
  intros s [i|r] [j|q] H Ha Hb E; cbn in E; try discriminate E.
  - injection E as ->. reflexivity.
  - injection E as E. f_equal. rewrite <- (proj2 (w_rl s H r Ha)), <- (proj2 (w_rl s H q Hb)), E. reflexivity.
Qed.
Lemma ev_start_pos : forall e s ev, wf s -> in_range s ev ->
  pos e (ev_start s ev) = (if is_left ev then lo (pc e s (left_of s ev)) else hi (pc e s (left_of s ev))).
Proof.
  intros e s [i|r] H J; [reflexivity|]. cbn. unfold end_of. rewrite (proj2 (w_rl s H r J)). reflexivity.
Qed.
Lemma ev_end_pos : forall e s ev, wf s -> in_range s ev ->
  pos e (ev_end s ev) = (if is_left ev then hi (pc e s (left_of s ev)) else lo (pc e s (left_of s ev))).
Proof. intros e s [i|r] H J; reflexivity. Qed.

Lemma slope_sym : forall e a b, pos e a <> pos e b -> slope e a b = slope e b a.
Proof.
  intros e a b H. unfold slope. field. split; intro K; apply H; qlra.
Qed.
Lemma ev_slope : forall e s ev, wf s -> in_range s ev -> lo (pc e s (left_of s ev)) < hi (pc e s (left_of s ev)) ->
  sl (pc e s (left_of s ev)) = slope e (ev_start s ev) (ev_end s ev).
Proof.
  intros e s [i|r] H J L; [reflexivity|]. cbn. cbn in L. unfold end_of in *.
  rewrite (proj2 (w_rl s H r J)) in *. apply slope_sym. intro K. rewrite K in L. qlra.
Qed.
Lemma cross_slopes : forall e p b c, pos e b <> pos e p -> pos e c <> pos e p ->
  cross p b c = ((pos e b - pos e p) * (pos e c - pos e p)) * (slope e p c - slope e p b).
Proof.
  intros e p b c Hb Hc. rewrite (cross_pos e). unfold slope. field. split; intro K; [apply Hb|apply Hc]; qlra.
Qed.

Lemma xy_plt : forall a b : point,
  (if negb (Qc_eqb (px a) (px b)) then Some (Qc_ltb (px a) (px b))
   else if negb (Qc_eqb (py a) (py b)) then Some (Qc_ltb (py a) (py b)) else None)
  = if pt_eqb a b then None else Some (pt_ltb a b).
Proof.
  intros a b. unfold pt_eqb, pt_ltb. destruct (Qc_eqb_spec (px a) (px b)) as [H|H]; cbn.
  - rewrite H. destruct (Qc_eqb_spec (py a) (py b)) as [J|J]; cbn; [reflexivity|].
    destruct (Qc_ltb_spec (px b) (px b)); [qlra|]. reflexivity.
  - destruct (Qc_ltb (px a) (px b)); reflexivity.
Qed.
Lemma key_unfold : forall s ev other, binary_key_ltb s ev other =
  if pt_eqb (ev_start s ev) (ev_start s other)
  then (if negb (Bool.eqb (is_left ev) (is_left other)) then negb (is_left ev)
        else match orient (ev_start s ev) (ev_end s ev) (ev_end s other) with
             | COLLINEAR => ev_first s other
             | o => orientation_eqb o (if is_left ev then COUNTERCLOCKWISE else CLOCKWISE)
             end)
  else pt_ltb (ev_start s ev) (ev_start s other).
Proof.
  intros s ev other. unfold binary_key_ltb. pose proof (xy_plt (ev_start s ev) (ev_start s other)) as H.
  destruct (negb (Qc_eqb (px (ev_start s ev)) (px (ev_start s other)))).
  - destruct (pt_eqb (ev_start s ev) (ev_start s other)); [discriminate H|injection H as ->; reflexivity].
  - destruct (negb (Qc_eqb (py (ev_start s ev)) (py (ev_start s other)))).
    + destruct (pt_eqb (ev_start s ev) (ev_start s other)); [discriminate H|injection H as ->; reflexivity].
    + destruct (pt_eqb (ev_start s ev) (ev_start s other)); [reflexivity|discriminate H].
Qed.

(** Events having the same key. *)
Definition tied (p : nat -> piece) (a b : bool * nat) : Prop :=
  fst a = fst b /\ (if fst a then lo (p (snd a)) = lo (p (snd b)) else hi (p (snd a)) = hi (p (snd b)))
  /\ sl (p (snd a)) = sl (p (snd b)) /\ op (p (snd a)) = op (p (snd b)).

Lemma key_ltb_kless : forall e P s ev other, Sheared e P -> wf s -> in_range s ev -> in_range s other ->
  lo (pc e s (left_of s ev)) < hi (pc e s (left_of s ev)) ->
  lo (pc e s (left_of s other)) < hi (pc e s (left_of s other)) ->
  In (ev_start s ev) P -> In (ev_start s other) P ->
  ~ tied (pc e s) (evn s ev) (evn s other) ->
  (binary_key_ltb s ev other = true <-> kless (pc e s) (evn s ev) (evn s other)).
Proof.
  intros e P s ev other Hsh Hw R1 R2 L1 L2 P1 P2 Hn. rewrite key_unfold.
  rewrite !evn_left in *. unfold kless, tied in *. cbn [fst snd] in *.
  rewrite <- (ev_start_pos e s ev Hw R1), <- (ev_start_pos e s other Hw R2).
  destruct (pt_eqb_spec (ev_start s ev) (ev_start s other)) as [E|E].
  - pose proof (f_equal (pos e) E) as Ep.
    destruct (Bool.bool_dec (is_left ev) (is_left other)) as [F|F].
    + rewrite F, Bool.eqb_reflx. cbn [negb].
      assert (N1 : pos e (ev_end s ev) <> pos e (ev_start s ev)).
      { rewrite (ev_start_pos e s ev Hw R1), (ev_end_pos e s ev Hw R1). intro K. destruct (is_left ev); rewrite K in L1; qlra. }
      assert (N2 : pos e (ev_end s other) <> pos e (ev_start s ev)).
      { rewrite Ep, (ev_start_pos e s other Hw R2), (ev_end_pos e s other Hw R2). intro K. destruct (is_left other); rewrite K in L2; qlra. }
      assert (Hp : 0 < (pos e (ev_end s ev) - pos e (ev_start s ev)) * (pos e (ev_end s other) - pos e (ev_start s ev))).
      { pose proof (ev_start_pos e s ev Hw R1) as A1. pose proof (ev_end_pos e s ev Hw R1) as A2.
        pose proof (ev_start_pos e s other Hw R2) as A3. pose proof (ev_end_pos e s other Hw R2) as A4.
        rewrite F in A1, A2. rewrite A2, A4, A1. rewrite A1 in Ep. rewrite A3 in Ep.
        revert Ep. try rewrite F. destruct (is_left other); intro Ep; qnra. }
      rewrite orient_sgn, (cross_slopes e _ _ _ N1 N2), (sgn_scale _ _ Hp).
      rewrite E at 1. rewrite <- (ev_slope e s ev Hw R1 L1), <- (ev_slope e s other Hw R2 L2).
      set (x := sl (pc e s (left_of s ev))) in *. set (y := sl (pc e s (left_of s other))) in *. clearbody x y.
      destruct (sgnP (y - x)) as [K|K|K].
      * destruct (is_left other); cbn; (split; [intro Hd; try discriminate Hd|]).
        -- intros [J|(_ & [(J & _)|(_ & [J|(J & _)])])]; [rewrite Ep in J; qlra|congruence|qlra|qlra].
        -- right. split; [exact Ep|right; split; [reflexivity|left; qlra]].
        -- reflexivity.
      * assert (Exy : x = y) by qlra. split.
        -- intro J. right. split; [exact Ep|right; split; [reflexivity|right; split; [exact Exy|]]].
           cbn [op pc]. unfold ev_first in J. split; [|exact J].
           destruct (l_first (lft s (left_of s ev))) eqn:Ef; [|reflexivity]. exfalso. apply Hn.
           split; [exact F|]. split; [|split; [exact Exy|cbn [op pc]; rewrite Ef, J; reflexivity]].
           rewrite (ev_start_pos e s ev Hw R1), (ev_start_pos e s other Hw R2) in Ep. rewrite F in *. destruct (is_left other); exact Ep.
        -- intros [J|(_ & [(J & J')|(_ & [J|(_ & _ & J)])])]; [rewrite Ep in J; qlra|congruence|destruct (is_left other); qlra|exact J].
      * destruct (is_left other); cbn; (split; [intro Hd; try discriminate Hd|]).
        -- right. split; [exact Ep|right; split; [reflexivity|left; qlra]].
        -- reflexivity.
        -- intros [J|(_ & [(_ & J)|(_ & [J|(J & _)])])]; [rewrite Ep in J; qlra|congruence|qlra|qlra].
    + rewrite (proj2 (Bool.eqb_false_iff _ _) F). cbn [negb]. split.
      * intro J. right. split; [exact Ep|left]. destruct (is_left ev), (is_left other); try discriminate J; split; congruence.
      * intros [J|(_ & [(J & _)|(J & _)])]; [rewrite Ep in J; qlra|rewrite J; reflexivity|congruence].
  - assert (Ep : pos e (ev_start s ev) <> pos e (ev_start s other)).
    { intro K. apply E. apply (sheared_eq e P Hsh _ _ P1 P2). exact K. }
    destruct (pt_ltb_spec (ev_start s ev) (ev_start s other)) as [J|J]; rewrite (sheared_lt e P Hsh _ _ P1 P2) in J.
    + split; [intros _; left; exact J|reflexivity].
    + split; [discriminate|]. intros [K|(K & _)]; contradiction.
Qed.

(** ** Search in the tree *)
Lemma locate_absent : forall ltb shape x f l l1 l2, l = l1 ++ l2 -> (length l <= f)%nat ->
  (forall y, In y l1 -> ltb x y = false /\ ltb y x = true) -> (forall y, In y l2 -> ltb x y = true) ->
  locate ltb shape f l x = (false, length l1).
Proof.
  intros ltb shape x f. induction f as [|f IH]; intros l l1 l2 E L H1 H2.
  - destruct l; [|cbn in L; lia]. destruct l1; [reflexivity|discriminate E].
  - destruct l as [|y0 l]; [destruct l1; [reflexivity|discriminate E]|].
    cbn [locate]. set (L' := y0 :: l) in *.
    set (n := (shape L' mod length L')%nat).
    assert (Hn : (n < length L')%nat) by (apply Nat.mod_upper_bound; subst L'; cbn; lia).
    clearbody n. set (y := nth n L' y0).
    destruct (Nat.lt_ge_cases n (length l1)) as [K|K].
    + assert (Hy : In y l1).
      { subst y. rewrite E, app_nth1 by exact K. apply nth_In. exact K. }
      destruct (H1 y Hy) as (-> & ->).
      assert (E1 : skipn (S n) L' = skipn (S n) l1 ++ l2).
      { rewrite E, skipn_app. replace (S n - length l1)%nat with 0%nat by lia. reflexivity. }
      rewrite (IH _ _ _ E1).
      * f_equal. rewrite skipn_length. lia.
      * rewrite skipn_length. subst L'. cbn in *. lia.
      * intros z Hz. apply H1. rewrite <- (firstn_skipn (S n) l1). apply in_or_app. right. exact Hz.
      * exact H2.
    + assert (Hy : In y l2).
      { subst y. rewrite E, app_nth2 by exact K. apply nth_In. rewrite E, app_length in Hn. lia. }
      rewrite (H2 y Hy).
      assert (E1 : firstn n L' = l1 ++ firstn (n - length l1) l2).
      { rewrite E, firstn_app. rewrite firstn_all2 by lia. reflexivity. }
      apply (IH _ _ _ E1).
      * rewrite firstn_length. subst L'. cbn in *. lia.
      * exact H1.
      * intros z Hz. apply H2. rewrite <- (firstn_skipn (n - length l1) l2). apply in_or_app. left. exact Hz.
Qed.
Lemma locate_present : forall ltb shape x f l l1 l2, l = l1 ++ x :: l2 -> (length l <= f)%nat ->
  ltb x x = false ->
  (forall y, In y l1 -> ltb x y = false /\ ltb y x = true) -> (forall y, In y l2 -> ltb x y = true) ->
  locate ltb shape f l x = (true, length l1).
Proof.
  intros ltb shape x f. induction f as [|f IH]; intros l l1 l2 E L Hx H1 H2.
  - destruct l; [|cbn in L; lia]. destruct l1; discriminate E.
  - destruct l as [|y0 l]; [destruct l1; discriminate E|].
    cbn [locate]. set (L' := y0 :: l) in *.
    set (n := (shape L' mod length L')%nat).
    assert (Hn : (n < length L')%nat) by (apply Nat.mod_upper_bound; subst L'; cbn; lia).
    clearbody n. set (y := nth n L' y0).
    destruct (Nat.lt_trichotomy n (length l1)) as [K|[K|K]].
    + assert (Hy : In y l1).
      { subst y. rewrite E, app_nth1 by exact K. apply nth_In. exact K. }
      destruct (H1 y Hy) as (-> & ->).
      assert (E1 : skipn (S n) L' = skipn (S n) l1 ++ x :: l2).
      { rewrite E, skipn_app. replace (S n - length l1)%nat with 0%nat by lia. reflexivity. }
      rewrite (IH _ _ _ E1).
      * f_equal. rewrite skipn_length. lia.
      * rewrite skipn_length. subst L'. cbn in *. lia.
      * exact Hx.
      * intros z Hz. apply H1. rewrite <- (firstn_skipn (S n) l1). apply in_or_app. right. exact Hz.
      * exact H2.
    + assert (Hy : y = x).
      { subst y. rewrite E, app_nth2 by lia. rewrite K, Nat.sub_diag. reflexivity. }
      rewrite Hy, Hx, K. reflexivity.
    + assert (Hy : In y l2).
      { subst y. rewrite E, app_nth2 by lia. destruct (n - length l1)%nat as [|m] eqn:Em; [lia|]. cbn.
        apply nth_In. rewrite E, app_length in Hn. cbn in Hn. lia. }
      rewrite (H2 y Hy).
      assert (E1 : firstn n L' = l1 ++ x :: firstn (n - length l1 - 1) l2).
      { rewrite E, firstn_app. rewrite firstn_all2 by lia. f_equal.
        destruct (n - length l1)%nat as [|m] eqn:Em; [lia|]. cbn. rewrite Nat.sub_0_r. reflexivity. }
      apply (IH _ _ _ E1).
      * rewrite firstn_length. subst L'. cbn in *. lia.
      * exact Hx.
      * exact H1.
      * intros z Hz. apply H2. rewrite <- (firstn_skipn (n - length l1 - 1) l2). apply in_or_app. left. exact Hz.
Qed.

(** ** Least element of a queue *)
Lemma least_exists : forall (A : Type) (R : A -> A -> Prop) (D : A -> Prop),
  (forall a b, D a -> D b -> R a b \/ a = b \/ R b a) -> (forall a b c, R a b -> R b c -> R a c) ->
  forall l, l <> [] -> Forall D l -> exists m, In m l /\ forall a, In a l -> a = m \/ R m a.
Proof.
  intros A R D Ht Hr l. induction l as [|x l IH]; [congruence|]. intros _ HD. inversion HD; subst.
  destruct l as [|y l].
  - exists x. split; [left; reflexivity|]. intros a [<-|[]]. left. reflexivity.
  - destruct IH as (m & Hm & Hl); [congruence|assumption|].
    assert (Dm : D m) by (rewrite Forall_forall in H2; apply H2; exact Hm).
    destruct (Ht x m) as [J|[J|J]]; [assumption|exact Dm| | |].
    + exists x. split; [left; reflexivity|]. intros a [<-|Ha]; [left; reflexivity|].
      destruct (Hl a Ha) as [->|K]; right; [exact J|exact (Hr _ _ _ J K)].
    + subst m. exists x. split; [left; reflexivity|]. intros a [<-|Ha]; [left; reflexivity|]. exact (Hl a Ha).
    + exists m. split; [right; exact Hm|]. intros a [<-|Ha]; [right; exact J|]. exact (Hl a Ha).
Qed.
