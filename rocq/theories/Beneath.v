(** The piece right under the start of another one, when no piece has a start
    of steeper ones only inside.
    Proof support only, no part of /repo is modelled here. *)
From Coq Require Import Permutation.
From Verif Require Import QcTac Geom Spec GeomFacts SweepGeo SweepInv SweepSteps Sweep SweepCmp SweepLink SweepRun Labelled Parity Counting.

(** The order of the sweep line right after an abscissa. *)
Definition low (k z : piece) (t : Qc) : bool := germ (op k && negb (op z)) k z t.
Definition under (z : piece) (t : Qc) (k : piece) : bool := covers k t && low k z t.
Lemma low_spec : forall k z t, low k z t = true <->
  ht k t < ht z t \/ (ht k t = ht z t /\ (sl k < sl z \/ (sl k = sl z /\ op k = true /\ op z = false))).
Proof.
  intros k z t. unfold low. rewrite germ_spec. destruct (op k), (op z); cbn; intuition congruence.
Qed.
Lemma low_irrefl : forall k t, low k k t = false.
Proof. intros k t. destruct (low k k t) eqn:E; [|reflexivity]. apply low_spec in E. destruct E as [E|(_ & [E|(_ & E & F)])]; [qlra|qlra|congruence]. Qed.
Lemma low_trans : forall a b c t, low a b t = true -> low b c t = true -> low a c t = true.
Proof.
  intros a b c t H J. apply low_spec in H, J. apply low_spec.
  destruct H as [H|(H & [H'|(H' & H1 & H2)])], J as [J|(J & [J'|(J' & J1 & J2)])]; try (left; qlra); right; (split; [qlra|]); try (left; qlra); congruence.
Qed.
Lemma low_asym : forall a b t, low a b t = true -> low b a t = true -> False.
Proof. intros a b t H J. pose proof (low_trans a b a t H J) as K. rewrite low_irrefl in K. discriminate K. Qed.
Lemma under_spec : forall z t k, under z t k = true <-> (lo k <= t /\ t < hi k) /\ low k z t = true.
Proof. intros z t k. unfold under. rewrite Bool.andb_true_iff, covers_spec. tauto. Qed.
(** What lies right under the start of [x]. *)
Definition beneath (n : nat) (p : nat -> piece) (x : nat) (ob : option nat) : Prop :=
  match ob with
  | None => forall y, (y < n)%nat -> under (p x) (lo (p x)) (p y) = false
  | Some b => (b < n)%nat /\ under (p x) (lo (p x)) (p b) = true
      /\ forall y, (y < n)%nat -> y <> b -> under (p x) (lo (p x)) (p y) = true -> low (p y) (p b) (lo (p x)) = true
  end.
Lemma beneath_unique : forall n p x o o', beneath n p x o -> beneath n p x o' -> o = o'.
Proof.
  intros n p x [b|] [b'|] H H'; cbn in H, H'.
  - destruct H as (B1 & B2 & B3), H' as (C1 & C2 & C3). destruct (Nat.eq_dec b b') as [->|N]; [reflexivity|exfalso].
    exact (low_asym _ _ _ (B3 b' C1 (not_eq_sym N) C2) (C3 b B1 N B2)).
  - destruct H as (B1 & B2 & _). rewrite (H' b B1) in B2. discriminate B2.
  - destruct H' as (B1 & B2 & _). rewrite (H b' B1) in B2. discriminate B2.
  - reflexivity.
Qed.

Section Core.
Variables (V : Qc -> Qc) (Ts : list Qc).
(** At a start inside of another piece a piece ends or a less steep one starts. *)
Definition cleared (v : view) : Prop := forall i j, (i < vn v)%nat -> (j < vn v)%nat -> inner (vp v j) (lo (vp v i)) ->
  ht (vp v j) (lo (vp v i)) = V (lo (vp v i)) -> exists y, (y < vn v)%nat /\ (hi (vp v y) = lo (vp v i) \/ (lo (vp v y) = lo (vp v i) /\ sl (vp v y) <= sl (vp v j))).
(** Pieces passing through starts of seen ones or starting there later are not less steep. *)
Definition passed (v : view) : Prop := forall x z, seen v x -> (z < vn v)%nat -> inner (vp v z) (lo (vp v x)) ->
  ht (vp v z) (lo (vp v x)) = V (lo (vp v x)) -> sl (vp v x) <= sl (vp v z).
Definition queued (v : view) : Prop := forall x y, seen v x -> future v y -> lo (vp v y) = lo (vp v x) -> sl (vp v x) <= sl (vp v y).
Definition free (v : view) : Prop := passed v /\ queued v.

Section Cut.
Variables (T : Qc) (v v' : view) (x : nat) (q : Qc).
Hypothesis Hb : base V Ts T v.
Hypothesis Hc : cut v x q v'.
Hypothesis Hok : cutok V Ts T v x q.
Let Hq : queues v := b_q _ _ _ _ Hb.
Let Hx : (x < vn v)%nat := active_lt v x Hq (proj1 Hok).

Lemma inner_source : forall j t, (j < vn v')%nat -> inner (vp v' j) t -> exists j', (j' < vn v)%nat /\ inner (vp v j') t /\ coll (vp v' j) (vp v j').
Proof.
  intros j t Hj (I1 & I2). destruct (cut_source V Ts T v v' x q Hb Hc Hok j Hj) as (j' & Lj & Cj & _ & B1 & B2 & _).
  exists j'. split; [exact Lj|]. split; [split; qlra|]. exact Cj.
Qed.
Lemma cleared_cut : cleared v -> cleared v'.
Proof.
  intros H i j Hi Hj In Ht. destruct (inner_source j _ Hj In) as (j' & Lj & Ij & Cj).
  rewrite (c_n _ _ _ _ Hc) in Hi. destruct (Nat.eq_dec i (vn v)) as [->|Ni].
  - exists x. split; [rewrite (c_n _ _ _ _ Hc); lia|]. left. rewrite (c_tail _ _ _ _ Hc), (c_head _ _ _ _ Hc). reflexivity.
  - assert (Hi' : (i < vn v)%nat) by lia. rewrite (cut_lo V Ts T v v' x q Hc Hok i Hi') in *.
    destruct (H i j' Hi' Lj Ij) as (y & Hy & [Ey|(Ey & Sy)]); [rewrite <- (coll_ht _ _ _ Cj); exact Ht| |].
    + destruct (Nat.eq_dec y x) as [->|Ny].
      * exists (vn v). split; [rewrite (c_n _ _ _ _ Hc); lia|]. left. rewrite (c_tail _ _ _ _ Hc). exact Ey.
      * exists y. split; [rewrite (c_n _ _ _ _ Hc); lia|]. left. rewrite (c_same _ _ _ _ Hc y Hy Ny). exact Ey.
    + exists y. split; [rewrite (c_n _ _ _ _ Hc); lia|]. right. destruct (cut_keep V Ts T v v' x q Hc Hok y Hy) as (-> & -> & _).
      split; [exact Ey|]. rewrite (proj1 Cj). exact Sy.
Qed.
Lemma free_cut : free v -> free v'.
Proof.
  intros (H & Hw). split.
  2:{ intros a y Sa Fy L. apply (cut_seen v v' x q Hc) in Sa. pose proof (seen_lt v a Hq Sa) as Ra. destruct (cut_keep V Ts T v v' x q Hc Hok a Ra) as (El & Es & _). rewrite El in L. rewrite Es.
      apply (cut_future v v' x q Hc) in Fy. destruct Fy as [->|Fy].
      - rewrite (c_tail _ _ _ _ Hc) in *. cbn [set_lo lo sl] in *. pose proof Hok as (_ & In & _ & _ & Ht). apply (H a x Sa Hx); rewrite <- L; assumption.
      - assert (Ey : vp v' y = vp v y) by (apply (c_same _ _ _ _ Hc y (future_lt v y Hq Fy)); intros ->; exact (active_not_future v x Hq (proj1 Hok) Fy)).
        rewrite Ey in *. exact (Hw a y Sa Fy L). }
  intros a z Sa Hz In Ht. apply (cut_seen v v' x q Hc) in Sa. destruct (inner_source z _ Hz In) as (z' & Lz & Iz & Cz).
  pose proof (seen_lt v a Hq Sa) as Ra. destruct (cut_keep V Ts T v v' x q Hc Hok a Ra) as (El & Es & _). rewrite El in *. rewrite Es, (proj1 Cz).
  apply (H a z' Sa Lz Iz). rewrite <- (coll_ht _ _ _ Cz). exact Ht.
Qed.
Lemma awaiting_cut : forall a, seen v a -> awaiting v a -> awaiting v' a.
Proof.
  intros a Sa (Oa & y & Fy & Oy & Ly & Cy). pose proof (seen_lt v a Hq Sa) as Ra. pose proof (future_lt v y Hq Fy) as Ry.
  destruct (cut_keep V Ts T v v' x q Hc Hok a Ra) as (A1 & A2 & A3 & A4 & _).
  assert (Ey : vp v' y = vp v y) by (apply (c_same _ _ _ _ Hc y Ry); intros ->; exact (active_not_future v x Hq (proj1 Hok) Fy)).
  split; [rewrite A4; exact Oa|]. exists y. split; [apply (cut_future v v' x q Hc); right; exact Fy|]. rewrite Ey, A1. split; [exact Oy|]. split; [exact Ly|].
  destruct Cy as (C1 & C2). split; congruence.
Qed.
(** A piece cut at the start of a seen one does not lie under it. *)
Lemma cut_above : free v -> forall a, seen v a -> ~ awaiting v' a -> q <= lo (vp v a) -> lo (vp v a) = q /\ low (vp v x) (vp v a) q = false.
Proof.
  intros H a Sa Na K. pose proof Hok as (_ & In & Tq & _ & Ht). pose proof (seen_lt v a Hq Sa) as Ra.
  assert (L : lo (vp v a) <= T).
  { destruct Sa as [A|D]; [apply (b_act _ _ _ _ Hb a A)|]. pose proof (b_done _ _ _ _ Hb a D). pose proof (g_len _ _ _ (b_geo _ _ _ _ Hb) a Ra). qlra. }
  assert (E : lo (vp v a) = q) by qlra. split; [exact E|].
  assert (S1 : sl (vp v a) <= sl (vp v x)) by (apply (proj1 H a x Sa Hx); rewrite E; assumption).
  assert (Ha : ht (vp v a) q = V q) by (rewrite <- E; apply (g_lo _ _ _ (b_geo _ _ _ _ Hb) a Ra)).
  destruct (low (vp v x) (vp v a) q) eqn:El; [exfalso|reflexivity]. apply low_spec in El.
  destruct El as [El|(_ & [El|(El & O1 & O2)])]; [qlra|qlra|]. apply Na.
  destruct (cut_keep V Ts T v v' x q Hc Hok a Ra) as (A1 & A2 & A3 & A4 & _).
  split; [rewrite A4; exact O2|]. exists (vn v). split; [apply (cut_future v v' x q Hc); left; reflexivity|]. rewrite (c_tail _ _ _ _ Hc), A1. cbn [set_lo op lo].
  split; [exact O1|]. split; [symmetry; exact E|].
  assert (Co : coll (vp v x) (vp v a)) by (apply (ht_slopes _ _ q); [congruence|exact El]). destruct Co as (C1 & C2).
  split; cbn [set_lo sl ic]; congruence.
Qed.
Lemma low_cut : forall y z t, (y < vn v)%nat -> (z < vn v)%nat -> low (vp v' y) (vp v' z) t = low (vp v y) (vp v z) t.
Proof.
  intros y z t Hy Hz. unfold low, germ. rewrite !(cut_ht V Ts T v v' x q Hc Hok) by assumption.
  destruct (cut_keep V Ts T v v' x q Hc Hok y Hy) as (_ & -> & _ & -> & _), (cut_keep V Ts T v v' x q Hc Hok z Hz) as (_ & -> & _ & -> & _). reflexivity.
Qed.
Lemma under_cut : free v -> forall a y, seen v a -> ~ awaiting v' a -> (y < vn v)%nat ->
  under (vp v' a) (lo (vp v' a)) (vp v' y) = under (vp v a) (lo (vp v a)) (vp v y).
Proof.
  intros Hf a y Sa Na Hy. pose proof (seen_lt v a Hq Sa) as Ra. rewrite (cut_lo V Ts T v v' x q Hc Hok a Ra).
  unfold under. rewrite low_cut by assumption.
  destruct (cut_keep V Ts T v v' x q Hc Hok y Hy) as (K1 & _ & _ & _ & K3). unfold covers. rewrite K1.
  destruct K3 as [->|(-> & -> & K & _)]; [reflexivity|].
  destruct (Qclt_le_dec (lo (vp v a)) q) as [L|L].
  - rewrite !ltb_true; [reflexivity|qlra|exact L].
  - destruct (cut_above Hf a Sa Na L) as (E & El). rewrite E, El, !Bool.andb_false_r. reflexivity.
Qed.
Lemma tail_not : free v -> forall a, seen v a -> ~ awaiting v' a -> under (vp v' a) (lo (vp v' a)) (vp v' (vn v)) = false.
Proof.
  intros Hf a Sa Na. pose proof (seen_lt v a Hq Sa) as Ra. destruct (cut_keep V Ts T v v' x q Hc Hok a Ra) as (A1 & A2 & A3 & A4 & _). rewrite A1.
  unfold under. destruct (Qclt_le_dec (lo (vp v a)) q) as [L|L].
  - rewrite covers_not; [reflexivity|]. left. rewrite (c_tail _ _ _ _ Hc). exact L.
  - destruct (cut_above Hf a Sa Na L) as (E & El). rewrite E. rewrite (c_tail _ _ _ _ Hc).
    replace (low (set_lo (vp v x) q) (vp v' a) q) with (low (vp v x) (vp v a) q); [rewrite El; apply Bool.andb_false_r|].
    unfold low, germ, ht. cbn [set_lo sl ic op]. rewrite A2, A3, A4. reflexivity.
Qed.
Lemma beneath_cut : free v -> forall a ob, seen v a -> ~ awaiting v' a -> beneath (vn v) (vp v) a ob -> beneath (vn v') (vp v') a ob.
Proof.
  intros Hf a ob Sa Na H. rewrite (c_n _ _ _ _ Hc). destruct ob as [b|].
  - destruct H as (B1 & B3 & B4). split; [lia|]. split; [rewrite under_cut by assumption; exact B3|].
    intros y Hy N2 U. destruct (Nat.eq_dec y (vn v)) as [->|Ny]; [rewrite tail_not in U by assumption; discriminate U|].
    assert (Hy' : (y < vn v)%nat) by lia. rewrite under_cut in U by assumption. specialize (B4 y Hy' N2 U).
    pose proof (seen_lt v a Hq Sa) as Ra. rewrite (cut_lo V Ts T v v' x q Hc Hok a Ra), low_cut by assumption. exact B4.
  - intros y Hy. destruct (Nat.eq_dec y (vn v)) as [->|Ny]; [exact (tail_not Hf a Sa Na)|].
    assert (Hy' : (y < vn v)%nat) by lia. rewrite under_cut by assumption. exact (H y Hy').
Qed.
End Cut.

Lemma beneath_cuts : forall T X v v', cuts V Ts T X v v' -> base V Ts T v -> cleared v -> free v ->
  cleared v' /\ free v' /\ forall a, seen v a -> ~ awaiting v' a -> ~ awaiting v a /\ forall ob, beneath (vn v) (vp v) a ob -> beneath (vn v') (vp v') a ob.
Proof.
  intros T X v v' H. induction H as [|v x q va vb Hx Hok Hc Hs IH]; [intros _ Hp Hf; split; [exact Hp|split; [exact Hf|intros a _ Na; split; [exact Na|intros ob K; exact K]]]|].
  intros Hb Hp Hf. destruct (IH (cut_base V Ts T v va x q Hb Hc Hok)) as (J1 & J2 & J3).
  - exact (cleared_cut T v va x q Hb Hc Hok Hp).
  - exact (free_cut T v va x q Hb Hc Hok Hf).
  - split; [exact J1|]. split; [exact J2|]. intros a Sa Na.
    destruct (J3 a) as (Na' & J4); [apply (cut_seen v va x q Hc); exact Sa|exact Na|].
    split; [intro K; apply Na'; exact (awaiting_cut T v va x q Hb Hc Hok a Sa K)|]. intros ob K. apply J4.
    exact (beneath_cut T v va x q Hb Hc Hok Hf a ob Sa Na' K).
Qed.

Section Added.
Variables (T : Qc) (v v1 : view) (i : nat) (l1 l2 : list nat).
Hypothesis Hb : base V Ts T v.
Hypothesis Hset : settled never v.
Hypothesis Hpass : passing V T v.
Hypothesis Li : lo (vp v i) = T.
Hypothesis Hhi : forall j, active v j -> T < hi (vp v j).
Hypothesis Hmin : forall k, future v k -> lo (vp v k) = T -> sl (vp v i) <= sl (vp v k).
Hypothesis Hpop : popped_left v i l1 l2 v1.
Let Hq : queues v := b_q V Ts T v Hb.
Let Hg : geo V Ts v := b_geo V Ts T v Hb.
Notation AV := (added_view v v1 i l1 l2 Hpop).
Notation AA := (added_active v v1 i l1 l2 Hpop).
Let Fi : future v i.
Proof. apply AV. Qed.
Let Ri : (i < vn v)%nat := future_lt v i Hq Fi.

(** Nothing less steep passes through the start of the added piece. *)
Lemma through_start : cleared v -> forall z, (z < vn v)%nat -> inner (vp v z) T -> ht (vp v z) T = V T -> sl (vp v i) <= sl (vp v z).
Proof.
  intros Hp z Hz (I1 & I2) Ht. assert (Az : active v z).
  { destruct (status v z Hq Hz) as [F|[A|D]]; [exfalso|exact A|exfalso].
    - pose proof (b_fut _ _ _ _ Hb z F). qlra.
    - pose proof (b_done _ _ _ _ Hb z D). qlra. }
  destruct (Hp i z Ri Hz) as (y & Hy & Ey); [rewrite Li; split; assumption|rewrite Li; exact Ht|]. rewrite Li in Ey.
  pose proof (g_len _ _ _ Hg y Hy) as Gy. destruct Ey as [Ey|(Ey & Sy)].
  - assert (Dy : done v y).
    { destruct (status v y Hq Hy) as [F|[A|D]]; [exfalso|exfalso|exact D].
      - pose proof (b_fut _ _ _ _ Hb y F). qlra.
      - pose proof (Hhi y A). qlra. }
    destruct (Hpass z y Az (conj I1 I2) Ht Dy Ey) as (m & Fm & Lm & Cm).
    rewrite <- (proj1 Cm). exact (Hmin m Fm Lm).
  - destruct (status v y Hq Hy) as [F|[A|D]].
    + pose proof (Hmin y F Ey). qlra.
    + exfalso. assert (Nzy : z <> y) by (intros ->; qlra).
      assert (E : ht (vp v z) T = ht (vp v y) T) by (rewrite Ht, <- Ey; symmetry; apply (g_lo _ _ _ Hg y Hy)).
      destruct (chain V Ts T v T z y Hb Hset (b_act V Ts T v Hb) (b_srt V Ts T v Hb) Az A Nzy E) as [((_ & K & _) & _)|(w & m & Aw & _ & Hw & _)].
      * split; [exact I1|exact I2].
      * qlra.
      * pose proof (Hhi w Aw). qlra.
    + pose proof (b_done _ _ _ _ Hb y D). qlra.
Qed.
Lemma added_free : cleared v -> free v -> free v1.
Proof.
  intros Hp (Hf & Hw). destruct AV as (En & Ep & Es & Eo & _).
  assert (S : forall x, seen v1 x -> x = i \/ seen v x).
  { intros x Sx. destruct Sx as [A|D]; [apply AA in A; destruct A as [->|A]; [left; reflexivity|right; left; exact A]|right; right; unfold done in *; rewrite Eo in D; exact D]. }
  split.
  - intros x z Sx Hz. rewrite En in Hz. rewrite Ep. intros In Ht.
    destruct (S x Sx) as [->|S']; [rewrite Li in In, Ht; exact (through_start Hp z Hz In Ht)|exact (Hf x z S' Hz In Ht)].
  - intros x y Sx Fy. rewrite Ep. intro L. apply (added_future V Ts T v v1 i l1 l2 Hb Hpop) in Fy. destruct Fy as (Fy & _).
    destruct (S x Sx) as [->|S']; [apply (Hmin y Fy); rewrite L; exact Li|exact (Hw x y S' Fy L)].
Qed.
Let B_here := below_here V Ts T v v1 i l1 l2 Hb Hset Li Hhi Hpop.
Let act1 : forall j, active v1 j -> (j < vn v)%nat /\ lo (vp v j) <= T /\ T < hi (vp v j).
Proof.
  intros j A. split; [exact (added_lt V Ts T v v1 i l1 l2 Hb Hset Li Hhi Hpop j A)|].
  split; [exact (added_has V Ts T v v1 i l1 l2 Hb Hset Li Hhi Hpop j A)|exact (added_hi V Ts T v v1 i l1 l2 Hb Li Hhi Hpop j A)].
Qed.
Let Hb1 : base V Ts T v1 := added_base V Ts T v v1 i l1 l2 Hb Hset Li Hhi Hpop.

Section Line.
Variables (x : nat) (m1 m2 : list nat).
Hypothesis Ex : vs v1 = m1 ++ x :: m2.
Hypothesis Lx : lo (vp v x) = T.
Hypothesis Sx : sl (vp v x) <= sl (vp v i).
Hypothesis Nx : ~ awaiting v1 x.
Let Ax : active v1 x.
Proof. unfold active. rewrite Ex. apply in_or_app. right. left. reflexivity. Qed.
Let Am1 : forall j, In j m1 -> active v1 j.
Proof. intros j H. unfold active. rewrite Ex. apply in_or_app. left. exact H. Qed.
Let Am2 : forall j, In j m2 -> active v1 j.
Proof. intros j H. unfold active. rewrite Ex. apply in_or_app. right. right. exact H. Qed.
Let Ord : ForallOrdPairs (fun a b => below (vp v a) (vp v b)) (m1 ++ x :: m2).
Proof. rewrite <- Ex. exact (added_ord V Ts T v v1 i l1 l2 Hb Hset Li Hhi Hpop). Qed.
Let Srt : ForallOrdPairs (fun a b => ht (vp v a) T <= ht (vp v b) T) (m1 ++ x :: m2).
Proof. rewrite <- Ex. exact (added_srt V Ts T v v1 i l1 l2 Hb Hset Li Hhi Hpop). Qed.
Let start := start_V V Ts T v i Hb Hpass Li Hhi Hmin.

(** What is under the start of a piece is on the sweep line. *)
Lemma under_lines : forall y, (y < vn v)%nat -> under (vp v x) T (vp v y) = true -> In y m1.
Proof.
  intros y Hy U. apply under_spec in U. destruct U as ((C1 & C2) & G). destruct AV as (En & Ep & _).
  assert (A : active v1 y).
  { destruct (status v1 y (b_q _ _ _ _ Hb1)) as [F|[A|D]]; [rewrite En; exact Hy|exfalso|exact A|exfalso].
    - pose proof (proj1 (added_future V Ts T v v1 i l1 l2 Hb Hpop y) F) as (Fy & _). pose proof (b_fut _ _ _ _ Hb y Fy) as K. assert (Ly : lo (vp v y) = T) by qlra.
      pose proof (start y Hy Ly) as Ey. pose proof (start x (proj1 (act1 x Ax)) Lx) as E2. pose proof (Hmin y Fy Ly) as S.
      apply low_spec in G. destruct G as [G|(G & [G'|(G' & O1 & O2)])]; [qlra|qlra|].
      apply Nx. unfold awaiting. rewrite Ep. split; [exact O2|]. exists y. split; [exact F|]. split; [exact O1|]. split; [congruence|].
      apply (ht_slopes _ _ T); [congruence|exact G'].
    - pose proof (b_done _ _ _ _ Hb1 y D) as K. rewrite Ep in K. qlra. }
  pose proof A as I1. unfold active in I1. rewrite Ex in I1.
  apply in_app_iff in I1. destruct I1 as [I1|[<-|I1]]; [exact I1|rewrite low_irrefl in G; discriminate G|exfalso].
  apply (low_asym _ _ _ G). apply low_spec. exact (B_here x y Ax A (or_introl Lx) (FOP_next _ _ _ _ _ _ Ord I1)).
Qed.
Lemma line_beneath : beneath (vn v) (vp v) x (last_error m1).
Proof.
  unfold beneath. rewrite Lx. destruct (last_error m1) as [b|] eqn:Eb.
  2:{ apply last_error_none in Eb. intros y Hy. destruct (under (vp v x) T (vp v y)) eqn:U; [|reflexivity].
      pose proof (under_lines y Hy U) as K. rewrite Eb in K. destruct K. }
  destruct (last_error_some _ _ _ Eb) as (m & Em).
  assert (Ib : In b m1) by (rewrite Em; apply in_or_app; right; left; reflexivity).
  pose proof (Am1 b Ib) as Ab. destruct (act1 b Ab) as (Rb & Lb & Ub).
  split; [exact Rb|]. split.
  - apply under_spec. split; [split; assumption|]. apply low_spec. exact (B_here b x Ab Ax (or_intror Lx) (FOP_prev _ _ _ _ _ _ Ord Ib)).
  - intros y Hy Nyb U. pose proof (under_lines y Hy U) as Iy'. pose proof Iy' as Iy. rewrite Em in Iy. apply in_app_iff in Iy. destruct Iy as [Iy|[Iy|[]]]; [|congruence].
    pose proof (Am1 y Iy') as Ay. destruct (act1 y Ay) as (_ & Ly & Uy).
    pose proof Ord as Ord'. pose proof Srt as Srt'. rewrite Em, <- app_assoc in Ord', Srt'.
    pose proof (FOP_prev _ _ m b (x :: m2) y Ord' Iy) as Bl. pose proof (FOP_prev _ _ m b (x :: m2) y Srt' Iy) as Lt. cbn beta in Bl, Lt.
    apply low_spec. destruct (Qcle_lt_or_eq _ _ Ly) as [Ly'|Ly']; [|exact (B_here y b Ay Ab (or_introl Ly') Bl)].
    destruct (Qcle_lt_or_eq _ _ Lb) as [Lb'|Lb']; [|exact (B_here y b Ay Ab (or_intror Lb') Bl)].
    destruct (Qcle_lt_or_eq _ _ Lt) as [Lt'|Lt']; [left; exact Lt'|right]. split; [exact Lt'|right].
    assert (Nb : b <> i) by (intro Z; rewrite Z, Li in Lb'; clear - Lb'; qlra).
    destruct (through_here V Ts T v v1 i l1 l2 Hb Hset Li Hhi Hpop y b Ay Ab Nyb Ly' Nb Lt') as (C & _ & Op).
    unfold below in Bl. rewrite (coll_ht _ _ _ C) in Bl. split; [apply C|].
    destruct Bl as [J|(_ & [J|(_ & J)])]; [exfalso; qlra|exfalso; destruct C as (C & _); qlra|exact J].
Qed.
End Line.
End Added.
End Core.

(** Vertical pieces are the steepest ones, and do not pass by starts. *)
Lemma steep : forall e P, Sheared e P -> forall s vo, geo (V e P) (Ts e P) (abs e s vo) ->
  forall z i, (z < length (lefts s))%nat -> (i < length (lefts s))%nat -> is_vertical s z = true ->
  lo (pc e s z) <= lo (pc e s i) -> lo (pc e s i) < hi (pc e s z) ->
  ht (pc e s z) (lo (pc e s i)) = ht (pc e s i) (lo (pc e s i)) /\ sl (pc e s i) <= sl (pc e s z).
Proof.
  intros e P Hsh s vo Hg z i Hz Hi Ev L U.
  pose proof (st_start e P Hsh s vo Hg z Hz) as Pa. pose proof (st_end e P Hsh s vo Hg z Hz) as Pb.
  pose proof (st_start e P Hsh s vo Hg i Hi) as Pc.
  pose proof (st_plt e P Hsh s vo Hg z Hz) as Lz. pose proof (st_plt e P Hsh s vo Hg i Hi) as Ld.
  pose proof (st_len e P s vo Hg z Hz) as Nz. pose proof (st_len e P s vo Hg i Hi) as Ni.
  unfold is_vertical in Ev. destruct (Qc_eqb_spec (px (l_start (lft s z))) (px (end_of s z))) as [Ex|]; [|discriminate Ev].
  rewrite pc_ht, pc_ht_lo. unfold line_at. cbn [pc lo hi sl] in *.
  set (a := l_start (lft s z)) in *. set (b := end_of s z) in *. set (c := l_start (lft s i)) in *. set (d := end_of s i) in *.
  assert (Ec : px c = px a).
  { assert (K1 : px a <= px c).
    { destruct (Qclt_le_dec (px c) (px a)) as [K|K]; [exfalso|exact K]. pose proof (Hsh c a Pc Pa (or_introl K)). clear - H L. qlra. }
    pose proof (proj2 (sheared_lt e P Hsh c b Pc Pb) U) as K2. destruct K2 as [K2|(K2 & _)]; [clear - K1 K2 Ex; qlra|rewrite K2; symmetry; exact Ex]. }
  assert (Dy : py a < py b) by (destruct Lz as [K|(_ & K)]; [clear - K Ex; qlra|exact K]).
  pose proof (slope_eq e a b ltac:(intro K; clear - K Nz; qlra)) as Sz. pose proof (slope_eq e c d ltac:(intro K; clear - K Ni; qlra)) as Si.
  set (m := slope e a b) in *. set (m' := slope e c d) in *.
  assert (Dz : pos e b - pos e a = e * (py b - py a)) by (unfold pos; rewrite Ex; ring).
  assert (Me : m * e = 1).
  { rewrite Dz in Sz. assert (K : (m * e - 1) * (py b - py a) = 0) by (replace ((m * e - 1) * (py b - py a)) with (m * (e * (py b - py a)) - (py b - py a)) by ring; rewrite Sz; ring).
    apply Qcmult_integral in K. destruct K as [K|K]; [clear - K; qlra|clear - K Dy; qlra]. }
  assert (Pe : 0 < e) by (clear - Dz Nz Dy; destruct (Qclt_le_dec 0 e) as [K|K]; [exact K|exfalso; qnra]).
  assert (Pm : 0 < m) by (clear - Me Pe; destruct (Qclt_le_dec 0 m) as [K|K]; [exact K|exfalso; qnra]).
  split.
  - replace (pos e c - pos e a) with (e * (py c - py a)) by (unfold pos; rewrite Ec; ring). replace (m * (e * (py c - py a))) with ((m * e) * (py c - py a)) by ring. rewrite Me. ring.
  - destruct (Qclt_le_dec m m') as [K|K]; [exfalso|exact K].
    assert (Dx : 0 <= px d - px c) by (destruct Ld as [J|(J & _)]; clear - J; qlra).
    assert (E1 : m * (pos e d - pos e c) = m * (px d - px c) + (py d - py c)) by (unfold pos; replace (m * (px d + e * py d - (px c + e * py c))) with (m * (px d - px c) + (m * e) * (py d - py c)) by ring; rewrite Me; ring).
    assert (Pd : 0 < pos e d - pos e c) by (clear - Ni; qlra).
    assert (H1 : 0 <= m * (px d - px c)) by (clear - Dx Pm; qnra).
    assert (H2 : 0 < (m' - m) * (pos e d - pos e c)) by (clear - Pd K; qnra).
    clear - H1 H2 E1 Si. replace ((m' - m) * (pos e d - pos e c)) with (m' * (pos e d - pos e c) - m * (pos e d - pos e c)) in H2 by ring. rewrite Si, E1 in H2. qlra.
Qed.
