(** Segments are cut by sweeps at their nodes only.
    Proof support only, no part of /repo is modelled here. *)
From Coq Require Import Permutation Sorted.
From Verif Require Import QcTac Geom Spec Unique SpecNode GeomFacts Relation PairFacts SweepGeo SweepInv SweepSteps Sweep SweepCmp SweepLink Linear SweepRun SweepLoop SweepStart SweepEnd.

Lemma some_dec : forall (A : Type) (Q : A -> Prop) l, (forall x, Q x \/ ~ Q x) -> (exists x, In x l /\ Q x) \/ ~ exists x, In x l /\ Q x.
Proof.
  intros A Q l D. induction l as [|a l IH]; [right; intros (x & [] & _)|]. destruct (D a) as [H|H]; [left; exists a; split; [left; reflexivity|exact H]|].
  destruct IH as [(x & I & K)|IH]; [left; exists x; split; [right; exact I|exact K]|right]. intros (x & [<-|I] & K); [exact (H K)|apply IH; exists x; auto].
Qed.
Lemma some_of : forall (A : Type) (Q : A -> Prop) l, (forall x, Q x \/ ~ Q x) -> exists l', (forall x, In x l' <-> In x l /\ Q x) /\ (length l' <= length l)%nat.
Proof.
  intros A Q l D. induction l as [|a l (l' & I & L)]; [exists []; split; [intro x; cbn; tauto|reflexivity]|]. destruct (D a) as [H|H].
  - exists (a :: l'). split; [|cbn; lia]. intro x. cbn. rewrite I. split; [intros [<-|K]; tauto|]. intros ([<-|K] & J); tauto.
  - exists l'. split; [|cbn; lia]. intro x. rewrite I. cbn. split; [tauto|]. intros ([<-|K] & J); tauto.
Qed.

Section Init.
Variables (l : tagged) (s : state).
Hypothesis Hf : filled l s.
Hypothesis Hl : lawful l.
Notation n := (length (lefts s)).
Notation P := (relevant_points s).
Variable e : Qc.
Hypothesis Hsh : Sheared e P.
Definition real (p : point) : Prop :=
  (exists i, In i (seq 0 n) /\ (p = l_start (lft s i) \/ p = end_of s i))
  \/ exists i, In i (seq 0 n) /\ exists j, In j (seq 0 n) /\ on_segment p (seg_of s i) /\ on_segment p (seg_of s j) /\ ~ coll (pc e s i) (pc e s j).
Lemma on_dec : forall p t, on_segment p t \/ ~ on_segment p t.
Proof. intros p t. destruct (on_segment_dec p t); auto. Qed.
Lemma coll_dec : forall x y : piece, coll x y \/ ~ coll x y.
Proof. intros x y. unfold coll. destruct (Qc_eq_dec (sl x) (sl y)), (Qc_eq_dec (ic x) (ic y)); tauto. Qed.
Lemma real_dec : forall p, real p \/ ~ real p.
Proof.
  intro p. unfold real.
  destruct (some_dec nat (fun i => p = l_start (lft s i) \/ p = end_of s i) (seq 0 n)) as [H|H]; [intro i; destruct (pt_eq_dec p (l_start (lft s i))), (pt_eq_dec p (end_of s i)); tauto|tauto|].
  destruct (some_dec nat (fun i => exists j, In j (seq 0 n) /\ on_segment p (seg_of s i) /\ on_segment p (seg_of s j) /\ ~ coll (pc e s i) (pc e s j)) (seq 0 n)) as [K|K]; [|tauto|tauto].
  intro i. apply some_dec. intro j. destruct (on_dec p (seg_of s i)), (on_dec p (seg_of s j)), (coll_dec (pc e s i) (pc e s j)); tauto.
Qed.
Variable Q : list point.
Hypothesis HQ : forall p, In p Q <-> In p P /\ real p.
Hypothesis LQ : (length Q <= length P)%nat.
Lemma Q_sheared : Sheared e Q.
Proof. intros p q Hp Hq. apply HQ in Hp, Hq. apply Hsh; [apply Hp|apply Hq]. Qed.
Lemma Q_start : forall i, (i < n)%nat -> In (l_start (lft s i)) Q.
Proof. intros i Hi. apply HQ. split; [exact (relevant_start s i Hi)|]. left. exists i. split; [apply in_seq; lia|left; reflexivity]. Qed.
Lemma Q_end : forall i, (i < n)%nat -> In (end_of s i) Q.
Proof. intros i Hi. apply HQ. split; [exact (relevant_end s i Hi)|]. left. exists i. split; [apply in_seq; lia|right; reflexivity]. Qed.
Lemma Q_len : forall i, (i < n)%nat -> lo (pc e s i) < hi (pc e s i).
Proof. exact (init_len l s Hf Hl e Hsh). Qed.
Lemma Q_geo : geo (V e Q) (Ts e Q) (abs e s []).
Proof.
  pose proof (init_geo l s Hf Hl e Hsh) as [G1 _ _ _ G5]. pose proof Q_sheared as Hs'.
  constructor; cbn [abs vn vp].
  - exact G1.
  - intros i Hi. split; [|exact (in_map (pos e) _ _ (Q_start i Hi))].
    rewrite pc_ht_lo. symmetry. exact (V_pos e Q Hs' _ (Q_start i Hi)).
  - intros i Hi. split; [|exact (in_map (pos e) _ _ (Q_end i Hi))].
    rewrite (pc_ht_hi e s i (Q_len i Hi)). symmetry. exact (V_pos e Q Hs' _ (Q_end i Hi)).
  - intros i j t Hi Hj Hc Ti Tj E.
    set (p := at_pos e t (ht (pc e s i) t)).
    assert (Pi : on_segment p (seg_of s i)) by exact (pc_on_at e s i t (Q_len i Hi) Ti).
    assert (Pj : on_segment p (seg_of s j)) by (unfold p; rewrite E; exact (pc_on_at e s j t (Q_len j Hj) Tj)).
    assert (Hu : segments_intersection (seg_of s i) (seg_of s j) = p).
    { apply segments_intersection_unique.
      - exact (plt_neq _ _ (init_plt l s Hf Hl i Hi)).
      - exact (plt_neq _ _ (init_plt l s Hf Hl j Hj)).
      - split; assumption.
      - intros q (Q1 & Q2). apply (pc_on e s i q (Q_len i Hi)) in Q1. apply (pc_on e s j q (Q_len j Hj)) in Q2.
        destruct Q1 as (Q1 & Q3), Q2 as (Q2 & Q4). rewrite Q3 in Q4.
        pose proof (one_meet _ _ t (pos e q) Hc E Q4) as Et. apply (pos_inj e).
        + rewrite Et. unfold p. rewrite pos_at. reflexivity.
        + unfold p. rewrite py_at, Q3, Et. reflexivity. }
    assert (Hm : In p Q).
    { apply HQ. split; [rewrite <- Hu; exact (relevant_meet s i j Hi Hj)|]. right. exists i. split; [apply in_seq; lia|]. exists j. split; [apply in_seq; lia|]. auto. }
    pose proof (V_pos e Q Hs' p Hm) as K1. pose proof (in_map (pos e) _ _ Hm) as K2.
    unfold p in K1, K2. rewrite pos_at, ?py_at in K1, K2. split; [symmetry; exact K1|exact K2].
  - exact G5.
Qed.
Lemma Q_good : exists T, good e Q s T s [] /\ (measure (Ts e Q) (abs e s (finished s [])) < enough (length l))%nat.
Proof.
  destruct (init_good l s Hf Hl e Hsh) as (T & [[Iw Ib Is Ip Il] K2 K3 K4 K5 K6] & Hm). exists T. split.
  - constructor; [|exact K2|exact K3|exact K4|exact K5|exact K6]. constructor; [exact Iw| |exact Is| |exact Il].
    + destruct Ib as [_ B2 B3 B4 B5 B6 B7 B8 B9]. constructor; [exact Q_geo|assumption..].
    + intros x y _ _ _ [].
  - unfold measure. cbn [abs vn vp vq]. rewrite map_length, (f_size _ _ Hf).
    assert (Hsum : forall (xs : list nat) k f, (forall i, f i <= k)%nat -> (list_sum (map f xs) <= length xs * k)%nat).
    { intros xs k f H. induction xs as [|x xs IH]; [cbn; lia|]. change (f x + list_sum (map f xs) <= S (length xs) * k)%nat. specialize (H x). lia. }
    pose proof (Hsum (seq 0 n) (length P) (fun i => inners (Ts e Q) (pc e s i))) as K.
    rewrite seq_length, relevant_length in K.
    assert (Hb : forall i, (inners (Ts e Q) (pc e s i) <= 2 * n + n * n)%nat).
    { intro i. unfold inners. rewrite <- relevant_length. apply Nat.le_trans with (2 := LQ). rewrite <- (map_length (pos e) Q). apply filter_short. }
    specialize (K Hb). unfold enough. rewrite (f_lefts _ _ Hf) in *. lia.
Qed.
Lemma real_node : forall ss, (forall b sg, In (b, sg) l -> In sg ss) -> forall p, real p -> node ss p.
Proof.
  intros ss Hss p [(i & Hi & Hp)|(i & Hi & j & Hj & Oi & Oj & Nc)]; apply in_seq in Hi.
  - destruct (in_tag l s Hf i) as (b & sg & E); [lia|]. left. exists sg. split; [exact (Hss b sg (nth_error_In _ _ E))|].
    destruct (init_seg l s Hf i b sg E) as (K & _). unfold seg_of in K. injection K as K1 K2. rewrite K1, K2 in Hp. unfold seg_lo, seg_hi in Hp. unfold endpoint. destruct (pt_ltb _ _); tauto.
  - apply in_seq in Hj. destruct (in_tag l s Hf i) as (b & sg & E); [lia|]. destruct (in_tag l s Hf j) as (b' & sg' & E'); [lia|].
    right. exists sg, sg'. split; [exact (Hss b sg (nth_error_In _ _ E))|]. split; [exact (Hss b' sg' (nth_error_In _ _ E'))|].
    split; [apply (init_on l s Hf i b sg p E), Oi|]. split; [apply (init_on l s Hf j b' sg' p E'), Oj|].
    intros (u & v & N & U1 & U2 & V1 & V2). apply (init_on l s Hf i b sg _ E) in U1, V1. apply (init_on l s Hf j b' sg' _ E') in U2, V2.
    apply (pc_on e s i _ (Q_len i ltac:(lia))) in U1, V1. apply (pc_on e s j _ (Q_len j ltac:(lia))) in U2, V2.
    destruct U1 as (_ & U1), U2 as (_ & U2), V1 as (_ & V1), V2 as (_ & V2). assert (A := U1). assert (B := V1). rewrite U2 in A. rewrite V2 in B.
    apply N. pose proof (one_meet _ _ _ _ Nc (eq_sym A) (eq_sym B)) as Et. symmetry in Et. apply (pos_inj e); [exact Et|]. rewrite U1, V1, Et. reflexivity.
Qed.
End Init.

Theorem linear_nodes : forall first second x_max, lawful (tag first second) -> forall o s out, sweep_lefts o (beyond x_max) first second = Ok (s, out) ->
  forall i, (i < length (lefts s))%nat -> node (first ++ second) (l_start (lft s i)) /\ node (first ++ second) (end_of s i).
Proof.
  intros first second x_max Hl o s out R i Hi. pose proof (filled_linear first second) as Hf.
  destruct (shear_exists (relevant_points (fill_linear first second))) as (e & _ & Hsh).
  destruct (some_of point (real (fill_linear first second) e) (relevant_points (fill_linear first second)) (real_dec _ _)) as (Q & HQ & LQ).
  destruct (Q_good _ _ Hf Hl e Hsh Q HQ LQ) as (T0 & Hk & Hm).
  assert (Hn : length (tag first second) = (length first + length second)%nat) by (unfold tag; rewrite app_length, !map_length; reflexivity).
  rewrite Hn in Hm. pose proof (Q_sheared _ e Hsh Q HQ) as Hs'.
  destruct (run_linear e Q Hs' _ (beyond x_max) (enough (length first + length second)) T0 _ [] Hk) as (T & s' & pl & sf & Hk' & Hg & He & R1 & R2); [intros ev []|lia|].
  unfold sweep_lefts in R. pose proof (R1 o 0%nat) as R1'. change (map EL (rev (finished (fill_linear first second) []))) with (@nil event) in R1'. rewrite R in R1'. injection R1' as -> _.
  assert (Es : lefts sf = lefts s' /\ rights sf = rights s') by (destruct He as [(_ & ->)|(ev & _ & _ & _ & _ & ->)]; split; reflexivity).
  destruct Es as (E1 & E2). rewrite E1 in Hi. replace (lft sf i) with (lft s' i) by (unfold lft; rewrite E1; reflexivity). replace (end_of sf i) with (end_of s' i) by (unfold end_of, lft, rgt; rewrite E1, E2; reflexivity).
  pose proof (k_inv _ _ _ _ _ _ Hk') as Iv. pose proof (i_wf _ _ _ _ _ Iv) as Hw. pose proof (b_geo _ _ _ _ (i_base _ _ _ _ _ Iv)) as Hgeo.
  assert (Hss : forall b sg, In (b, sg) (tag first second) -> In sg (first ++ second)).
  { intros b sg K. unfold tag in K. apply in_app_or in K. apply in_or_app. destruct K as [K|K]; apply in_map_iff in K; destruct K as (x & K & J); injection K as _ <-; auto. }
  split; apply (real_node _ _ Hf Hl e Hsh Q LQ _ Hss).
  - exact (proj2 (proj1 (HQ _) (st_ev_start e Q Hs' s' _ Hw Hgeo (EL i) Hi))).
  - exact (proj2 (proj1 (HQ _) (st_ev_start e Q Hs' s' _ Hw Hgeo (ER (l_right (lft s' i))) (proj1 (w_lr s' Hw i Hi))))).
Qed.
