(** The state a sweep starts from, and its invariant.  Proof support only, no
    part of /repo is modelled here. *)
From Coq Require Import Permutation.
From Verif Require Import QcTac Geom Spec GeomFacts Relation PairFacts SweepGeo SweepInv SweepSteps Sweep SweepCmp SweepLink Linear SweepRun SweepLoop.

(** Segments with their operands. *)
Definition tagged := list (bool * segment).
Definition tag (first second : list segment) : tagged := map (pair true) first ++ map (pair false) second.

Record filled (l : tagged) (s : state) : Prop := {
  f_lefts : length (lefts s) = length l;
  f_rights : length (rights s) = length l;
  f_line : line s = [];
  f_left : forall k b sg, nth_error l k = Some (b, sg) ->
    lft s k = LeftEvent (seg_lo sg) k b (negb (pt_ltb (s_end sg) (s_start sg))) false false NONE false None;
  f_right : forall k b sg, nth_error l k = Some (b, sg) -> rgt s k = RightEvent (seg_hi sg) k;
  f_nodup : NoDup (queue s);
  f_queue : forall ev, In ev (queue s) <-> in_range s ev;
  f_size : length (queue s) = (2 * length l)%nat
}.

Lemma nth_error_snoc : forall (A : Type) (l : list A) x k y, nth_error (l ++ [x]) k = Some y ->
  nth_error l k = Some y \/ (k = length l /\ y = x).
Proof.
  intros A l x k y H. destruct (Nat.lt_ge_cases k (length l)) as [K|K].
  - rewrite nth_error_app1 in H by exact K. left. exact H.
  - rewrite nth_error_app2 in H by exact K. destruct (k - length l)%nat as [|m] eqn:E; [|destruct m; discriminate H].
    right. cbn in H. injection H as <-. split; [lia|reflexivity].
Qed.

Lemma filled_empty : filled [] empty_state.
Proof.
  constructor; try reflexivity.
  - intros [|k] b sg H; discriminate H.
  - intros [|k] b sg H; discriminate H.
  - constructor.
  - intros [i|r]; cbn; lia.
Qed.
Lemma filled_one : forall l s b sg, filled l s -> filled (l ++ [(b, sg)]) (register_one b s sg).
Proof.
  intros l s b sg [H1 H2 H3 H4 H5 H6 H7 H8].
  assert (Hs : length (l ++ [(b, sg)]) = S (length l)) by (rewrite app_length; cbn; lia).
  constructor; cbn [register_one lefts rights queue line].
  - rewrite Hs, app_length. cbn. lia.
  - rewrite Hs, app_length. cbn. lia.
  - exact H3.
  - intros k b' sg' H. apply nth_error_snoc in H. unfold lft. cbn. destruct H as [H|(-> & H)].
    + rewrite app_nth1; [exact (H4 k b' sg' H)|]. rewrite H1. apply nth_error_Some. congruence.
    + injection H as -> ->. rewrite <- H1, nth_middle. rewrite H2, <- H1. reflexivity.
  - intros k b' sg' H. apply nth_error_snoc in H. unfold rgt. cbn. destruct H as [H|(-> & H)].
    + rewrite app_nth1; [exact (H5 k b' sg' H)|]. rewrite H2. apply nth_error_Some. congruence.
    + injection H as -> ->. rewrite <- H2, nth_middle. rewrite H1, <- H2. reflexivity.
  - constructor; [|constructor; [|exact H6]].
    + intros [K|K]; [discriminate K|]. apply H7 in K. cbn in K. lia.
    + intro K. apply H7 in K. cbn in K. lia.
  - intros ev. split.
    + intros [<-|[<-|K]]; cbn; try (rewrite app_length; cbn; lia).
      apply H7 in K. destruct ev; cbn in *; rewrite app_length; lia.
    + intro K. destruct ev as [i|r]; cbn in K; rewrite app_length in K; cbn in K.
      * destruct (Nat.eq_dec i (length (lefts s))) as [->|N]; [right; left; reflexivity|].
        right. right. apply H7. cbn. lia.
      * destruct (Nat.eq_dec r (length (rights s))) as [->|N]; [left; reflexivity|].
        right. right. apply H7. cbn. lia.
  - cbn [length]. rewrite Hs, H8. lia.
Qed.
Lemma filled_register : forall b segs l s, filled l s -> filled (l ++ map (pair b) segs) (register b segs s).
Proof.
  intros b segs. unfold register. induction segs as [|sg segs IH]; intros l s H; cbn [map fold_left].
  - rewrite app_nil_r. exact H.
  - change (l ++ (b, sg) :: map (pair b) segs) with (l ++ [(b, sg)] ++ map (pair b) segs). rewrite app_assoc.
    apply IH. apply filled_one. exact H.
Qed.
Lemma filled_linear : forall first second, filled (tag first second) (fill_linear first second).
Proof.
  intros first second. unfold fill_linear, tag. apply filled_register.
  change (map (pair true) first) with ([] ++ map (pair true) first). apply filled_register. apply filled_empty.
Qed.

(** Operands without degenerate segments and without overlaps of their own. *)
Definition lawful (l : tagged) : Prop :=
  (forall k b sg, nth_error l k = Some (b, sg) -> proper sg)
  /\ (forall i j b sg sg', i <> j -> nth_error l i = Some (b, sg) -> nth_error l j = Some (b, sg') -> ~ overlap sg sg').
Lemma nth_tag : forall first second k b sg, nth_error (tag first second) k = Some (b, sg) ->
  (b = true /\ nth_error first k = Some sg)
  \/ (b = false /\ (length first <= k)%nat /\ nth_error second (k - length first) = Some sg).
Proof.
  intros first second k b sg H. unfold tag in H. destruct (Nat.lt_ge_cases k (length (map (pair true) first))) as [K|K].
  - rewrite nth_error_app1 in H by exact K. rewrite nth_error_map in H.
    destruct (nth_error first k) as [x|]; [|discriminate H]. cbn in H. injection H as <- <-. left. split; reflexivity.
  - rewrite nth_error_app2 in H by exact K. rewrite nth_error_map in H. rewrite map_length in *.
    destruct (nth_error second (k - length first)) as [x|]; [|discriminate H]. cbn in H. injection H as <- <-. right.
    repeat split. exact K.
Qed.
Lemma lawful_tag : forall first second, Forall proper first -> Forall proper second ->
  pairwise (fun a b => ~ overlap a b) first -> pairwise (fun a b => ~ overlap a b) second -> lawful (tag first second).
Proof.
  intros first second P1 P2 O1 O2. rewrite Forall_forall in P1, P2. split.
  - intros k b sg H. apply nth_tag in H. destruct H as [(_ & H)|(_ & _ & H)]; apply nth_error_In in H; [exact (P1 _ H)|exact (P2 _ H)].
  - intros i j b sg sg' Hn Hi Hj. apply nth_tag in Hi. apply nth_tag in Hj.
    destruct Hi as [(-> & Hi)|(-> & Li & Hi)], Hj as [(Eb & Hj)|(Eb & Lj & Hj)]; try discriminate Eb.
    + exact (O1 i j _ _ Hn Hi Hj).
    + apply (O2 (i - length first)%nat (j - length first)%nat); [lia|exact Hi|exact Hj].
Qed.

Section Init.
Variables (l : tagged) (s : state).
Hypothesis Hf : filled l s.
Hypothesis Hl : lawful l.
Notation n := (length (lefts s)).

Lemma in_tag : forall i, (i < n)%nat -> exists b sg, nth_error l i = Some (b, sg).
Proof.
  intros i Hi. rewrite (f_lefts _ _ Hf) in Hi. apply nth_error_Some in Hi. destruct (nth_error l i) as [(b, sg)|]; [|congruence].
  exists b, sg. reflexivity.
Qed.
Lemma init_wf : wf s.
Proof.
  constructor.
  - rewrite (f_rights _ _ Hf), (f_lefts _ _ Hf). reflexivity.
  - intros i Hi. destruct (in_tag i Hi) as (b & sg & E). rewrite (f_left _ _ Hf i b sg E). cbn [l_right].
    rewrite (f_right _ _ Hf i b sg E). rewrite (f_rights _ _ Hf), <- (f_lefts _ _ Hf). split; [exact Hi|reflexivity].
  - intros r Hr. rewrite (f_rights _ _ Hf), <- (f_lefts _ _ Hf) in Hr. destruct (in_tag r Hr) as (b & sg & E).
    rewrite (f_right _ _ Hf r b sg E). cbn [r_left]. rewrite (f_left _ _ Hf r b sg E). split; [exact Hr|reflexivity].
  - intros ev H. apply (f_queue _ _ Hf). exact H.
Qed.
Lemma init_seg : forall i b sg, nth_error l i = Some (b, sg) ->
  seg_of s i = Seg (seg_lo sg) (seg_hi sg) /\ l_first (lft s i) = b.
Proof.
  intros i b sg E. unfold seg_of, end_of. rewrite (f_left _ _ Hf i b sg E). cbn [l_start l_right l_first].
  rewrite (f_right _ _ Hf i b sg E). split; reflexivity.
Qed.
Lemma init_on : forall i b sg p, nth_error l i = Some (b, sg) -> (on_segment p (seg_of s i) <-> on_segment p sg).
Proof. intros i b sg p E. rewrite (proj1 (init_seg i b sg E)). symmetry. apply on_segment_norm. Qed.
Lemma init_plt : forall i, (i < n)%nat -> plt (l_start (lft s i)) (end_of s i).
Proof.
  intros i Hi. destruct (in_tag i Hi) as (b & sg & E). destruct (init_seg i b sg E) as (K & _). unfold seg_of in K.
  pose proof (f_equal s_start K) as K1. pose proof (f_equal s_end K) as K2. cbn [s_start s_end] in K1, K2. rewrite K1, K2.
  apply seg_lo_lt_hi. exact (proj1 Hl i b sg E).
Qed.
(** Endpoints of the segments and their common points. *)
Definition relevant_points : list point :=
  flat_map (fun i => [l_start (lft s i); end_of s i]) (seq 0 n)
  ++ flat_map (fun i => map (fun j => segments_intersection (seg_of s i) (seg_of s j)) (seq 0 n)) (seq 0 n).
Lemma relevant_start : forall i, (i < n)%nat -> In (l_start (lft s i)) relevant_points.
Proof.
  intros i Hi. apply in_or_app. left. apply in_flat_map. exists i. split; [apply in_seq; lia|left; reflexivity].
Qed.
Lemma relevant_end : forall i, (i < n)%nat -> In (end_of s i) relevant_points.
Proof.
  intros i Hi. apply in_or_app. left. apply in_flat_map. exists i. split; [apply in_seq; lia|right; left; reflexivity].
Qed.
Lemma relevant_meet : forall i j, (i < n)%nat -> (j < n)%nat ->
  In (segments_intersection (seg_of s i) (seg_of s j)) relevant_points.
Proof.
  intros i j Hi Hj. apply in_or_app. right. apply in_flat_map. exists i. split; [apply in_seq; lia|].
  apply in_map_iff. exists j. split; [reflexivity|apply in_seq; lia].
Qed.
Lemma flat_map_const : forall (A B : Type) (f : A -> list B) k (xs : list A), (forall x, In x xs -> length (f x) = k) ->
  length (flat_map f xs) = (length xs * k)%nat.
Proof.
  intros A B f k xs H. induction xs as [|x xs IH]; [reflexivity|]. cbn. rewrite app_length, IH, (H x (or_introl eq_refl)).
  - reflexivity.
  - intros y Hy. apply H. right. exact Hy.
Qed.
Lemma filter_short : forall (A : Type) (f : A -> bool) xs, (length (filter f xs) <= length xs)%nat.
Proof. intros A f xs. induction xs as [|x xs IH]; [cbn; lia|]. cbn. destruct (f x); cbn; lia. Qed.
Lemma relevant_length : length relevant_points = (2 * n + n * n)%nat.
Proof.
  unfold relevant_points. rewrite app_length, (flat_map_const _ _ _ 2), (flat_map_const _ _ _ n).
  - rewrite seq_length. lia.
  - intros x _. rewrite map_length, seq_length. reflexivity.
  - intros x _. reflexivity.
Qed.

Variable e : Qc.
Hypothesis Hsh : Sheared e relevant_points.
Notation P := relevant_points.

Lemma init_len : forall i, (i < n)%nat -> lo (pc e s i) < hi (pc e s i).
Proof.
  intros i Hi. apply (sheared_lt e P Hsh _ _ (relevant_start i Hi) (relevant_end i Hi)). exact (init_plt i Hi).
Qed.
Lemma init_geo : geo (V e P) (Ts e P) (abs e s []).
Proof.
  constructor; cbn [abs vn vp].
  - exact init_len.
  - intros i Hi. split; [|exact (in_map (pos e) _ _ (relevant_start i Hi))].
    rewrite pc_ht_lo. symmetry. exact (V_pos e P Hsh _ (relevant_start i Hi)).
  - intros i Hi. split; [|exact (in_map (pos e) _ _ (relevant_end i Hi))].
    rewrite (pc_ht_hi e s i (init_len i Hi)). symmetry. exact (V_pos e P Hsh _ (relevant_end i Hi)).
  - intros i j t Hi Hj Hc Ti Tj E.
    set (p := at_pos e t (ht (pc e s i) t)).
    assert (Pi : on_segment p (seg_of s i)) by exact (pc_on_at e s i t (init_len i Hi) Ti).
    assert (Pj : on_segment p (seg_of s j)) by (unfold p; rewrite E; exact (pc_on_at e s j t (init_len j Hj) Tj)).
    assert (Hu : segments_intersection (seg_of s i) (seg_of s j) = p).
    { apply segments_intersection_unique.
      - exact (plt_neq _ _ (init_plt i Hi)).
      - exact (plt_neq _ _ (init_plt j Hj)).
      - split; assumption.
      - intros q (Q1 & Q2). apply (pc_on e s i q (init_len i Hi)) in Q1. apply (pc_on e s j q (init_len j Hj)) in Q2.
        destruct Q1 as (Q1 & Q3), Q2 as (Q2 & Q4). rewrite Q3 in Q4.
        pose proof (one_meet _ _ t (pos e q) Hc E Q4) as Et. apply (pos_inj e).
        + rewrite Et. unfold p. rewrite pos_at. reflexivity.
        + unfold p. rewrite py_at, Q3, Et. reflexivity. }
    pose proof (relevant_meet i j Hi Hj) as Hm. rewrite Hu in Hm.
    pose proof (V_pos e P Hsh p Hm) as K1. pose proof (in_map (pos e) _ _ Hm) as K2.
    unfold p in K1, K2. rewrite pos_at, ?py_at in K1, K2. split; [symmetry; exact K1|exact K2].
  - intros i j Hi Hj Hn Ho Hc. destruct (in_tag i Hi) as (b & sg & Ei). destruct (in_tag j Hj) as (b' & sg' & Ej).
    destruct (init_seg i b sg Ei) as (_ & Fi). destruct (init_seg j b' sg' Ej) as (_ & Fj).
    cbn [pc op] in Ho. rewrite Fi, Fj in Ho. subst b'.
    pose proof (init_len i Hi) as Li. pose proof (init_len j Hj) as Lj.
    destruct (Qclt_le_dec (lo (pc e s j)) (hi (pc e s i))) as [K|K]; [|left; exact K].
    destruct (Qclt_le_dec (lo (pc e s i)) (hi (pc e s j))) as [J|J]; [|right; exact J].
    exfalso. apply (proj2 Hl i j b sg sg' Hn Ei Ej).
    set (m := Qc_max (lo (pc e s i)) (lo (pc e s j))). set (k := Qc_min (hi (pc e s i)) (hi (pc e s j))).
    assert (Hmk : m < k).
    { unfold m, k. destruct (Qc_max_cases (lo (pc e s i)) (lo (pc e s j))) as [(-> & _)|(-> & _)];
        apply Qc_min_lt; assumption. }
    pose proof (max_l (lo (pc e s i)) (lo (pc e s j))) as M1. pose proof (max_r (lo (pc e s i)) (lo (pc e s j))) as M2.
    pose proof (Qc_min_le_l (hi (pc e s i)) (hi (pc e s j))) as M3. pose proof (Qc_min_le_r (hi (pc e s i)) (hi (pc e s j))) as M4.
    fold m in M1, M2. fold k in M3, M4.
    exists (at_pos e m (ht (pc e s i) m)), (at_pos e k (ht (pc e s i) k)).
    split; [intro E; pose proof (f_equal (pos e) E) as E'; rewrite !pos_at in E'; qlra|].
    assert (Q1 : forall t, m <= t -> t <= k -> on_segment (at_pos e t (ht (pc e s i) t)) sg /\ on_segment (at_pos e t (ht (pc e s i) t)) sg').
    { intros t T1 T2. split.
      - apply (init_on i b sg _ Ei). apply (pc_on_at e s i t Li). split; qlra.
      - apply (init_on j b sg' _ Ej). rewrite (coll_ht _ _ t Hc). apply (pc_on_at e s j t Lj). split; qlra. }
    destruct (Q1 m (Qcle_refl _) (Qclt_le_weak _ _ Hmk)). destruct (Q1 k (Qclt_le_weak _ _ Hmk) (Qcle_refl _)). tauto.
Qed.

Lemma below_all : forall ts : list Qc, exists t, forall t', In t' ts -> t < t'.
Proof.
  induction ts as [|x ts (t & IH)]; [exists 0; intros t' []|].
  exists (Qc_min t x - 1). intros t' [<-|H].
  - pose proof (Qc_min_le_r t x). qlra.
  - pose proof (Qc_min_le_l t x). specialize (IH t' H). qlra.
Qed.

Lemma init_good : exists T, good e P s T s [] /\ (measure (Ts e P) (abs e s (finished s [])) < enough (length l))%nat.
Proof.
  destruct (below_all (Ts e P)) as (T & HT). exists T. split.
  - constructor.
    + constructor.
      * exact init_wf.
      * constructor; cbn [abs vn vp vq vs SweepInv.vo finished map filter rev].
        -- exact init_geo.
        -- constructor; unfold future, pending, active, done; cbn [abs vn vp vq vs SweepInv.vo finished map filter rev].
           ++ pose proof init_wf as Hw. clear - Hf Hw. pose proof (f_nodup _ _ Hf) as Hn.
              assert (H : forall ev, In ev (queue s) -> in_range s ev) by (intro ev; apply (f_queue _ _ Hf)). revert Hn H.
              generalize (queue s). intros q. induction q as [|ev q IH]; intros Hn H; [constructor|].
              inversion Hn as [|? ? Hn1 Hn2]; subst. cbn. constructor.
              ** intro K. apply in_map_iff in K. destruct K as (ev' & K1 & K2). apply Hn1.
                 rewrite <- (evn_inj s ev' ev Hw (H ev' (or_intror K2)) (H ev (or_introl eq_refl)) K1). exact K2.
              ** apply IH; [exact Hn2|]. intros ev' K. apply H. right. exact K.
           ++ intros b i K. apply in_map_iff in K. destruct K as (ev & K1 & K2). apply (f_queue _ _ Hf) in K2.
              rewrite evn_left in K1. injection K1 as _ <-. exact (left_of_range s ev init_wf K2).
           ++ intros i K. apply in_map_iff in K. destruct K as (ev & K1 & K2). rewrite evn_left in K1. injection K1 as _ K1.
              apply (f_queue _ _ Hf) in K2. pose proof (left_of_range s ev init_wf K2) as K3. rewrite K1 in K3.
              apply in_map_iff. exists (ER (l_right (lft s i))). destruct (w_lr s init_wf i K3) as (K4 & K5). split.
              ** cbn [evn]. rewrite K5. reflexivity.
              ** apply (f_queue _ _ Hf). exact K4.
           ++ intro i. rewrite (f_line _ _ Hf). split; [intros []|]. intros (K & J). apply J.
              apply in_map_iff in K. destruct K as (ev & K1 & K2). rewrite evn_left in K1. injection K1 as _ K1.
              apply (f_queue _ _ Hf) in K2. pose proof (left_of_range s ev init_wf K2) as K3. rewrite K1 in K3.
              apply in_map_iff. exists (EL i). split; [reflexivity|apply (f_queue _ _ Hf); exact K3].
           ++ intro i. split; [intros []|]. intros (K & J). apply J.
              apply in_map_iff. exists (ER (l_right (lft s i))). destruct (w_lr s init_wf i K) as (K4 & K5). split.
              ** cbn [evn]. rewrite K5. reflexivity.
              ** apply (f_queue _ _ Hf). exact K4.
           ++ rewrite (f_line _ _ Hf). constructor.
           ++ constructor.
        -- intros i Hi. unfold active in Hi. cbn in Hi. rewrite (f_line _ _ Hf) in Hi. destruct Hi.
        -- intros i [].
        -- intros i Hi. apply future_event in Hi. apply (f_queue _ _ Hf) in Hi. apply Qclt_le_weak. apply HT.
           apply (in_map (pos e)). exact (relevant_start i Hi).
        -- rewrite (f_line _ _ Hf). constructor.
        -- rewrite (f_line _ _ Hf). constructor.
        -- intros i j t _ [Hi|[]]. unfold active in Hi. cbn in Hi. rewrite (f_line _ _ Hf) in Hi. destruct Hi.
        -- intros x y _ [].
      * intros l1 a b l2 E. cbn in E. rewrite (f_line _ _ Hf) in E. destruct l1; discriminate E.
      * intros x y _ _ _ [].
      * intros x y [].
    + intro ev. split; [intros []|]. intros (K & J). apply J. apply (f_queue _ _ Hf). exact K.
    + constructor.
    + intros ev [].
    + constructor.
    + apply sourced_refl.
  - unfold measure. cbn [abs vn vp vq]. rewrite map_length, (f_size _ _ Hf).
    assert (Hsum : forall (xs : list nat) k f, (forall i, f i <= k)%nat -> (list_sum (map f xs) <= length xs * k)%nat).
    { intros xs k f H. induction xs as [|x xs IH]; [cbn; lia|]. change (f x + list_sum (map f xs) <= S (length xs) * k)%nat. specialize (H x). lia. }
    pose proof (Hsum (seq 0 n) (length P) (fun i => inners (Ts e P) (pc e s i))) as K.
    rewrite seq_length, relevant_length in K.
    assert (Hb : forall i, (inners (Ts e P) (pc e s i) <= 2 * n + n * n)%nat).
    { intro i. unfold inners. rewrite <- relevant_length. rewrite <- (map_length (pos e) P). apply filter_short. }
    specialize (K Hb). unfold enough. rewrite (f_lefts _ _ Hf) in *. lia.
Qed.
End Init.
