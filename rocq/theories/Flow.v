(** Flow of labels through the processing of an event.
    Proof support only, no part of /repo is modelled here. *)
From Coq Require Import Permutation.
From Verif Require Import QcTac Geom Spec GeomFacts Relation PairFacts SweepGeo SweepInv SweepSteps Sweep SweepCmp SweepLink Linear SweepRun SweepLoop Labelled NaryThms Erase.

Section Frame.
Variables (e : Qc) (P : list point).
Hypothesis Hsh : Sheared e P.
Notation V := (V e P).
Notation Ts := (Ts e P).
Notation abs := (abs e).
Notation pc := (pc e).

(** Detection reports twins. *)
Lemma detect_flag : forall T s vo a b s' f, wf s -> base V Ts T (abs s vo) -> In a (line s) -> In b (line s) -> a <> b ->
  detect Linear a b s = Ok (s', f) -> (f = true <-> twin (pc s a) (pc s b)).
Proof.
  intros T s vo a b s' f Hw Hb Ia Ib Hab Hd.
  pose proof (b_q V Ts T _ Hb) as Hq. pose proof (b_geo V Ts T _ Hb) as Hg.
  assert (La : (a < length (lefts s))%nat) by exact (active_lt _ _ Hq (Ia : active (abs s vo) a)).
  assert (Lb : (b < length (lefts s))%nat) by exact (active_lt _ _ Hq (Ib : active (abs s vo) b)).
  pose proof (st_plt e P Hsh s vo Hg a La) as Ta. pose proof (st_plt e P Hsh s vo Hg b Lb) as Tb.
  destruct (norm_id _ _ Ta) as (A1 & A2). destruct (norm_id _ _ Tb) as (B1 & B2).
  pose proof (segments_relation_spec (seg_of s a) (seg_of s b) (st_proper e P Hsh s vo Hg a La) (st_proper e P Hsh s vo Hg b Lb)) as R.
  pose proof (st_len e P s vo Hg a La) as Ga. pose proof (st_len e P s vo Hg b Lb) as Gb.
  split.
  - (* reported *)
    intros ->. unfold detect in Hd.
    assert (K : coll (pc s a) (pc s b) -> 
        (if Bool.eqb (l_first (lft s a)) (l_first (lft s b)) then Err ValueError else
         let starts_equal := pt_eqb (l_start (lft s a)) (l_start (lft s b)) in
         let '(start_min, start_max) := if key_ltb Linear s (EL b) (EL a) then (b, a) else (a, b) in
         let ends_equal := pt_eqb (end_of s b) (end_of s a) in
         let '(end_min, end_max) := if key_ltb Linear s (ER (l_right (lft s b))) (ER (l_right (lft s a)))
           then (l_right (lft s b), l_right (lft s a)) else (l_right (lft s a), l_right (lft s b)) in
         let end_min_start := r_start (rgt s end_min) in
         let end_max_left := r_left (rgt s end_max) in
         let start_max_start := l_start (lft s start_max) in
         if starts_equal then Ok (if ends_equal then s else divide end_max_left end_min_start s, true)
         else if ends_equal then Ok (divide start_min start_max_start s, false)
         else if Nat.eqb start_min end_max_left then Ok (divide start_min start_max_start (divide start_min end_min_start s), false)
         else Ok (divide start_min start_max_start (divide start_max end_min_start s), false)) = Ok (s', true) -> twin (pc s a) (pc s b)).
    { intros C. destruct (Bool.eqb (l_first (lft s a)) (l_first (lft s b))) eqn:Eo; [discriminate|]. cbn zeta.
      destruct (key_ltb _ _ _ _), (key_ltb _ _ _ _); (destruct (pt_eqb_spec (l_start (lft s a)) (l_start (lft s b))) as [Es|Es];
        [intros _; split; [exact C|split; [unfold SweepCmp.pc; cbn; rewrite Es; reflexivity|cbn; apply Bool.eqb_false_iff; exact Eo]]
        |destruct (pt_eqb (end_of s b) (end_of s a)); [intro H; discriminate H|destruct (Nat.eqb _ _); intro H; discriminate H]]). }
    cbn [mark_overlap mark_kind] in Hd.
    destruct (segments_relation (seg_of s a) (seg_of s b)) eqn:Er; inversion R; subst.
    + discriminate Hd.
    + destruct (negb _ && negb _); discriminate Hd.
    + destruct (negb _ && negb _); discriminate Hd.
    + exact (K (collinear_coll e P Hsh s vo Hg a b La Lb H) Hd).
    + exact (K (collinear_coll e P Hsh s vo Hg a b La Lb H) Hd).
    + apply K; [|exact Hd]. unfold seg_of in H, H0. rewrite A1, B1 in H. rewrite A2, B2 in H0. unfold coll, SweepCmp.pc. cbn. rewrite H, H0. split; reflexivity.
    + exact (K (collinear_coll e P Hsh s vo Hg a b La Lb H) Hd).
  - (* twins *)
    intros (C & L & O).
    assert (Es : l_start (lft s a) = l_start (lft s b)).
    { apply (sheared_eq e P Hsh); [exact (st_start e P Hsh s vo Hg a La)|exact (st_start e P Hsh s vo Hg b Lb)|exact L]. }
    assert (Two : forall p, (forall q, common (seg_of s a) (seg_of s b) q -> q = p) -> False).
    { intros p Hu. set (t1 := lo (pc s a)). set (t2 := Qc_min (hi (pc s a)) (hi (pc s b))).
      assert (Ht : t1 < t2) by (unfold t1, t2; destruct (Qc_min_cases (hi (pc s a)) (hi (pc s b))) as [(-> & _)|(-> & _)]; [exact Ga|rewrite L; exact Gb]).
      assert (M1 : t2 <= hi (pc s a)) by apply Qc_min_le_l. assert (M2 : t2 <= hi (pc s b)) by apply Qc_min_le_r.
      pose proof (Hu _ (common_at e P s vo Hg a b La Lb t1 ltac:(split; unfold t1; qlra) ltac:(split; unfold t1; qlra) (coll_ht _ _ _ C))) as E1.
      pose proof (Hu _ (common_at e P s vo Hg a b La Lb t2 ltac:(split; unfold t1 in *; qlra) ltac:(split; unfold t1 in *; qlra) (coll_ht _ _ _ C))) as E2.
      rewrite <- E2 in E1. apply (f_equal (pos e)) in E1. rewrite !pos_at in E1. qlra. }
    unfold detect in Hd. cbn [mark_overlap mark_kind] in Hd.
    assert (Eo : Bool.eqb (l_first (lft s a)) (l_first (lft s b)) = false) by (apply Bool.eqb_false_iff; exact O).
    rewrite Eo in Hd. destruct (pt_eqb_spec (l_start (lft s a)) (l_start (lft s b))) as [_|N]; [|contradiction].
    assert (K : f = true \/ segments_relation (seg_of s a) (seg_of s b) = DISJOINT \/ segments_relation (seg_of s a) (seg_of s b) = TOUCH \/ segments_relation (seg_of s a) (seg_of s b) = CROSS).
    { destruct (segments_relation _ _); try (right; tauto); left;
        destruct (key_ltb _ _ _ _), (key_ltb _ _ _ _); injection Hd as _ <-; reflexivity. }
    destruct K as [K|K]; [exact K|exfalso].
    destruct K as [K|[K|K]]; rewrite K in R; inversion R; subst.
    + apply (H (at_pos e (lo (pc s a)) (ht (pc s a) (lo (pc s a))))). apply (common_at e P s vo Hg a b La Lb); [split; qlra|split; qlra|apply coll_ht; exact C].
    + exact (Two p H0).
    + exact (Two p H0).
Qed.

(** Vertical pieces are those of a certain slope. *)
Lemma vertical_slope : forall s vo, geo V Ts (abs s vo) -> forall z, (z < length (lefts s))%nat -> is_vertical s z = true <-> sl (pc s z) * e = 1.
Proof.
  intros s vo Hg z Hz. pose proof (st_plt e P Hsh s vo Hg z Hz) as L. pose proof (st_len e P s vo Hg z Hz) as N.
  unfold is_vertical. cbn [SweepCmp.pc lo hi sl] in *. set (a := l_start (lft s z)) in *. set (b := end_of s z) in *.
  pose proof (slope_eq e a b ltac:(intro K; clear - K N; qlra)) as S. set (m := slope e a b) in *.
  assert (D : m * (px b - px a) + (m * e - 1) * (py b - py a) = 0) by (unfold pos in S; clear - S; qlra).
  destruct (Qc_eqb_spec (px a) (px b)) as [E|E]; (split; [|congruence || (intro H)]); try (intro H; discriminate H).
  - intros _. assert (Dy : py a < py b) by (destruct L as [K|(_ & K)]; [clear - K E; qlra|exact K]).
    rewrite E in D. replace (m * (px b - px b) + (m * e - 1) * (py b - py a)) with ((m * e - 1) * (py b - py a)) in D by ring.
    apply Qcmult_integral in D. destruct D as [D|D]; clear - D Dy; qlra.
  - exfalso. rewrite H in D. replace (m * (px b - px a) + (1 - 1) * (py b - py a)) with (m * (px b - px a)) in D by ring.
    apply Qcmult_integral in D. destruct D as [D|D]; [rewrite D in H; clear - H; assert (K : 0 * e = 0) by ring; rewrite K in H; discriminate H|apply E; clear - D; qlra].
Qed.
Lemma vertical_erase : forall s z, is_vertical (erase s) z = is_vertical s z.
Proof. intros s z. unfold is_vertical. rewrite lft_erase, end_erase. reflexivity. Qed.

Section Run.
Variables (k : kind) (holey : bool) (result : left_event -> bool) (rf : bool -> bool -> overlap_kind -> bool).
Hypothesis Hk : k = Mixed \/ k = Shaped.
Hypothesis Hrf : forall ev, result ev = rf (l_first ev) (l_other ev) (ovl k ev).

Lemma not_nary : k <> Nary.
Proof. destruct Hk; congruence. Qed.

(** The event in the result found from the neighbour [b] below. *)
Definition pointed (s : state) (i : nat) (b : option nat) (s' : state) : Prop :=
  k = Shaped ->
  match b, holey with
  | Some z, true => forall c, l_below (lft s' i) = Some c -> (c = z /\ result (lft s' z) = true) \/ l_below (lft s' z) = Some c
  | _, _ => l_below (lft s' i) = l_below (lft s i)
  end.
(** The same as computed before ends have moved. *)
Definition pointing (s : state) (i : nat) (b : option nat) (s' : state) : Prop :=
  k = Shaped -> holey = true ->
  match b with
  | Some z => l_below (lft s' i) = if negb (result (lft s' z)) || is_vertical s z then l_below (lft s' z) else Some z
  | None => l_below (lft s' i) = l_below (lft s i)
  end.
(** Fields set for an event. *)
Record set_to (s : state) (i : nat) (b : option nat) (other : bool) (o : overlap_kind) (s' : state) : Prop := {
  st_other : l_other (lft s' i) = other;
  st_result : l_result (lft s' i) = rf (l_first (lft s i)) other o;
  st_kind : k = Shaped -> l_kind (lft s' i) = o;
  st_below : pointed s i b s'
}.
Definition left_alone (s s' : state) (j : nat) : Prop :=
  l_other (lft s' j) = l_other (lft s j) /\ l_result (lft s' j) = l_result (lft s j)
  /\ l_below (lft s' j) = l_below (lft s j) /\ l_kind (lft s' j) = l_kind (lft s j).
(** Nothing changes for a neighbour. *)
Definition alike (a b : left_event) : Prop := kept a b /\ l_kind a = l_kind b.
Lemma alike_refl : forall a, alike a a.
Proof. intro a. repeat split. Qed.
Lemma alike_trans : forall a b c, alike a b -> alike b c -> alike a c.
Proof. intros a b c (H1 & H2) (J1 & J2). split; [exact (kept_trans _ _ _ H1 J1)|congruence]. Qed.
Lemma unchanged_alike : forall a b, unchanged a b -> alike a b.
Proof. intros a b (H & _ & J). split; assumption. Qed.
Lemma alike_result : forall a b, k = Shaped -> alike a b -> result a = result b.
Proof. intros a b E ((H1 & _ & H3 & _) & H). rewrite !Hrf, E. cbn [ovl]. rewrite H1, H3, H. reflexivity. Qed.
Lemma pointed_compute : forall s i b s1, (i < length (lefts s1))%nat -> b <> Some i -> l_below (lft s1 i) = l_below (lft s i) ->
  pointed s i b (compute_fields holey result i b s1).
Proof.
  intros s i b s1 H N E K. pose proof (compute_below result holey i b s1 H N) as C.
  destruct b as [z|]; [|rewrite C; exact E]. destruct holey; [|rewrite C; exact E].
  intros c Hc. rewrite (compute_others result true i (Some z) s1 z) by (try exact H; congruence). rewrite C in Hc.
  destruct (result (lft s1 z)); cbn [negb orb] in Hc; [|right; exact Hc].
  destruct (is_vertical s1 z); [right; exact Hc|left; split; [congruence|reflexivity]].
Qed.
(** A second computation overrides the first one. *)
Lemma pointed_again : forall s i b s0 s1, (i < length (lefts s1))%nat -> b <> Some i -> pointed s i b s0 -> l_below (lft s1 i) = l_below (lft s0 i) ->
  pointed s i b (compute_fields holey result i b s1).
Proof.
  intros s i b s0 s1 H N E E1 K. specialize (E K). pose proof (compute_below result holey i b s1 H N) as C.
  destruct b as [z|]; [|rewrite C; congruence]. destruct holey; [|rewrite C; congruence].
  intros c Hc. rewrite (compute_others result true i (Some z) s1 z) by (try exact H; congruence). rewrite C in Hc.
  destruct (result (lft s1 z)); cbn [negb orb] in Hc; [|right; exact Hc].
  destruct (is_vertical s1 z); [right; exact Hc|left; split; [congruence|reflexivity]].
Qed.
Lemma pointed_keep : forall s i b s1 s2, pointed s i b s1 -> l_below (lft s2 i) = l_below (lft s1 i) ->
  (forall z, b = Some z -> alike (lft s2 z) (lft s1 z)) -> pointed s i b s2.
Proof.
  intros s i b s1 s2 H E A K. specialize (H K). destruct b as [z|]; [|congruence]. destruct holey; [|congruence].
  intros c Hc. rewrite E in Hc. pose proof (A z eq_refl) as Az. rewrite (alike_result _ _ K Az). destruct Az as ((_ & _ & _ & _ & Eb) & _). rewrite Eb.
  exact (H c Hc).
Qed.
Lemma pointing_compute : forall s i b s1, (i < length (lefts s1))%nat -> b <> Some i -> l_below (lft s1 i) = l_below (lft s i) ->
  (forall z, b = Some z -> is_vertical s1 z = is_vertical s z) -> pointing s i b (compute_fields holey result i b s1).
Proof.
  intros s i b s1 H N E Ev Ks Eh. pose proof (compute_below result holey i b s1 H N) as C. destruct b as [z|]; [|rewrite C; exact E].
  rewrite (compute_others result holey i (Some z) s1 z) by (try exact H; congruence). rewrite C, Eh, (Ev z eq_refl). reflexivity.
Qed.
Lemma pointing_fresh : forall s i b s1, (i < length (lefts s1))%nat -> b <> Some i -> (b = None -> l_below (lft s1 i) = l_below (lft s i)) ->
  (forall z, b = Some z -> is_vertical s1 z = is_vertical s z) -> pointing s i b (compute_fields holey result i b s1).
Proof.
  intros s i b s1 H N E Ev Ks Eh. pose proof (compute_below result holey i b s1 H N) as C. destruct b as [z|]; [|rewrite C; exact (E eq_refl)].
  rewrite (compute_others result holey i (Some z) s1 z) by (try exact H; congruence). rewrite C, Eh, (Ev z eq_refl). reflexivity.
Qed.
Lemma pointing_keep : forall s i b s1 s2, pointing s i b s1 -> l_below (lft s2 i) = l_below (lft s1 i) ->
  (forall z, b = Some z -> alike (lft s2 z) (lft s1 z)) -> pointing s i b s2.
Proof.
  intros s i b s1 s2 H E A Ks Eh. specialize (H Ks Eh). destruct b as [z|]; [|congruence].
  pose proof (A z eq_refl) as Az. rewrite (alike_result _ _ Ks Az). destruct Az as ((_ & _ & _ & _ & Eb) & _). rewrite Eb, E. exact H.
Qed.

(** The whole processing of a left event added between [l1] and [l2]. *)
Record added (s : state) (i : nat) (l1 l2 : list nat) (s' : state) : Prop := {
  ad_len : (length (lefts s) <= length (lefts s'))%nat;
  ad_same : forall j, (j < length (lefts s))%nat -> l_first (lft s' j) = l_first (lft s j) /\ l_interior (lft s' j) = l_interior (lft s j);
  ad_new : forall j, (length (lefts s) <= j)%nat -> lft s' j = strip (lft s' j);
  ad_far : forall j, (j < length (lefts s))%nat -> ~ In j (l1 ++ i :: l2) -> unchanged (lft s' j) (lft s j);
  ad_above : forall a m, l2 = a :: m -> twin (pc s i) (pc s a) ->
    set_to s a (Some i) (l_interior (lft s i)) (pair_kind k (lft s i) (lft s a)) s'
    /\ set_to s i (last_error l1) (other_of s i (last_error l1)) (pair_kind k (lft s i) (lft s a)) s';
  ad_below : forall b m, l1 = m ++ [b] -> twin (pc s b) (pc s i) ->
    set_to s b (last_error m) (other_of s b (last_error m)) (pair_kind k (lft s b) (lft s i)) s'
    /\ set_to s i (Some b) (l_interior (lft s b)) (pair_kind k (lft s b) (lft s i)) s';
  ad_alone : (forall j, In j (l1 ++ l2) -> ~ twin (pc s i) (pc s j)) -> set_to s i (last_error l1) (other_of s i (last_error l1)) NONE s';
  ad_exact : (forall j, In j (l1 ++ l2) -> ~ twin (pc s i) (pc s j)) -> pointing s i (last_error l1) s';
  ad_above_exact : forall a m, l2 = a :: m -> twin (pc s i) (pc s a) -> pointing s a (Some i) s' /\ pointing s i (last_error l1) s';
  ad_below_exact : forall b m, l1 = m ++ [b] -> twin (pc s b) (pc s i) -> pointing s b (last_error m) s' /\ pointing s i (Some b) s';
  ad_rest : forall j, (j < length (lefts s))%nat -> j <> i -> ~ twin (pc s i) (pc s j) -> left_alone s s' j
}.

Lemma pc_erase : forall s i, pc (erase s) i = pc s i.
Proof. intros s i. unfold SweepCmp.pc. rewrite lft_erase, end_erase. reflexivity. Qed.
Lemma other_ext : forall s s' i b, l_first (lft s' i) = l_first (lft s i) ->
  match b with None => l_other (lft s' i) = l_other (lft s i) | Some b => l_first (lft s' b) = l_first (lft s b) /\ l_interior (lft s' b) = l_interior (lft s b) /\ l_other (lft s' b) = l_other (lft s b) end ->
  other_of s' i b = other_of s i b.
Proof. intros s s' i [b|] E H; cbn [other_of]; [|exact H]. destruct H as (H1 & H2 & H3). rewrite E, H1, H2, H3. reflexivity. Qed.
Lemma unchanged_alone : forall s s' j, unchanged (lft s' j) (lft s j) -> left_alone s s' j.
Proof. intros s s' j ((_ & _ & H & J & K) & _ & L). repeat split; assumption. Qed.
Lemma twin_sym : forall x y, twin x y -> twin y x.
Proof. intros x y (C & L & O). split; [apply coll_sym; exact C|]. split; [symmetry; exact L|]. intro K. apply O. symmetry. exact K. Qed.
Lemma twins_eqb : forall s a b, twin (pc s a) (pc s b) -> Bool.eqb (l_first (lft s a)) (l_first (lft s b)) = false.
Proof. intros s a b (_ & _ & H). apply Bool.eqb_false_iff. exact H. Qed.

Section Add.
Variables (T : Qc) (s : state) (vo : list nat) (i : nat) (l1 l2 : list nat) (s1 s2 sb : state).
Notation n := (length (lefts s)).
Hypothesis Fr : lft s i = strip (lft s i).
Hypothesis Es1 : s1 = with_line (unqueue (EL i) (erase s)) (l1 ++ i :: l2).
Hypothesis W1 : wf s1.
Hypothesis B1 : base V Ts T (abs s1 vo).
Hypothesis Hline : forall shape, line_contains Linear shape (unqueue (EL i) (erase s)) i = false
        /\ line_add Linear shape i (unqueue (EL i) (erase s)) = s1
        /\ line_above Linear shape s1 i = hd_error l2 /\ line_below Linear shape s1 i = last_error l1.
Hypothesis D2 : detect_above Linear i (hd_error l2) s1 = Ok s2.
Hypothesis W2 : wf s2.
Hypothesis Cu12 : cuts V Ts T (fun _ => True) (abs s1 vo) (abs s2 vo).
Hypothesis D3 : detect_below Linear i (last_error l1) s2 = Ok sb.
Hypothesis Cu : cuts V Ts T (fun _ => True) (abs s1 vo) (abs sb vo).
Hypothesis Wb : wf sb.

Let sA := with_line (unqueue (EL i) s) (l1 ++ i :: l2).
Let EA : erase sA = s1.
Proof. rewrite Es1. reflexivity. Qed.
Let LA : line s1 = l1 ++ i :: l2.
Proof. rewrite Es1. reflexivity. Qed.
Let Nd : NoDup (l1 ++ i :: l2).
Proof. rewrite <- LA. exact (q_vs _ (b_q _ _ _ _ B1)). Qed.
Let Rng : forall j, In j (l1 ++ i :: l2) -> (j < n)%nat.
Proof.
  intros j H. rewrite <- LA in H. pose proof (active_lt _ _ (b_q _ _ _ _ B1) (H : active (abs s1 vo) j)) as K.
  cbn [SweepLink.abs vn] in K. rewrite <- EA, len_erase in K. exact K.
Qed.
Let Hi : (i < n)%nat.
Proof. apply Rng. apply in_or_app. right. left. reflexivity. Qed.
Let Nl1 : forall j, In j l1 -> j <> i /\ ~ In j l2.
Proof.
  intros j H. split.
  - intros ->. apply (NoDup_remove_2 _ _ _ Nd). apply in_or_app. left. exact H.
  - intro K. apply in_split in H. destruct H as (a & b & ->). rewrite <- app_assoc in Nd. cbn in Nd. apply (NoDup_remove_2 _ _ _ Nd).
    apply in_or_app. right. apply in_or_app. right. right. exact K.
Qed.
Let Nl2 : forall j, In j l2 -> j <> i.
Proof. intros j H ->. apply (NoDup_remove_2 _ _ _ Nd). apply in_or_app. right. exact H. Qed.
Let P1 : forall j, pc s1 j = pc s j.
Proof. intro j. rewrite <- EA, pc_erase. reflexivity. Qed.
Let P2 : forall x y, (x < n)%nat -> (y < n)%nat -> (twin (pc s2 x) (pc s2 y) <-> twin (pc s x) (pc s y)).
Proof.
  intros x y Hx Hy.
  assert (Hn : vn (abs s1 vo) = n) by (cbn [SweepLink.abs vn]; rewrite <- EA; exact (len_erase sA)).
  destruct (cuts_keep V Ts T _ _ _ Cu12 B1 x) as (_ & X1 & X2 & X3 & X4 & _); [rewrite Hn; exact Hx|].
  destruct (cuts_keep V Ts T _ _ _ Cu12 B1 y) as (_ & Y1 & Y2 & Y3 & Y4 & _); [rewrite Hn; exact Hy|].
  cbn [SweepLink.abs vp] in *. rewrite P1 in *. unfold twin, coll. rewrite X1, X2, X3, X4, Y1, Y2, Y3, Y4. reflexivity.
Qed.
Let VertX : forall sX sY, cuts V Ts T (fun _ => True) (abs s1 vo) (abs sY vo) -> erase sX = sY -> forall z, (z < n)%nat -> is_vertical sX z = is_vertical s z.
Proof.
  intros sX sY C E z Hz. assert (Hn : vn (abs s1 vo) = n) by (cbn [SweepLink.abs vn]; rewrite <- EA; exact (len_erase sA)).
  assert (Hn1 : length (lefts s1) = n) by exact Hn.
  destruct (cuts_keep V Ts T _ _ _ C B1 z) as (Z1 & _ & Z2 & _); [rewrite Hn; exact Hz|]. cbn [SweepLink.abs vp vn] in Z1, Z2.
  pose proof (vertical_slope s1 vo (b_geo _ _ _ _ B1) z ltac:(rewrite Hn1; exact Hz)) as S1.
  pose proof (vertical_slope sY vo (b_geo _ _ _ _ (cuts_base V Ts T _ _ _ C B1)) z ltac:(lia)) as S2.
  rewrite Z2 in S2. rewrite <- EA, vertical_erase in S1. change (is_vertical sA z) with (is_vertical s z) in S1. rewrite EA in S1. rewrite <- E, vertical_erase in S2.
  destruct (is_vertical sX z), (is_vertical s z); tauto || intuition congruence.
Qed.
Let Vert2 : forall sX, erase sX = s2 -> forall z, (z < n)%nat -> is_vertical sX z = is_vertical s z.
Proof. intros sX E. exact (VertX sX s2 Cu12 E). Qed.
Let Vertb : forall sX, erase sX = sb -> forall z, (z < n)%nat -> is_vertical sX z = is_vertical s z.
Proof. intros sX E. exact (VertX sX sb Cu E). Qed.
Let Nopair : forall a b, In a l2 -> In b l1 -> twin (pc s i) (pc s a) -> twin (pc s i) (pc s b) -> False.
Proof.
  intros a b Ia Ib (C1 & L1 & O1) (C2 & L2 & O2).
  assert (Ra : (a < n)%nat) by (apply Rng, in_or_app; right; right; exact Ia). assert (Rb : (b < n)%nat) by (apply Rng, in_or_app; left; exact Ib).
  pose proof (b_geo _ _ _ _ B1) as G. assert (Hn : vn (abs s1 vo) = n) by (cbn [SweepLink.abs vn]; rewrite <- EA; exact (len_erase sA)).
  assert (Nab : a <> b) by (intros ->; exact (proj2 (Nl1 b Ib) Ia)).
  pose proof (g_len _ _ _ G a ltac:(rewrite Hn; exact Ra)) as Ga. pose proof (g_len _ _ _ G b ltac:(rewrite Hn; exact Rb)) as Gb.
  destruct (g_over _ _ _ G a b) as [K|K]; try (rewrite Hn; assumption); [exact Nab| | | |]; cbn [SweepLink.abs vp] in *; rewrite !P1 in *.
  - destruct (op (pc s i)), (op (pc s a)), (op (pc s b)); try reflexivity; exfalso; first [apply O1; reflexivity|apply O2; reflexivity].
  - apply (coll_trans _ (pc s i)); [apply coll_sym; exact C1|exact C2].
  - qlra.
  - qlra.
Qed.

Let sB := compute_fields holey result i (last_error l1) sA.
Let EB : erase sB = s1.
Proof. unfold sB. rewrite erase_compute. exact EA. Qed.
Let LB : length (lefts sB) = n.
Proof. unfold sB. rewrite compute_len. reflexivity. Qed.
Let B_others : forall j, j <> i -> lft sB j = lft s j.
Proof. intros j H. unfold sB. rewrite compute_others; [reflexivity|exact Hi|exact H]. Qed.
Let B_same : forall j, l_first (lft sB j) = l_first (lft s j) /\ l_interior (lft sB j) = l_interior (lft s j).
Proof.
  intro j. destruct (Nat.eq_dec j i) as [->|N]; [|rewrite B_others by exact N; split; reflexivity].
  destruct (compute_self k result rf Hrf holey i (last_error l1) sA Hi) as (K1 & K2 & _). split; assumption.
Qed.
Let B_i : set_to s i (last_error l1) (other_of s i (last_error l1)) NONE sB.
Proof.
  destruct (compute_self k result rf Hrf holey i (last_error l1) sA Hi) as (_ & _ & _ & K1 & K2). fold sB in K1, K2.
  assert (E : ovl k (lft s i) = NONE) by (rewrite Fr; destruct k; reflexivity). split.
  - exact K1.
  - rewrite K2. change (lft sA i) with (lft s i). rewrite E. reflexivity.
  - intros _. unfold sB. rewrite compute_kind by exact Hi. change (lft sA i) with (lft s i). rewrite Fr. reflexivity.
  - apply pointed_compute; [exact Hi| |reflexivity]. intro Eb. destruct (last_error_some _ _ _ Eb) as (m & Em).
    apply (proj1 (Nl1 i ltac:(rewrite Em; apply in_or_app; right; left; reflexivity))). reflexivity.
Qed.
Let B_p : pointing s i (last_error l1) sB.
Proof.
  apply pointing_compute; [exact Hi| |reflexivity|reflexivity]. intro Eb. destruct (last_error_some _ _ _ Eb) as (m & Em).
  apply (proj1 (Nl1 i ltac:(rewrite Em; apply in_or_app; right; left; reflexivity))). reflexivity.
Qed.
Let Below_l1 : match last_error l1 with None => True | Some b => In b l1 end.
Proof. destruct (last_error l1) as [b|] eqn:E; [|exact I]. apply last_error_some in E. destruct E as (m & ->). apply in_or_app. right. left. reflexivity. Qed.

Let Not_i : last_error l1 <> Some i.
Proof. intro E. rewrite E in Below_l1. apply (proj1 (Nl1 i Below_l1)). reflexivity. Qed.

Let above_done : exists sD,
  match hd_error l2 with
  | None => Ok sB
  | Some a => bind_res (detect k i a sB) (fun '(s3, f) =>
      Ok (if f then compute_fields holey result a (Some i) (compute_fields holey result i (last_error l1) s3) else s3))
  end = Ok sD
  /\ erase sD = s2 /\ (n <= length (lefts sD))%nat
  /\ (forall j, (j < n)%nat -> l_first (lft sD j) = l_first (lft s j) /\ l_interior (lft sD j) = l_interior (lft s j))
  /\ (forall j, (n <= j)%nat -> lft sD j = strip (lft sD j))
  /\ (forall j, (j < n)%nat -> j <> i -> ~ In j l2 -> unchanged (lft sD j) (lft s j))
  /\ (forall a m, l2 = a :: m -> twin (pc s i) (pc s a) ->
        set_to s a (Some i) (l_interior (lft s i)) (pair_kind k (lft s i) (lft s a)) sD
        /\ set_to s i (last_error l1) (other_of s i (last_error l1)) (pair_kind k (lft s i) (lft s a)) sD)
  /\ (forall a m, l2 = a :: m -> twin (pc s i) (pc s a) -> pointing s a (Some i) sD /\ pointing s i (last_error l1) sD)
  /\ ((forall a m, l2 = a :: m -> ~ twin (pc s i) (pc s a)) -> set_to s i (last_error l1) (other_of s i (last_error l1)) NONE sD /\ pointing s i (last_error l1) sD)
  /\ (forall j, (j < n)%nat -> j <> i -> ~ twin (pc s i) (pc s j) -> left_alone s sD j).
Proof.
  destruct l2 as [|a m] eqn:E2.
  - exists sB. cbn [hd_error] in *. split; [reflexivity|]. split; [injection D2 as <-; exact EB|]. split; [rewrite LB; apply Nat.le_refl|].
    split; [intros j _; apply B_same|]. split; [intros j H; rewrite (out_of_range sB j) by (rewrite LB; exact H); reflexivity|].
    split; [intros j _ H _; rewrite B_others by exact H; apply unchanged_refl|]. split; [discriminate|]. split; [discriminate|]. split; [intros _; split; [exact B_i|exact B_p]|].
    intros j _ H _. unfold left_alone. rewrite B_others by exact H. repeat split.
  - cbn [hd_error] in *. cbn [detect_above] in D2. unfold detect_only in D2. destruct (detect Linear i a s1) as [(s2', f)|] eqn:Ed; [|discriminate D2]. injection D2 as ->.
    assert (Ra : (a < n)%nat) by (apply Rng, in_or_app; right; right; left; reflexivity).
    assert (Na : i <> a) by (apply not_eq_sym; apply Nl2; left; reflexivity).
    assert (Hf : f = true <-> twin (pc s i) (pc s a)).
    { rewrite <- !P1. apply (detect_flag T s1 vo i a s2 f W1 B1); [rewrite LA; apply in_or_app; right; left; reflexivity|rewrite LA; apply in_or_app; right; right; left; reflexivity|exact Na|exact Ed]. }
    pose proof Ed as Ed'. rewrite <- EB, (detect_erase k not_nary) in Ed'. destruct (detect k i a sB) as [(sC, f')|] eqn:EC; [|discriminate Ed'].
    injection Ed' as E3 ->. assert (Mk : marked k i a f sB sC) by (apply detect_marked; [exact Hk|rewrite LB; exact Hi|rewrite LB; exact Ra|exact Na|exact EC]).
    destruct Mk as [M1 M2 M3 M4 M5 M8]. rewrite LB in *. cbn [bind_res].
    destruct f.
    + pose proof (proj1 Hf eq_refl) as Tw. destruct (M5 eq_refl) as (M6 & M7).
      assert (Pk : pair_kind k (lft sB i) (lft sB a) = pair_kind k (lft s i) (lft s a)).
      { unfold pair_kind. rewrite (proj2 (B_same i)), (proj2 (B_same a)). reflexivity. }
      rewrite Pk in M6, M7.
      set (sC1 := compute_fields holey result i (last_error l1) sC). set (sD := compute_fields holey result a (Some i) sC1).
      assert (HiC : (i < length (lefts sC))%nat) by lia. assert (LC1 : length (lefts sC1) = length (lefts sC)) by apply compute_len.
      assert (HaC : (a < length (lefts sC1))%nat) by lia.
      destruct (compute_self k result rf Hrf holey i (last_error l1) sC HiC) as (I1 & I2 & I3 & I4 & I5). fold sC1 in I1, I2, I3, I4, I5.
      destruct (compute_self k result rf Hrf holey a (Some i) sC1 HaC) as (A1 & A2 & A3 & A4 & A5). fold sD in A1, A2, A3, A4, A5.
      assert (O1 : forall j, j <> i -> lft sC1 j = lft sC j) by (intros j H; apply compute_others; assumption).
      assert (O2 : forall j, j <> a -> lft sD j = lft sC1 j) by (intros j H; apply compute_others; assumption).
      assert (KC : forall j, (j < n)%nat -> l_first (lft sC j) = l_first (lft s j) /\ l_interior (lft sC j) = l_interior (lft s j)).
      { intros j H. destruct (M2 j H) as (J1 & J2 & _). rewrite J1, J2. apply B_same. }
      assert (Oi : other_of sC i (last_error l1) = other_of s i (last_error l1)).
      { apply other_ext; [apply KC; exact Hi|]. destruct (last_error l1) as [b|] eqn:Eb.
        - assert (Rb : (b < n)%nat) by (apply Rng, in_or_app; left; exact Below_l1). split; [apply KC; exact Rb|]. split; [apply KC; exact Rb|].
          destruct (M2 b Rb) as (_ & _ & J & _). rewrite J, B_others by apply (Nl1 b Below_l1). reflexivity.
        - destruct (M2 i Hi) as (_ & _ & J & _). rewrite J. exact (st_other _ _ _ _ _ _ B_i). }
      assert (Fi : l_first (lft sC1 i) = l_first (lft s i)) by (rewrite I1; apply KC; exact Hi).
      assert (Fa : l_first (lft sC1 a) = l_first (lft s a)) by (rewrite O1 by congruence; apply KC; exact Ra).
      assert (Oa : other_of sC1 a (Some i) = l_interior (lft s i)).
      { cbn [other_of]. rewrite Fi, Fa. rewrite (twins_eqb s a i (twin_sym _ _ Tw)). rewrite I2. apply KC. exact Hi. }
      exists sD. split; [reflexivity|]. split; [unfold sD, sC1; rewrite !erase_compute; exact E3|]. split; [unfold sD; rewrite compute_len, LC1; exact M1|].
      split; [|split; [|split; [|split; [|split; [|split]]]]].
      * intros j H. destruct (Nat.eq_dec j a) as [->|Nj]; [rewrite A1, A2, O1 by congruence; apply KC; exact H|]. rewrite O2 by exact Nj.
        destruct (Nat.eq_dec j i) as [->|Nj']; [rewrite I1, I2; apply KC; exact H|]. rewrite O1 by exact Nj'. apply KC. exact H.
      * intros j H. rewrite O2, O1 by lia. apply M3. exact H.
      * intros j H N1 N2. rewrite O2, O1 by (try exact N1; intros ->; apply N2; left; reflexivity).
        apply (unchanged_trans _ (lft sB j)); [apply M4; [exact H|exact N1|intros ->; apply N2; left; reflexivity]|]. rewrite B_others by exact N1. apply unchanged_refl.
      * intros a' m' K _. injection K as <- <-. split; split.
        -- rewrite A4. exact Oa.
        -- rewrite A5, Fa, Oa, O1 by congruence. rewrite M7. reflexivity.
        -- intro Ks. unfold sD. rewrite compute_kind by exact HaC. rewrite O1 by congruence. rewrite <- M7, Ks. reflexivity.
        -- apply pointed_compute; [exact HaC|congruence|]. rewrite O1 by congruence. destruct (M2 a Ra) as (_ & _ & _ & _ & J). rewrite J, B_others by congruence. reflexivity.
        -- rewrite O2 by exact Na. rewrite I4. exact Oi.
        -- rewrite O2 by exact Na. rewrite I5, Oi, M6. rewrite (proj1 (KC i Hi)). reflexivity.
        -- intro Ks. rewrite O2 by exact Na. unfold sC1. rewrite compute_kind by exact HiC. rewrite <- M6, Ks. reflexivity.
        -- apply (pointed_keep s i _ sC1).
           ++ apply (pointed_again s i _ sB); [exact HiC|exact Not_i|exact (st_below _ _ _ _ _ _ B_i)|]. destruct (M2 i Hi) as (_ & _ & _ & _ & J). exact J.
           ++ rewrite O2 by exact Na. reflexivity.
           ++ intros z Ez. rewrite O2; [apply alike_refl|]. intros ->. rewrite Ez in Below_l1. apply (proj2 (Nl1 a Below_l1)). left. reflexivity.
      * intros a' m' K _. injection K as <- <-. split.
        -- apply pointing_fresh; [exact HaC|congruence|discriminate|]. intros z Ez. injection Ez as <-. rewrite (Vert2 sC1); [reflexivity|unfold sC1; rewrite erase_compute; exact E3|exact Hi].
        -- apply (pointing_keep s i _ sC1).
           ++ apply pointing_fresh; [exact HiC|exact Not_i| |].
              ** intro En. destruct (M2 i Hi) as (_ & _ & _ & _ & J). rewrite J. pose proof B_p as Bp. unfold pointing in Bp. rewrite En in Bp. unfold sB. rewrite (compute_below result holey i (last_error l1) sA Hi Not_i), En. reflexivity.
              ** intros z Ez. apply Vert2; [exact E3|]. rewrite Ez in Below_l1. apply Rng, in_or_app. left. exact Below_l1.
           ++ rewrite O2 by exact Na. reflexivity.
           ++ intros z Ez. rewrite O2; [apply alike_refl|]. intros ->. rewrite Ez in Below_l1. apply (proj2 (Nl1 a Below_l1)). left. reflexivity.
      * intro K. exfalso. exact (K a m eq_refl Tw).
      * intros j H N1 N2. assert (Nj : j <> a) by (intros ->; exact (N2 Tw)). unfold left_alone. rewrite O2, O1 by assumption.
        destruct (M4 j H N1 Nj) as ((_ & _ & J1 & J2 & J3) & _ & J4). rewrite J1, J2, J3, J4, B_others by exact N1. repeat split.
    + assert (Ntw : ~ twin (pc s i) (pc s a)) by (intro K; apply Hf in K; discriminate K).
      assert (KC : forall j, (j < n)%nat -> l_first (lft sC j) = l_first (lft s j) /\ l_interior (lft sC j) = l_interior (lft s j)).
      { intros j H. destruct (M2 j H) as (J1 & J2 & _). rewrite J1, J2. apply B_same. }
      exists sC. split; [reflexivity|]. split; [exact E3|]. split; [exact M1|]. split; [exact KC|]. split; [exact M3|].
      split; [|split; [|split; [|split]]].
      * intros j H N1 N2. apply (unchanged_trans _ (lft sB j)); [apply M4; [exact H|exact N1|intros ->; apply N2; left; reflexivity]|]. rewrite B_others by exact N1. apply unchanged_refl.
      * intros a' m' K Tw. injection K as <- <-. contradiction.
      * intros a' m' K Tw. injection K as <- <-. contradiction.
      * intros _. destruct (M2 i Hi) as (_ & _ & J1 & J2 & J3). destruct B_i as [K1 K2 K3 K4].
        assert (Al : forall z, last_error l1 = Some z -> alike (lft sC z) (lft sB z)).
        { intros z Ez. rewrite Ez in Below_l1. assert (Rz : (z < n)%nat) by (apply Rng, in_or_app; left; exact Below_l1). split; [apply M2; exact Rz|apply (M8 eq_refl); exact Rz]. }
        split; [|exact (pointing_keep s i _ sB sC B_p J3 Al)].
        split; [rewrite J1; exact K1|rewrite J2; exact K2|intro Ks; rewrite (M8 eq_refl i Hi); exact (K3 Ks)|exact (pointed_keep s i _ sB sC K4 J3 Al)].
      * intros j H N1 _. destruct (M2 j H) as (_ & _ & J1 & J2 & J3). unfold left_alone. rewrite J1, J2, J3, (M8 eq_refl j H), B_others by exact N1. repeat split.
Qed.

Lemma add_spec : exists s', (forall o m, add_labelled k holey result o m i (unqueue (EL i) s) = Ok s')
  /\ erase s' = sb /\ added s i l1 l2 s'.
Proof.
  destruct above_done as (sD & HD & ED & LD & SD & ND & FD & AD & PD & ID & RD).
  assert (Go : forall o m s', match last_error l1 with
       | None => Ok sD
       | Some b => bind_res (detect k b i sD) (fun '(s5, f) =>
             Ok (if f then compute_fields holey result i (Some b) (compute_fields holey result b (line_below k (o_shape o (2 * m + 1)) s5 b) s5) else s5))
       end = Ok s' -> add_labelled k holey result o m i (unqueue (EL i) s) = Ok s').
  { intros o m s' H. unfold add_labelled.
    destruct (Hline (o_shape o (2 * m))) as (_ & K1 & _). destruct (Hline (o_shape o (2 * m + 1))) as (_ & _ & K2 & K3).
    rewrite <- erase_unqueue in K1. rewrite Es1, <- erase_unqueue in K1. rewrite (add_erase k not_nary _ _ _ _ K1). fold sA.
    rewrite (above_erase k not_nary), (below_erase k not_nary), EA, K2, K3. fold sB. rewrite HD. cbn [bind_res]. exact H. }
  assert (NoTw : (forall j, In j (l1 ++ l2) -> ~ twin (pc s i) (pc s j)) -> forall a m, l2 = a :: m -> ~ twin (pc s i) (pc s a)).
  { intros H a m ->. apply H. apply in_or_app. right. left. reflexivity. }
  destruct (last_error l1) as [b|] eqn:Eb.
  2:{ apply last_error_none in Eb. rewrite Eb in *. cbn [detect_below] in D3. injection D3 as <-.
      exists sD. split; [intros o m; apply Go; reflexivity|]. split; [exact ED|]. constructor.
      - exact LD.
      - exact SD.
      - exact ND.
      - intros j H N. apply FD; [exact H| |]; intro K; apply N; [left; symmetry; exact K|right; exact K].
      - exact AD.
      - intros b m K. destruct m; discriminate K.
      - intro H. exact (proj1 (ID (NoTw H))).
      - intro H. exact (proj2 (ID (NoTw H))).
      - exact PD.
      - intros b m K. destruct m; discriminate K.
      - exact RD. }
  destruct (last_error_some _ _ _ Eb) as (m & Em).
  assert (Ib : In b l1) by exact Below_l1. destruct (Nl1 b Ib) as (Nbi & Nb2).
  assert (Rb : (b < n)%nat) by (apply Rng, in_or_app; left; exact Ib).
  cbn [detect_below] in D3. unfold detect_only in D3. destruct (detect Linear b i s2) as [(s2', g)|] eqn:Ed; [|discriminate D3]. injection D3 as ->.
  pose proof (cuts_base V Ts T _ _ _ Cu12 B1) as B2. destruct (cuts_vs V Ts T _ _ _ Cu12) as (V2 & _). cbn [SweepLink.abs vs] in V2.
  assert (Hg : g = true <-> twin (pc s b) (pc s i)).
  { rewrite <- (P2 b i Rb Hi). apply (detect_flag T s2 vo b i sb g W2 B2); [rewrite V2, LA; apply in_or_app; left; exact Ib|rewrite V2, LA; apply in_or_app; right; left; reflexivity|exact Nbi|exact Ed]. }
  pose proof Ed as Ed'. rewrite <- ED, (detect_erase k not_nary) in Ed'. destruct (detect k b i sD) as [(sE, g')|] eqn:EE; [|discriminate Ed'].
  injection Ed' as E3 ->. assert (Mk : marked k b i g sD sE) by (apply detect_marked; [exact Hk|lia|lia|exact Nbi|exact EE]).
  destruct Mk as [M1 M2 M3 M4 M5 M8]. cbn [bind_res] in Go.
  assert (NE : forall j, (n <= j)%nat -> lft sE j = strip (lft sE j)).
  { intros j H. destruct (Nat.lt_ge_cases j (length (lefts sD))) as [J|J]; [|apply M3; exact J].
    destruct (M4 j J ltac:(lia) ltac:(lia)) as ((U1 & U2 & U3 & U4 & U5) & U6 & U7). pose proof (ND j H) as U.
    destruct (lft sE j), (lft sD j). unfold strip in *. cbn in *. injection U as ? ? ? ? ?. subst. reflexivity. }
  assert (FE : forall j, (j < n)%nat -> j <> i -> j <> b -> ~ In j l2 -> unchanged (lft sE j) (lft s j)).
  { intros j H N1 N2 N3. apply (unchanged_trans _ (lft sD j)); [apply M4; [lia|assumption|assumption]|apply FD; assumption]. }
  assert (KE : forall j, (j < n)%nat -> l_first (lft sE j) = l_first (lft s j) /\ l_interior (lft sE j) = l_interior (lft s j)).
  { intros j H. destruct (M2 j ltac:(lia)) as (J1 & J2 & _). rewrite J1, J2. apply SD. exact H. }
  assert (AE : forall j, (j < n)%nat -> l_other (lft sE j) = l_other (lft sD j) /\ l_result (lft sE j) = l_result (lft sD j)).
  { intros j H. destruct (M2 j ltac:(lia)) as (_ & _ & J1 & J2 & _). split; assumption. }
  assert (Lsb : line sb = m ++ b :: i :: l2).
  { destruct (cuts_vs V Ts T _ _ _ Cu) as (K & _). cbn [SweepLink.abs vs] in K. rewrite K, LA, Em, <- app_assoc. reflexivity. }
  assert (Bel : forall shape, line_below k shape sE b = last_error m).
  { intro shape. rewrite (below_erase k not_nary), E3. 
    apply (neighbours e T sb m b (i :: l2)); [|exact Lsb]. apply (base_on_line e P T sb vo). exact (cuts_base V Ts T _ _ _ Cu B1). }
  destruct g.
  - pose proof (proj1 Hg eq_refl) as Tw. destruct (M5 eq_refl) as (M6 & M7).
    assert (Pk : pair_kind k (lft sD b) (lft sD i) = pair_kind k (lft s b) (lft s i)).
    { unfold pair_kind. rewrite (proj2 (SD b Rb)), (proj2 (SD i Hi)). reflexivity. }
    rewrite Pk in M6, M7.
    set (sE1 := compute_fields holey result b (last_error m) sE). set (sF := compute_fields holey result i (Some b) sE1).
    assert (HbE : (b < length (lefts sE))%nat) by lia. assert (LE1 : length (lefts sE1) = length (lefts sE)) by apply compute_len.
    assert (HiE : (i < length (lefts sE1))%nat) by lia.
    destruct (compute_self k result rf Hrf holey b (last_error m) sE HbE) as (I1 & I2 & I3 & I4 & I5). fold sE1 in I1, I2, I3, I4, I5.
    destruct (compute_self k result rf Hrf holey i (Some b) sE1 HiE) as (A1 & A2 & A3 & A4 & A5). fold sF in A1, A2, A3, A4, A5.
    assert (O1 : forall j, j <> b -> lft sE1 j = lft sE j) by (intros j H; apply compute_others; assumption).
    assert (O2 : forall j, j <> i -> lft sF j = lft sE1 j) by (intros j H; apply compute_others; assumption).
    assert (NoA : forall a, In a l2 -> ~ twin (pc s i) (pc s a)) by (intros a Ha K; exact (Nopair a b Ha Ib K (twin_sym _ _ Tw))).
    assert (Ob : other_of sE b (last_error m) = other_of s b (last_error m)).
    { apply other_ext; [apply KE; exact Rb|]. destruct (last_error m) as [c|] eqn:Ec.
      - destruct (last_error_some _ _ _ Ec) as (m' & Em').
        assert (Ic : In c l1) by (rewrite Em, Em'; apply in_or_app; left; apply in_or_app; right; left; reflexivity).
        assert (Rc : (c < n)%nat) by (apply Rng, in_or_app; left; exact Ic). split; [apply KE; exact Rc|]. split; [apply KE; exact Rc|].
        rewrite (proj1 (AE c Rc)). apply (unchanged_alone s sD c). apply FD; [exact Rc|apply (Nl1 c Ic)|apply (Nl1 c Ic)].
      - rewrite (proj1 (AE b Rb)). apply (unchanged_alone s sD b). apply FD; [exact Rb|exact Nbi|exact Nb2]. }
    assert (Fb : l_first (lft sE1 b) = l_first (lft s b)) by (rewrite I1; apply KE; exact Rb).
    assert (Fi : l_first (lft sE1 i) = l_first (lft s i)) by (rewrite O1 by congruence; apply KE; exact Hi).
    assert (Oi : other_of sE1 i (Some b) = l_interior (lft s b)).
    { cbn [other_of]. rewrite Fi, Fb. rewrite (twins_eqb s i b (twin_sym _ _ Tw)). rewrite I2. apply KE. exact Rb. }
    exists sF. split; [intros o q; apply Go; rewrite Bel; reflexivity|]. split; [unfold sF, sE1; rewrite !erase_compute; exact E3|].
    constructor.
    + unfold sF. rewrite compute_len, LE1. lia.
    + intros j H. destruct (Nat.eq_dec j i) as [->|Nj]; [rewrite A1, A2, O1 by congruence; apply KE; exact H|]. rewrite O2 by exact Nj.
      destruct (Nat.eq_dec j b) as [->|Nj']; [rewrite I1, I2; apply KE; exact H|]. rewrite O1 by exact Nj'. apply KE. exact H.
    + intros j H. rewrite O2, O1 by lia. apply NE. exact H.
    + intros j H N. assert (N1 : j <> i) by (intros ->; apply N, in_or_app; right; left; reflexivity).
      assert (N2 : j <> b) by (intros ->; apply N, in_or_app; left; exact Ib). rewrite O2, O1 by assumption.
      apply FE; [exact H|exact N1|exact N2|]. intro K. apply N, in_or_app. right. right. exact K.
    + intros a m' E2 K. exfalso. apply (NoA a); [rewrite E2; left; reflexivity|exact K].
    + intros b' m' K _. rewrite Em in K. apply app_inj_tail in K. destruct K as (<- & <-). split; split.
      * rewrite O2 by exact Nbi. rewrite I4. exact Ob.
      * rewrite O2 by exact Nbi. rewrite I5, Ob, M6. rewrite (proj1 (KE b Rb)). reflexivity.
      * intro Ks. rewrite O2 by exact Nbi. unfold sE1. rewrite compute_kind by exact HbE. rewrite <- M6, Ks. reflexivity.
      * assert (Im : forall z, last_error m = Some z -> In z l1 /\ z <> b).
        { intros z Ez. destruct (last_error_some _ _ _ Ez) as (m' & Em'). split; [rewrite Em, Em'; apply in_or_app; left; apply in_or_app; right; left; reflexivity|].
          intros ->. rewrite Em, Em' in Nd. rewrite <- !app_assoc in Nd. cbn [app] in Nd. apply NoDup_remove_2 in Nd. apply Nd. apply in_or_app. right. left. reflexivity. }
        apply (pointed_keep s b _ sE1).
        -- apply pointed_compute; [exact HbE|intro Ez; exact (proj2 (Im b Ez) eq_refl)|]. destruct (M2 b ltac:(lia)) as (_ & _ & _ & _ & J). rewrite J.
           apply (unchanged_alone s sD b). apply FD; [exact Rb|exact Nbi|exact Nb2].
        -- rewrite O2 by exact Nbi. reflexivity.
        -- intros z Ez. rewrite O2; [apply alike_refl|]. apply (Nl1 z). apply (Im z Ez).
      * rewrite A4. exact Oi.
      * rewrite A5, Fi, Oi, O1 by congruence. rewrite M7. reflexivity.
      * intro Ks. unfold sF. rewrite compute_kind by exact HiE. rewrite O1 by congruence. rewrite <- M7, Ks. reflexivity.
      * apply (pointed_again s i _ sD); [exact HiE|congruence| |].
        -- apply (st_below _ _ _ _ _ _ (proj1 (ID (fun a' m' E2 K => NoA a' ltac:(rewrite E2; left; reflexivity) K)))).
        -- rewrite O1 by congruence. destruct (M2 i ltac:(lia)) as (_ & _ & _ & _ & J). exact J.
    + intro H. exfalso. apply (H b); [apply in_or_app; left; exact Ib|apply twin_sym; exact Tw].
    + intro H. exfalso. apply (H b); [apply in_or_app; left; exact Ib|apply twin_sym; exact Tw].
    + intros a m' E2 K. exfalso. apply (NoA a); [rewrite E2; left; reflexivity|exact K].
    + intros b' m' K _. rewrite Em in K. apply app_inj_tail in K. destruct K as (<- & <-).
      assert (Im : forall z, last_error m = Some z -> In z l1 /\ z <> b).
      { intros z Ez. destruct (last_error_some _ _ _ Ez) as (m' & Em'). split; [rewrite Em, Em'; apply in_or_app; left; apply in_or_app; right; left; reflexivity|].
        intros ->. rewrite Em, Em' in Nd. rewrite <- !app_assoc in Nd. cbn [app] in Nd. apply NoDup_remove_2 in Nd. apply Nd. apply in_or_app. right. left. reflexivity. }
      split.
      * apply (pointing_keep s b _ sE1).
        -- apply pointing_fresh; [exact HbE|intro Ez; exact (proj2 (Im b Ez) eq_refl)| |].
           ++ intros _. destruct (M2 b ltac:(lia)) as (_ & _ & _ & _ & J). rewrite J. apply (unchanged_alone s sD b). apply FD; [exact Rb|exact Nbi|exact Nb2].
           ++ intros z Ez. apply Vertb; [exact E3|]. apply Rng, in_or_app. left. apply (Im z Ez).
        -- rewrite O2 by exact Nbi. reflexivity.
        -- intros z Ez. rewrite O2; [apply alike_refl|]. apply (Nl1 z). apply (Im z Ez).
      * apply pointing_fresh; [exact HiE|congruence|discriminate|]. intros z Ez. injection Ez as <-. apply Vertb; [unfold sE1; rewrite erase_compute; exact E3|exact Rb].
    + intros j H N1 N2. assert (Nj : j <> b) by (intros ->; apply N2, twin_sym; exact Tw). unfold left_alone. rewrite O2, O1 by assumption.
      destruct (M4 j ltac:(lia) Nj N1) as ((_ & _ & J1 & J2 & J3) & _ & J4). rewrite J1, J2, J3, J4. apply RD; assumption.
  - assert (Ntw : ~ twin (pc s b) (pc s i)) by (intro K; apply Hg in K; discriminate K).
    exists sE. split; [intros o q; apply Go; reflexivity|]. split; [exact E3|].
    assert (St : forall j z o' K, (j < n)%nat -> (forall z', z = Some z' -> (z' < n)%nat) -> set_to s j z o' K sD -> set_to s j z o' K sE).
    { intros j z o' K H Hz [J1 J2 J3 J4]. destruct (AE j H) as (X1 & X2).
      split; [rewrite X1; exact J1|rewrite X2; exact J2|intro Ks; rewrite (M8 eq_refl j ltac:(lia)); exact (J3 Ks)|].
      destruct (M2 j ltac:(lia)) as (_ & _ & _ & _ & X3). apply (pointed_keep s j z sD); [exact J4|exact X3|].
      intros z' Ez. pose proof (Hz z' Ez). split; [apply M2; lia|apply (M8 eq_refl); lia]. }
    assert (Lb1 : forall z', Some b = Some z' -> (z' < n)%nat) by (intros z' E; injection E as <-; exact Rb).
    assert (Li1 : forall z', Some i = Some z' -> (z' < n)%nat) by (intros z' E; injection E as <-; exact Hi).
    constructor.
    + lia.
    + exact KE.
    + exact NE.
    + intros j H N. apply FE; [exact H|intros ->; apply N, in_or_app; right; left; reflexivity|intros ->; apply N, in_or_app; left; exact Ib|].
      intro K. apply N, in_or_app. right. right. exact K.
    + intros a m' E2 K. rewrite Eb. destruct (AD a m' E2 K) as (X1 & X2). split; apply St; try assumption.
      apply Rng, in_or_app. right. right. rewrite E2. left. reflexivity.
    + intros b' m' K Tw. rewrite Em in K. apply app_inj_tail in K. destruct K as (<- & <-). contradiction.
    + intro H. rewrite Eb. apply St; [exact Hi|exact Lb1|]. exact (proj1 (ID (NoTw H))).
    + intro H. rewrite Eb. destruct (M2 i ltac:(lia)) as (_ & _ & _ & _ & X3). apply (pointing_keep s i (Some b) sD); [exact (proj2 (ID (NoTw H)))|exact X3|].
      intros z' Ez. pose proof (Lb1 z' Ez). split; [apply M2; lia|apply (M8 eq_refl); lia].
    + intros a m' E2 K. rewrite Eb. destruct (PD a m' E2 K) as (X1 & X2).
      assert (Ra : (a < n)%nat) by (apply Rng, in_or_app; right; right; rewrite E2; left; reflexivity). split.
      * apply (pointing_keep s a (Some i) sD); [exact X1|apply (M2 a); lia|].
        intros z' Ez. pose proof (Li1 z' Ez). split; [apply M2; lia|apply (M8 eq_refl); lia].
      * apply (pointing_keep s i (Some b) sD); [exact X2|apply (M2 i); lia|].
        intros z' Ez. pose proof (Lb1 z' Ez). split; [apply M2; lia|apply (M8 eq_refl); lia].
    + intros b' m' K Tw. rewrite Em in K. apply app_inj_tail in K. destruct K as (<- & <-). contradiction.
    + intros j H N1 N2. unfold left_alone. destruct (M2 j ltac:(lia)) as (_ & _ & J1 & J2 & J3). rewrite J1, J2, J3, (M8 eq_refl j ltac:(lia)). apply RD; assumption.
Qed.
End Add.
End Run.
End Frame.
