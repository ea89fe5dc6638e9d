(** Labels of events during a sweep: a processed piece knows whether it starts
    inside of the region of the other operand, and what of the overlaps.
    Proof support only, no part of /repo is modelled here. *)
From Coq Require Import Permutation.
From Verif Require Import QcTac Geom Spec GeomFacts Relation PairFacts SweepGeo SweepInv SweepSteps Sweep SweepCmp SweepLink Linear SweepRun SweepLoop Labelled NaryThms Parity Counting Erase Flow Lonely Beneath.

Lemma twin_dec : forall x y, twin x y \/ ~ twin x y.
Proof.
  intros x y. unfold twin. destruct (coll_dec x y) as [C|C]; [|tauto]. destruct (Qc_eq_dec (lo x) (lo y)) as [L|L]; [|tauto].
  destruct (Bool.bool_dec (op x) (op y)); tauto.
Qed.
Lemma pair_kind_sym : forall k a b, pair_kind k a b = pair_kind k b a.
Proof. intros k a b. unfold pair_kind. destruct (l_interior a), (l_interior b); reflexivity. Qed.

Section Frame.
Variables (e : Qc) (P : list point).
Hypothesis Hsh : Sheared e P.
Notation V := (V e P).
Notation Ts := (Ts e P).
Notation abs := (abs e).
Notation pc := (pc e).
Variables (k : kind) (holey : bool) (result : left_event -> bool) (rf : bool -> bool -> overlap_kind -> bool).
Hypothesis Hk : k = Mixed \/ k = Shaped.
Hypothesis Hrf : forall ev, result ev = rf (l_first ev) (l_other ev) (ovl k ev).
(** Which operands are regions, and what is known of their segments. *)
Variables (s0 : state) (reg : bool -> bool).
Notation v0 := (abs s0 []).
Hypothesis Hlen0 : forall i, (i < length (lefts s0))%nat -> lo (pc s0 i) < hi (pc s0 i).
Hypothesis Hclosed : forall b, reg b = true -> forall t, ends v0 b t = false.
Hypothesis Hinside : forall i, (i < length (lefts s0))%nat -> reg (op (pc s0 i)) = true ->
  forall t, lo (pc s0 i) <= t -> t < hi (pc s0 i) -> cnt v0 (op (pc s0 i)) false (pc s0 i) t = negb (l_interior (lft s0 i)).

Definition view_of (s : state) (pl : list event) : view := abs (erase s) (finished (erase s) pl).

Definition other_right (v : view) (s : state) (i : nat) : Prop :=
  reg (negb (op (vp v i))) = true -> ~ awaiting v i ->
  l_other (lft s i) = cnt v (negb (op (vp v i))) (negb (op (vp v i))) (vp v i) (lo (vp v i)).
Definition result_right (v : view) (s : state) (i : nat) : Prop :=
  exists K, (l_result (lft s i) = rf (l_first (lft s i)) (l_other (lft s i)) K /\ (k = Shaped -> l_kind (lft s i) = K))
  /\ ((K = NONE /\ forall j, seen v j -> ~ twin (vp v i) (vp v j))
      \/ exists j, seen v j /\ twin (vp v i) (vp v j) /\ K = pair_kind k (lft s i) (lft s j)).
(** What is known of the event in the result found below. *)
Definition points_right (v : view) (s : state) (x : nat) : Prop :=
  k = Shaped -> forall c, l_below (lft s x) = Some c ->
  c <> x /\ seen v c /\ l_result (lft s c) = true /\ prior (vp v c) (vp v x) /\ lonely v c.

(** How that event follows from the piece right below, except for vertical
    pieces above collinear ones. *)
Definition linked (v : view) (s : state) (x : nat) : Prop :=
  ~ awaiting v x -> exists ob, beneath (vn v) (vp v) x ob
  /\ match ob with
     | None => l_below (lft s x) = None
     | Some b => seen v b /\ (l_below (lft s x) = (if l_result (lft s b) then Some b else l_below (lft s b))
         \/ (coll (vp v b) (vp v x) /\ l_result (lft s b) = true /\ sl (vp v x) * e = 1))
     end.
Definition under_right (v : view) (s : state) : Prop :=
  k = Shaped -> holey = true -> cleared V v0 -> cleared V v /\ free V v /\ forall x, seen v x -> linked v s x.

Record labelled (T : Qc) (s : state) (pl : list event) : Prop := {
  lb_good : good e P s0 T (erase s) pl;
  lb_static : static v0 (view_of s pl);
  lb_fresh : forall i, In (EL i) (queue s) -> lft s i = strip (lft s i);
  lb_other : forall i, seen (view_of s pl) i -> other_right (view_of s pl) s i;
  lb_result : forall i, seen (view_of s pl) i -> result_right (view_of s pl) s i;
  lb_points : forall i, seen (view_of s pl) i -> points_right (view_of s pl) s i;
  lb_under : under_right (view_of s pl) s
}.

Lemma within_coll : forall s sx i j, lo (pc s i) < hi (pc s i) -> lo (pc sx j) < hi (pc sx j) -> within (seg_of s i) (seg_of sx j) ->
  coll (pc s i) (pc sx j) /\ lo (pc sx j) <= lo (pc s i) /\ hi (pc s i) <= hi (pc sx j).
Proof.
  intros s sx i j Li Lj W.
  assert (A : on_segment (l_start (lft s i)) (seg_of s i)) by exact (on_segment_start (seg_of s i)).
  assert (B : on_segment (end_of s i) (seg_of s i)) by exact (on_segment_end (seg_of s i)).
  pose proof (proj1 (pc_on e sx j _ Lj) (W _ A)) as (A1 & A2). pose proof (proj1 (pc_on e sx j _ Lj) (W _ B)) as (B1 & B2).
  change (pos e (l_start (lft s i))) with (lo (pc s i)) in *. change (pos e (end_of s i)) with (hi (pc s i)) in *.
  split; [|split; [apply A1|apply B1]].
  apply (ht_two _ _ (lo (pc s i)) (hi (pc s i))); [intro K; qlra| |].
  - rewrite pc_ht_lo. exact A2.
  - rewrite pc_ht_hi by exact Li. exact B2.
Qed.

(** What is inside is known of every piece. *)
Lemma inside_now : forall T s pl, good e P s0 T (erase s) pl -> static v0 (view_of s pl) ->
  forall i t, (i < length (lefts s))%nat -> reg (op (pc s i)) = true -> lo (pc s i) <= t -> t < hi (pc s i) ->
  cnt (view_of s pl) (op (pc s i)) false (pc s i) t = negb (l_interior (lft s i)).
Proof.
  intros T s pl Hg (Hs & _) i t Hi Hr H1 H2. rewrite Hs.
  destruct (k_src _ _ _ _ _ _ Hg) as (src & Hsrc & _). destruct (Hsrc i) as (Hj & E1 & E2 & W); [rewrite len_erase; exact Hi|].
  rewrite lft_erase in E1, E2. cbn [strip l_first l_interior] in E1, E2. rewrite seg_erase in W.
  assert (Li : lo (pc s i) < hi (pc s i)) by qlra.
  destruct (within_coll s s0 i (src i) Li (Hlen0 _ Hj) W) as (C & L & R).
  assert (Eo : op (pc s i) = op (pc s0 (src i))) by exact E1.
  rewrite (cnt_coll _ _ _ _ _ t C), Eo, E2. apply Hinside; [exact Hj|rewrite <- Eo; exact Hr|qlra|qlra].
Qed.

(** *** A left event *)
Section Left.
Variables (T : Qc) (s : state) (pl : list event) (i : nat) (sb : state).
Notation fin := (finished (erase s) pl).
Notation n := (length (lefts s)).
Hypothesis Hg : good e P s0 T (erase s) pl.
Hypothesis Hi : inv e P T (erase s) fin.
Hypothesis Hin : In (EL i) (queue s).
Hypothesis Hstat : static v0 (view_of s pl).
Hypothesis Hfresh : forall j, In (EL j) (queue s) -> lft s j = strip (lft s j).
Hypothesis Hother : forall j, seen (view_of s pl) j -> other_right (view_of s pl) s j.
Hypothesis Hresult : forall j, seen (view_of s pl) j -> result_right (view_of s pl) s j.
Hypothesis Hpoints : forall j, seen (view_of s pl) j -> points_right (view_of s pl) s j.
Hypothesis Hunder : under_right (view_of s pl) s.

Variables (l1 l2 : list nat) (s1 : state).
Hypothesis El : line s = l1 ++ l2.
Hypothesis Es1 : s1 = with_line (unqueue (EL i) (erase s)) (l1 ++ i :: l2).
Hypothesis Hl1 : forall j, In j l1 -> below (pc (erase s) j) (pc (erase s) i).
Hypothesis Hl2 : forall j, In j l2 -> below (pc (erase s) i) (pc (erase s) j).
Hypothesis Lo : lo (pc (erase s) i) = T.
Hypothesis Hhi : forall j, In j (line s) -> T < hi (pc (erase s) j).
Hypothesis Hmin : forall ev, In ev (queue s) -> ev = EL i \/ kless (pc (erase s)) (evn (erase s) (EL i)) (evn (erase s) ev).
Hypothesis B1 : base V Ts T (abs s1 fin).
Hypothesis Dv : divs s1 sb.
Hypothesis W1 : wf s1.
Hypothesis Cu : cuts V Ts T (fun _ => True) (abs s1 fin) (abs sb fin).
Variable s' : state.
Hypothesis Esb : erase s' = sb.
Hypothesis Ad : added e k holey result rf s i l1 l2 s'.

Notation v := (view_of s pl).
Let v1 := abs s1 fin.
Let vb := abs sb fin.
Let Hb : base V Ts T v := i_base _ _ _ _ _ Hi.
Let Hq : queues v := b_q _ _ _ _ Hb.
Let Pop : popped_left v i l1 l2 v1.
Proof.
  exists (map (evn (erase s)) (queue (unqueue (EL i) (erase s)))).
  split; [exact (unqueue_view e (erase s) fin (EL i) (queue_nodup e _ _ Hq) Hin)|].
  split; [exact El|]. split; [exact Hl1|]. split; [exact Hl2|]. unfold v1. rewrite Es1. reflexivity.
Qed.
Let Hset := i_settled _ _ _ _ _ Hi.
Let Hpass := i_passing _ _ _ _ _ Hi.
Let Hhi' : forall j, active v j -> T < hi (vp v j).
Proof. exact Hhi. Qed.
Let Slopes : forall j, future v j -> lo (vp v j) = T -> sl (vp v i) <= sl (vp v j).
Proof.
  intros j Fj Lj. apply future_event in Fj. destruct (Hmin _ Fj) as [K|K].
  - injection K as ->. apply Qcle_refl.
  - unfold kless in K. cbn [evn fst snd] in K. change (vp v) with (pc (erase s)) in *. rewrite Lo, Lj in K.
    destruct K as [K|(_ & [(K & _)|(_ & [K|(K & _)])])]; [qlra|discriminate K|qlra|qlra].
Qed.
Notation AV := (added_view v v1 i l1 l2 Pop).
Notation AA := (added_active v v1 i l1 l2 Pop).
Notation AF := (added_future V Ts T v v1 i l1 l2 Hb Pop).

Let Evp : vp v1 = vp v.
Proof. apply AV. Qed.
Let Evn : vn v1 = vn v.
Proof. apply AV. Qed.
Let Evs : vs v1 = l1 ++ i :: l2.
Proof. apply AV. Qed.
Let Nv : vn v = n.
Proof. unfold view_of. cbn [SweepLink.abs vn]. apply len_erase. Qed.
Let Vp : forall j, vp v j = pc s j.
Proof. intro j. apply pc_erase. Qed.
Let Ii : (i < vn v)%nat.
Proof. apply (future_lt v i Hq). apply future_event. exact Hin. Qed.
Let Nd : NoDup (l1 ++ i :: l2).
Proof. rewrite <- Evs. exact (q_vs _ (b_q _ _ _ _ B1)). Qed.

Let kept_b : forall j, (j < vn v)%nat -> lo (vp vb j) = lo (vp v j) /\ coll (vp vb j) (vp v j) /\ op (vp vb j) = op (vp v j).
Proof.
  intros j Hj. destruct (cuts_keep V Ts T _ _ _ Cu B1 j) as (_ & K1 & K2 & K3 & K4 & _); [change (vn (abs s1 fin)) with (vn v1); rewrite Evn; exact Hj|].
  change (vp (abs s1 fin)) with (vp v1) in *. rewrite Evp in *. repeat split; assumption.
Qed.
Let seen_b : forall j, seen vb j <-> j = i \/ seen v j.
Proof.
  intro j. destruct (cuts_vs V Ts T _ _ _ Cu) as (K1 & K2). unfold seen, active, done. unfold vb. rewrite K1, K2.
  change (vs (abs s1 fin)) with (vs v1). change (vo (abs s1 fin)) with (SweepInv.vo v). pose proof (AA j) as K. unfold active in K. rewrite K. tauto.
Qed.
Let seen_n : forall j, seen vb j -> (j < vn v)%nat.
Proof. intros j H. apply seen_b in H. destruct H as [->|H]; [exact Ii|exact (seen_lt v j Hq H)]. Qed.
Let twin_b : forall x y, (x < vn v)%nat -> (y < vn v)%nat -> (twin (vp vb x) (vp vb y) <-> twin (vp v x) (vp v y)).
Proof.
  intros x y Hx Hy. destruct (kept_b x Hx) as (X1 & (X2 & X3) & X4), (kept_b y Hy) as (Y1 & (Y2 & Y3) & Y4).
  unfold twin, coll. rewrite X1, X2, X3, X4, Y1, Y2, Y3, Y4. reflexivity.
Qed.
Let static_b : static v vb.
Proof.
  apply (static_trans _ v1); [|exact (cuts_static V Ts T _ _ _ Cu B1)]. split.
  - intros b c z t. unfold cnt. rewrite Evp, Evn. reflexivity.
  - intros b t. unfold ends. rewrite Evp, Evn. reflexivity.
Qed.
Let awaiting_b : forall x, (x < vn v)%nat -> awaiting v1 x -> awaiting vb x.
Proof.
  intros x Hx (O & y & F & Oy & Ly & Cy). destruct (kept_b x Hx) as (X1 & X2 & X3). rewrite Evp in *.
  split; [rewrite X3; exact O|]. exists y. destruct (cuts_future V Ts T _ _ _ Cu B1 y F) as (F' & E).
  split; [exact F'|]. assert (E' : vp vb y = vp v y) by (rewrite <- Evp; exact E). rewrite E', X1. split; [exact Oy|]. split; [exact Ly|].
  apply (coll_trans _ (vp v x)); [exact Cy|apply coll_sym; exact X2].
Qed.
Let same_lft : forall j, (j < vn v)%nat -> l_first (lft s' j) = l_first (lft s j) /\ l_interior (lft s' j) = l_interior (lft s j).
Proof. intros j H. rewrite Nv in H. apply (ad_same _ _ _ _ _ _ _ _ _ _ Ad j H). Qed.
Let op_first : forall j, op (vp v j) = l_first (lft s j).
Proof. intro j. rewrite Vp. reflexivity. Qed.

Let in_l1_active : forall j, In j l1 -> active v j.
Proof. intros j H. unfold active. change (vs v) with (line s). rewrite El. apply in_or_app. left. exact H. Qed.
Let in_l2_active : forall j, In j l2 -> active v j.
Proof. intros j H. unfold active. change (vs v) with (line s). rewrite El. apply in_or_app. right. exact H. Qed.
Let apart_l1 : forall j, In j l1 -> ~ In j l2.
Proof.
  intros j H K. apply in_split in H. destruct H as (a & b & E). rewrite E, <- app_assoc in Nd. cbn in Nd. apply (NoDup_remove_2 _ _ _ Nd).
  apply in_or_app. right. apply in_or_app. right. right. exact K.
Qed.

Let Closed : forall b, reg b = true -> forall t, ends v b t = false.
Proof. intros b H t. rewrite (proj2 Hstat). apply Hclosed. exact H. Qed.
Let Inside : forall z t, (z < vn v)%nat -> reg (op (vp v z)) = true -> lo (vp v z) <= t -> t < hi (vp v z) ->
  cnt v (op (vp v z)) false (vp v z) t = negb (l_interior (lft s z)).
Proof. intros z t Hz. rewrite !Vp. apply (inside_now T s pl Hg Hstat). rewrite <- Nv. exact Hz. Qed.
Let not_awaited : forall z, In z l1 -> awaiting v z -> awaiting v1 z \/ False.
Proof.
  intros z Hz Aw. destruct (in_dec Nat.eq_dec z l2) as [K|K]; [exfalso; exact (apart_l1 z Hz K)|]. left.
  pose proof Aw as (Oz & y & Fy & Oy & Ly & Cy). rewrite <- Evp in Oz, Oy, Ly, Cy. split; [exact Oz|]. exists y.
  assert (Ny : y <> i).
  { intros ->. rewrite Evp in *. assert (Bz : below (vp v i) (vp v z)).
    { unfold below. right. rewrite (coll_ht _ _ _ Cy). split; [reflexivity|]. right. split; [apply Cy|split; assumption]. }
    exact (below_asym _ _ Bz (Hl1 z Hz)). }
  split; [apply AF; split; assumption|]. split; [exact Oy|]. split; [exact Ly|exact Cy].
Qed.

(** A label taken from the neighbour below. *)
Let below_label : forall x m m2, l1 ++ i :: l2 = m ++ x :: m2 -> incl m l1 -> lo (vp v x) = T -> sl (vp v x) <= sl (vp v i) ->
  reg (negb (op (vp v x))) = true -> ~ awaiting v1 x ->
  (m = [] -> l_other (lft s x) = cnt v (negb (op (vp v x))) (negb (op (vp v x))) (vp v x) T) ->
  other_of s x (last_error m) = cnt v (negb (op (vp v x))) (negb (op (vp v x))) (vp v x) T.
Proof.
  intros x m m2 E Inc Lx Sx Hr Na Hnil. destruct (last_error m) as [z|] eqn:Ez.
  2:{ apply last_error_none in Ez. cbn [other_of]. apply Hnil. exact Ez. }
  destruct (last_error_some _ _ _ Ez) as (m' & Em). 
  assert (Iz : In z l1) by (apply Inc; rewrite Em; apply in_or_app; right; left; reflexivity).
  assert (Az : active v z) by (apply in_l1_active; exact Iz). assert (Nz : (z < vn v)%nat) by exact (active_lt v z Hq Az).
  assert (E' : vs v1 = m' ++ z :: x :: m2) by (rewrite Evs, E, Em, <- app_assoc; reflexivity).
  cbn [other_of]. rewrite <- !op_first.
  destruct (Bool.eqb (op (vp v x)) (op (vp v z))) eqn:Eo.
  - apply Bool.eqb_prop in Eo.
    destruct (neighbour_same V Ts T v v1 i l1 l2 Hb Hset Hpass Lo Hhi' Slopes Pop x z m' m2 E' Lx Sx (eq_sym Eo) Na (Closed _ Hr)) as (K1 & K2).
    rewrite K1. pose proof (Hother z (or_introl Az)) as K. unfold other_right in K. rewrite <- Eo in K. apply K; [exact Hr|].
    intro J. destruct (not_awaited z Iz J) as [J'|[]]. exact (K2 J').
  - apply Bool.eqb_false_iff in Eo.
    assert (Oz : op (vp v z) = negb (op (vp v x))) by (destruct (op (vp v x)), (op (vp v z)); try reflexivity; exfalso; apply Eo; reflexivity).
    rewrite (neighbour_other V Ts T v v1 i l1 l2 Hb Hset Hpass Lo Hhi' Slopes Pop x z m' m2 E' Lx Sx Oz Na).
    rewrite <- Oz. rewrite (Inside z T Nz); [destruct (l_interior (lft s z)); reflexivity|rewrite Oz; exact Hr|apply (b_act _ _ _ _ Hb z Az)|exact (Hhi' z Az)].
Qed.

Let i_label : reg (negb (op (vp v i))) = true -> ~ awaiting v1 i ->
  other_of s i (last_error l1) = cnt v (negb (op (vp v i))) (negb (op (vp v i))) (vp v i) T.
Proof.
  intros Hr Na. apply (below_label i l1 l2 eq_refl); [intros j H; exact H|exact Lo|apply Qcle_refl|exact Hr|exact Na|].
  intro E. rewrite (Hfresh i Hin). cbn [strip l_other].
  rewrite (cnt_start V Ts T v v1 i l1 l2 Hb Hset Hpass Lo Hhi' Slopes Pop i [] l2); [reflexivity|rewrite Evs, E; reflexivity|exact Lo|apply Qcle_refl|exact Na].
Qed.
(** The label of a piece above its twin. *)
Let over_twin : forall x y m m2, l1 ++ i :: l2 = m ++ y :: x :: m2 -> twin (vp v y) (vp v x) -> lo (vp v x) = T -> sl (vp v x) = sl (vp v i) ->
  reg (negb (op (vp v x))) = true -> ~ awaiting v1 x -> l_interior (lft s y) = cnt v (negb (op (vp v x))) (negb (op (vp v x))) (vp v x) T.
Proof.
  intros x y m m2 E (C & L & O) Lx Sx Hr Na.
  assert (Oy : op (vp v y) = negb (op (vp v x))) by (destruct (op (vp v x)), (op (vp v y)); try reflexivity; exfalso; apply O; reflexivity).
  assert (Ay : active v1 y) by (unfold active; rewrite Evs, E; apply in_or_app; right; left; reflexivity).
  rewrite (neighbour_other V Ts T v v1 i l1 l2 Hb Hset Hpass Lo Hhi' Slopes Pop x y m m2); [|rewrite Evs; exact E|exact Lx|rewrite Sx; apply Qcle_refl|exact Oy|exact Na].
  rewrite <- Oy. assert (Ny : (y < vn v)%nat) by exact (added_lt V Ts T v v1 i l1 l2 Hb Hset Lo Hhi' Pop y Ay).
  rewrite (Inside y T Ny); [destruct (l_interior (lft s y)); reflexivity|rewrite Oy; exact Hr|rewrite L, Lx; apply Qcle_refl|].
  exact (added_hi V Ts T v v1 i l1 l2 Hb Lo Hhi' Pop y Ay).
Qed.

Let twin_first_below : forall x, In x l1 -> twin (vp v x) (vp v i) -> op (vp v x) = true.
Proof.
  intros x Hx (C & L & O). pose proof (Hl1 x Hx) as K. change (pc (erase s)) with (vp v) in K. unfold below in K. rewrite (coll_ht _ _ _ C) in K.
  destruct K as [K|(_ & [K|(_ & K & _)])]; [qlra|destruct C as (C & _); qlra|exact K].
Qed.

Let Lo' : lo (vp v i) = T.
Proof. exact Lo. Qed.
Let transfer : forall x, (x < vn v)%nat ->
  (reg (negb (op (vp v x))) = true -> ~ awaiting v1 x -> l_other (lft s' x) = cnt v (negb (op (vp v x))) (negb (op (vp v x))) (vp v x) (lo (vp v x))) ->
  other_right vb s' x.
Proof.
  intros x Hx H Hr Na. destruct (kept_b x Hx) as (K1 & K2 & K3). rewrite K3 in *. rewrite H; [|exact Hr|intro J; exact (Na (awaiting_b x Hx J))].
  rewrite (proj1 static_b), K1. symmetry. apply cnt_coll. exact K2.
Qed.


Let twin_cases : (exists a m, l2 = a :: m /\ twin (pc s i) (pc s a)) \/ (exists b m, l1 = m ++ [b] /\ twin (pc s b) (pc s i))
     \/ (forall j, In j (l1 ++ l2) -> ~ twin (pc s i) (pc s j)).
Proof.
  assert (D : forall l, (exists j, In j l /\ twin (pc s i) (pc s j)) \/ (forall j, In j l -> ~ twin (pc s i) (pc s j))).
  { induction l as [|a l [(j & J1 & J2)|IH]]; [right; intros j []|left; exists j; split; [right; exact J1|exact J2]|].
    destruct (twin_dec (pc s i) (pc s a)) as [K|K]; [left; exists a; split; [left; reflexivity|exact K]|].
    right. intros j [<-|J]; [exact K|exact (IH j J)]. }
  destruct (D (l1 ++ l2)) as [(j & J1 & J2)|K]; [|right; right; exact K].
  assert (Aj : active v j) by (unfold active; change (vs v) with (line s); rewrite El; exact J1).
  rewrite <- !Vp in J2.
  destruct (twin_neighbour V Ts T v v1 i l1 l2 Hb Hset Lo Hhi' Pop j Aj J2) as [(m & E)|(m & E)].
  - left. exists j, m. split; [exact E|]. rewrite <- !Vp. exact J2.
  - right. left. exists j, m. split; [exact E|]. rewrite <- !Vp. apply twin_sym. exact J2.
Qed.
Let twin_active : forall j, seen v j -> twin (vp v i) (vp v j) -> active v j.
Proof.
  intros j [A|D] (_ & L & _); [exact A|exfalso]. pose proof (b_done _ _ _ _ Hb j D) as K.
  pose proof (g_len _ _ _ (b_geo _ _ _ _ Hb) j (done_lt v j Hq D)) as K'. change (pc (erase s)) with (vp v) in Lo. rewrite Lo in L. qlra.
Qed.
Let left_other : forall x, seen vb x -> other_right vb s' x.
Proof.
  intros x Sx. pose proof (seen_n x Sx) as Nx. apply transfer; [exact Nx|]. intros Hr Na. apply seen_b in Sx.
  assert (Rest : x <> i -> ~ twin (vp v i) (vp v x) -> l_other (lft s' x) = cnt v (negb (op (vp v x))) (negb (op (vp v x))) (vp v x) (lo (vp v x))).
  { intros N Nt. destruct Sx as [->|Sx]; [elim N; reflexivity|]. rewrite Nv in Nx. rewrite !Vp in Nt.
    rewrite (proj1 (ad_rest _ _ _ _ _ _ _ _ _ _ Ad x Nx N Nt)). apply (Hother x Sx Hr). intro Aw. destruct Sx as [A|D].
    - destruct (awaited V Ts T v v1 i l1 l2 Hb Hset Lo Hhi' Pop x A Aw Na) as (m & _ & K). rewrite !Vp in K. exact (Nt K).
    - destruct Aw as (Ox & y & Fy & Oy & Ly & _). pose proof (b_done _ _ _ _ Hb x D) as K. pose proof (b_fut _ _ _ _ Hb y Fy) as K'.
      pose proof (g_len _ _ _ (b_geo _ _ _ _ Hb) x (done_lt v x Hq D)) as K2. qlra. }
  destruct twin_cases as [(a & m & E & Tw)|[(b & m & E & Tw)|Alone]].
  - destruct (ad_above _ _ _ _ _ _ _ _ _ _ Ad a m E Tw) as (S1 & S2). rewrite <- !Vp in Tw.
    destruct (Nat.eq_dec x i) as [->|Ni].
    + rewrite (st_other _ _ _ _ _ _ _ _ _ _ S2), Lo'. apply i_label; assumption.
    + destruct (twin_dec (vp v i) (vp v x)) as [Tx|Tx]; [|apply Rest; assumption].
      assert (Ex : x = a).
      { destruct Sx as [K|Sx]; [elim Ni; exact K|]. pose proof (twin_active x Sx Tx) as Ax.
        assert (Aa : active v a) by (apply in_l2_active; rewrite E; left; reflexivity).
        destruct (Nat.eq_dec x a) as [K|K]; [exact K|exfalso].
        apply (same_operand V Ts T v v1 i l1 l2 Hb Hset Lo Hhi' Pop x a); [apply AA; tauto|apply AA; tauto|exact K| |].
        - destruct Tx as (_ & _ & O1), Tw as (_ & _ & O2). destruct (op (vp v i)), (op (vp v x)), (op (vp v a)); congruence.
        - apply (coll_trans _ (vp v i)); [apply coll_sym; apply Tx|apply Tw]. }
      subst x. assert (La : lo (vp v a) = T) by (rewrite <- (proj1 (proj2 Tw)); exact Lo').
      rewrite (st_other _ _ _ _ _ _ _ _ _ _ S1), La. apply (over_twin a i l1 m); [rewrite E; reflexivity|exact Tw|exact La|symmetry; apply Tw|exact Hr|exact Na].
  - destruct (ad_below _ _ _ _ _ _ _ _ _ _ Ad b m E Tw) as (S1 & S2). rewrite <- !Vp in Tw.
    assert (E2 : l1 ++ i :: l2 = m ++ b :: i :: l2) by (rewrite E, <- app_assoc; reflexivity).
    destruct (Nat.eq_dec x i) as [->|Ni].
    + rewrite (st_other _ _ _ _ _ _ _ _ _ _ S2), Lo'. apply (over_twin i b m l2); [exact E2|exact Tw|exact Lo'|reflexivity|exact Hr|exact Na].
    + destruct (twin_dec (vp v i) (vp v x)) as [Tx|Tx]; [|apply Rest; assumption].
      assert (Ib : In b l1) by (rewrite E; apply in_or_app; right; left; reflexivity).
      assert (Ex : x = b).
      { destruct Sx as [K|Sx]; [elim Ni; exact K|]. pose proof (twin_active x Sx Tx) as Ax.
        assert (Aa : active v b) by (apply in_l1_active; exact Ib).
        destruct (Nat.eq_dec x b) as [K|K]; [exact K|exfalso].
        apply (same_operand V Ts T v v1 i l1 l2 Hb Hset Lo Hhi' Pop x b); [apply AA; tauto|apply AA; tauto|exact K| |].
        - destruct Tx as (_ & _ & O1), Tw as (_ & _ & O2). destruct (op (vp v i)), (op (vp v x)), (op (vp v b)); congruence.
        - apply (coll_trans _ (vp v i)); [apply coll_sym; apply Tx|apply coll_sym; apply Tw]. }
      subst x. assert (Lb : lo (vp v b) = T) by (rewrite (proj1 (proj2 Tw)); exact Lo').
      assert (Sb : sl (vp v b) = sl (vp v i)) by apply Tw.
      rewrite (st_other _ _ _ _ _ _ _ _ _ _ S1), Lb. apply (below_label b m (i :: l2)); [exact E2| |exact Lb|rewrite Sb; apply Qcle_refl|exact Hr|exact Na|].
      * intros j Hj. rewrite E. apply in_or_app. left. exact Hj.
      * intros _. rewrite <- Lb. apply (Hother b); [left; apply in_l1_active; exact Ib|exact Hr|].
        intros (Ob & _). rewrite (twin_first_below b Ib Tw) in Ob. discriminate Ob.
  - destruct (Nat.eq_dec x i) as [->|Ni].
    + rewrite (st_other _ _ _ _ _ _ _ _ _ _ (ad_alone _ _ _ _ _ _ _ _ _ _ Ad Alone)), Lo'. apply i_label; assumption.
    + apply Rest; [exact Ni|]. intro Tx. destruct Sx as [K|Sx]; [exact (Ni K)|]. pose proof (twin_active x Sx Tx) as Ax.
      rewrite !Vp in Tx. apply (Alone x); [|exact Tx]. rewrite <- El. exact Ax.
Qed.

Let left_result : forall x, seen vb x -> result_right vb s' x.
Proof.
  intros x Sx. pose proof (seen_n x Sx) as Nx. unfold result_right.
  assert (Pk : forall a b, (a < vn v)%nat -> (b < vn v)%nat -> pair_kind k (lft s' a) (lft s' b) = pair_kind k (lft s a) (lft s b)).
  { intros a b Ha Hb'. unfold pair_kind. rewrite (proj2 (same_lft a Ha)), (proj2 (same_lft b Hb')). reflexivity. }
  rewrite (proj1 (same_lft x Nx)).
  assert (Set' : forall y z o K, set_to k holey result rf s y z o K s' -> l_result (lft s' y) = rf (l_first (lft s y)) (l_other (lft s' y)) K /\ (k = Shaped -> l_kind (lft s' y) = K)).
  { intros y z o K [E1 E2 E3 _]. rewrite E2, E1. split; [reflexivity|exact E3]. }
  pose proof Sx as Sx'. apply seen_b in Sx'.
  assert (Rest : x <> i -> ~ twin (vp v i) (vp v x) -> exists K, (l_result (lft s' x) = rf (l_first (lft s x)) (l_other (lft s' x)) K /\ (k = Shaped -> l_kind (lft s' x) = K))
     /\ ((K = NONE /\ forall j, seen vb j -> ~ twin (vp vb x) (vp vb j)) \/ exists j, seen vb j /\ twin (vp vb x) (vp vb j) /\ K = pair_kind k (lft s' x) (lft s' j))).
  { intros N Nt. destruct Sx' as [K|Sv]; [elim N; exact K|]. destruct (Hresult x Sv) as (K & E & H).
    assert (Nx' : (x < length (lefts s))%nat) by (rewrite <- Nv; exact Nx). assert (Nt' : ~ twin (pc s i) (pc s x)) by (rewrite <- !Vp; exact Nt).
    destruct (ad_rest _ _ _ _ _ _ _ _ _ _ Ad x Nx' N Nt') as (R1 & R2 & _ & R4). exists K. split; [rewrite R1, R2, R4; exact E|].
    destruct H as [(-> & H)|(j & J1 & J2 & J3)].
    - left. split; [reflexivity|]. intros j Sj. pose proof (seen_n j Sj) as Nj. rewrite (twin_b x j Nx Nj). apply seen_b in Sj.
      destruct Sj as [->|Sj]; [intro K; apply Nt; apply twin_sym; exact K|exact (H j Sj)].
    - right. assert (Sj : seen vb j) by (apply seen_b; right; exact J1). pose proof (seen_n j Sj) as Nj. exists j. split; [exact Sj|].
      split; [apply (twin_b x j Nx Nj); exact J2|]. rewrite (Pk x j Nx Nj). exact J3. }
  assert (Si : seen vb i) by (apply seen_b; left; reflexivity).
  destruct twin_cases as [(a & m & E & Tw)|[(b & m & E & Tw)|Alone]].
  - destruct (ad_above _ _ _ _ _ _ _ _ _ _ Ad a m E Tw) as (S1 & S2). rewrite <- !Vp in Tw.
    assert (Aa : active v a) by (apply in_l2_active; rewrite E; left; reflexivity).
    assert (Na : (a < vn v)%nat) by exact (active_lt v a Hq Aa). assert (Sa : seen vb a) by (apply seen_b; right; left; exact Aa).
    destruct (Nat.eq_dec x i) as [->|Ni].
    + exists (pair_kind k (lft s i) (lft s a)). split; [exact (Set' _ _ _ _ S2)|]. right. exists a. split; [exact Sa|].
      split; [apply (twin_b i a Nx Na); exact Tw|]. symmetry. apply Pk; assumption.
    + destruct (Nat.eq_dec x a) as [->|Nax].
      * exists (pair_kind k (lft s i) (lft s a)). split; [exact (Set' _ _ _ _ S1)|]. right. exists i. split; [exact Si|].
        split; [apply (twin_b a i Na Ii); apply twin_sym; exact Tw|]. rewrite pair_kind_sym. symmetry. apply Pk; assumption.
      * apply Rest; [exact Ni|]. intro Tx. destruct Sx' as [K|Sv]; [exact (Ni K)|]. pose proof (twin_active x Sv Tx) as Ax.
        apply (same_operand V Ts T v v1 i l1 l2 Hb Hset Lo Hhi' Pop x a); [apply AA; tauto|apply AA; tauto|exact Nax| |].
        -- destruct Tx as (_ & _ & O1), Tw as (_ & _ & O2). destruct (op (vp v i)), (op (vp v x)), (op (vp v a)); congruence.
        -- apply (coll_trans _ (vp v i)); [apply coll_sym; apply Tx|apply Tw].
  - destruct (ad_below _ _ _ _ _ _ _ _ _ _ Ad b m E Tw) as (S1 & S2). rewrite <- !Vp in Tw.
    assert (Ab : active v b) by (apply in_l1_active; rewrite E; apply in_or_app; right; left; reflexivity).
    assert (Nb : (b < vn v)%nat) by exact (active_lt v b Hq Ab). assert (Sb : seen vb b) by (apply seen_b; right; left; exact Ab).
    destruct (Nat.eq_dec x i) as [->|Ni].
    + exists (pair_kind k (lft s b) (lft s i)). split; [exact (Set' _ _ _ _ S2)|]. right. exists b. split; [exact Sb|].
      split; [apply (twin_b i b Nx Nb); apply twin_sym; exact Tw|]. rewrite pair_kind_sym. symmetry. apply Pk; assumption.
    + destruct (Nat.eq_dec x b) as [->|Nbx].
      * exists (pair_kind k (lft s b) (lft s i)). split; [exact (Set' _ _ _ _ S1)|]. right. exists i. split; [exact Si|].
        split; [apply (twin_b b i Nb Ii); exact Tw|]. symmetry. apply Pk; assumption.
      * apply Rest; [exact Ni|]. intro Tx. destruct Sx' as [K|Sv]; [exact (Ni K)|]. pose proof (twin_active x Sv Tx) as Ax.
        apply (same_operand V Ts T v v1 i l1 l2 Hb Hset Lo Hhi' Pop x b); [apply AA; tauto|apply AA; tauto|exact Nbx| |].
        -- destruct Tx as (_ & _ & O1), Tw as (_ & _ & O2). destruct (op (vp v i)), (op (vp v x)), (op (vp v b)); congruence.
        -- apply (coll_trans _ (vp v i)); [apply coll_sym; apply Tx|apply coll_sym; apply Tw].
  - assert (None_ : forall j, seen v j -> ~ twin (vp v i) (vp v j)).
    { intros j Sj Tj. pose proof (twin_active j Sj Tj) as Aj. rewrite !Vp in Tj. apply (Alone j); [|exact Tj]. rewrite <- El. exact Aj. }
    destruct (Nat.eq_dec x i) as [->|Ni].
    + exists NONE. split; [exact (Set' _ _ _ _ (ad_alone _ _ _ _ _ _ _ _ _ _ Ad Alone))|]. left. split; [reflexivity|].
      intros j Sj. pose proof (seen_n j Sj) as Nj. rewrite (twin_b i j Ii Nj). apply seen_b in Sj. destruct Sj as [->|Sj]; [|exact (None_ j Sj)].
      intros (_ & _ & K). apply K. reflexivity.
    + apply Rest; [exact Ni|]. apply None_. destruct Sx' as [K|Sv]; [elim Ni; exact K|exact Sv].
Qed.

Let left_fresh : forall j, In (EL j) (queue s') -> lft s' j = strip (lft s' j).
Proof.
  intros j Hj. destruct (Nat.lt_ge_cases j (length (lefts s))) as [Lj|Lj]; [|exact (ad_new _ _ _ _ _ _ _ _ _ _ Ad j Lj)].
  assert (Hq1 : In (EL j) (queue s1)).
  { assert (R : in_range s1 (EL j)) by (rewrite Es1; cbn; rewrite map_length; exact Lj).
    apply (proj1 (divs_queue _ _ Dv W1 (EL j)) R). rewrite <- Esb. exact Hj. }
  assert (Nj : ~ In j (l1 ++ i :: l2)).
  { intro K. apply (active_not_future _ j (b_q _ _ _ _ B1)).
    - unfold active. change (vs (abs s1 fin)) with (vs v1). rewrite Evs. exact K.
    - apply future_event. exact Hq1. }
  destruct (ad_far _ _ _ _ _ _ _ _ _ _ Ad j Lj Nj) as ((K1 & K2 & K3 & K4 & K5) & K6 & K7).
  assert (Hj0 : In (EL j) (queue s)).
  { rewrite Es1 in Hq1. change (In (EL j) (queue (unqueue (EL i) (erase s)))) in Hq1. exact (proj1 (proj1 (unqueue_in _ _ _) Hq1)). }
  pose proof (Hfresh j Hj0) as F. rewrite F in K3, K4, K5, K6, K7. cbn [strip l_other l_result l_below l_is_overlap l_kind] in *.
  destruct (lft s' j) as [a b c d f g h p q]. cbn [l_other l_result l_below l_is_overlap l_kind strip l_start l_right l_first l_interior] in *.
  subst. reflexivity.
Qed.

(** Targets of pointers. *)
Let good_target (c y : nat) : Prop := seen v c /\ lonely v c /\ l_result (lft s' c) = true /\ prior (vp v c) (vp v y).
Let Bb : base V Ts T vb.
Proof. exact (cuts_base V Ts T _ _ _ Cu B1). Qed.
Let Future_i : future v i.
Proof. apply future_event. exact Hin. Qed.
Let still_lonely : forall c, seen v c -> lonely v c -> lonely vb c.
Proof.
  intros c Sc Hl. assert (Ni : c <> i).
  { intros ->. destruct Sc as [A|D]; [exact (active_not_future v i Hq A Future_i)|]. apply (q_done v Hq) in D. apply (proj2 D). exact (q_left v Hq i Future_i). }
  apply (lonely_cuts V Ts T _ _ _ Cu B1).
  - change (seen v1 c). destruct Sc as [A|D]; [left; apply AA; right; exact A|right; exact D].
  - intros z Az Lz Uz Ac Lc Co Op. change (vp (abs s1 fin)) with (vp v1) in *. rewrite Evp in *.
    change (active v1 z) in Az. change (active v1 c) in Ac. apply AA in Az, Ac.
    destruct Ac as [K|Ac]; [contradiction|]. destruct Az as [->|Az]; [rewrite Lo' in Lz; qlra|].
    exact (none_along V Ts T v Hb Hset z c Az Ac Lz Uz Lc Co Op).
  - intros y Fy. change (future v1 y) in Fy. apply AF in Fy. change (vp (abs s1 fin)) with (vp v1). rewrite Evp. apply Hl. apply Fy.
Qed.
Let lonely_not : forall c, lonely v c -> ~ twin (vp v i) (vp v c).
Proof. intros c Hl K. apply (Hl i Future_i). apply twin_sym. exact K. Qed.
Let seen_not : forall c, seen v c -> c <> i.
Proof. intros c Sc ->. destruct Sc as [A|D]; [exact (active_not_future v i Hq A Future_i)|]. apply (q_done v Hq) in D. apply (proj2 D). exact (q_left v Hq i Future_i). Qed.
Let same_result : forall c, seen v c -> ~ twin (vp v i) (vp v c) -> l_result (lft s' c) = l_result (lft s c) /\ l_below (lft s' c) = l_below (lft s c).
Proof.
  intros c Sc Nt. assert (Nc : (c < n)%nat) by (rewrite <- Nv; exact (seen_lt v c Hq Sc)). rewrite !Vp in Nt.
  destruct (ad_rest _ _ _ _ _ _ _ _ _ _ Ad c Nc (seen_not c Sc) Nt) as (_ & R & R' & _). split; assumption.
Qed.
Let old_target : forall x c, k = Shaped -> seen v x -> l_below (lft s x) = Some c -> c <> x /\ good_target c x.
Proof.
  intros x c Ks Sx E. destruct (Hpoints x Sx Ks c E) as (N & Sc & R & Pr & Hl). split; [exact N|].
  split; [exact Sc|]. split; [exact Hl|]. split; [|exact Pr]. rewrite (proj1 (same_result c Sc (lonely_not c Hl))). exact R.
Qed.
Let from_rf : forall z, k = Shaped -> seen vb z -> result (lft s' z) = true -> l_result (lft s' z) = true.
Proof.
  intros z Ks Sz H. destruct (left_result z Sz) as (K & (E1 & E2) & _). rewrite E1, <- (E2 Ks), <- H, Hrf, Ks. reflexivity.
Qed.
(** What is under the added piece. *)
Let under_prior : forall c, In c l1 -> prior (vp v c) (vp v i).
Proof.
  intros c Hc. pose proof (in_l1_active c Hc) as Ac. pose proof (b_act _ _ _ _ Hb c Ac) as (K & _). pose proof (Hl1 c Hc) as B. change (pc (erase s)) with (vp v) in B.
  apply Qcle_lt_or_eq in K. destruct K as [K|K]; [left; rewrite Lo'; exact K|right]. split; [rewrite Lo'; exact K|].
  assert (H1 : active v1 c) by (apply AA; right; exact Ac). assert (H2 : active v1 i) by (apply AA; left; reflexivity).
  destruct (below_here V Ts T v v1 i l1 l2 Hb Hset Lo Hhi' Pop c i H1 H2 (or_introl K) B) as [J|(_ & [J|(J & _)])]; [exfalso|qlra|qlra].
  pose proof (start_V V Ts T v i Hb Hpass Lo Hhi' Slopes c (active_lt v c Hq Ac) K) as X1. pose proof (start_V V Ts T v i Hb Hpass Lo Hhi' Slopes i Ii Lo') as X2. qlra.
Qed.
Let under_lonely : forall c, In c l1 -> ~ twin (vp v i) (vp v c) -> lonely v c.
Proof.
  intros c Hc Nt y Fy (C & L & O). pose proof (in_l1_active c Hc) as Ac. pose proof (b_act _ _ _ _ Hb c Ac) as (K & _). pose proof (b_fut _ _ _ _ Hb y Fy) as K'.
  assert (Lc : lo (vp v c) = T) by qlra. pose proof (Slopes y Fy ltac:(qlra)) as S1.
  destruct (under_prior c Hc) as [S2|(_ & S2)]; [rewrite Lo' in S2; qlra|]. destruct C as (C1 & C2).
  assert (S3 : sl (vp v c) = sl (vp v i)) by qlra.
  assert (Ci : coll (vp v i) (vp v c)).
  { pose proof (start_V V Ts T v i Hb Hpass Lo Hhi' Slopes c (active_lt v c Hq Ac) Lc) as X1. pose proof (start_V V Ts T v i Hb Hpass Lo Hhi' Slopes i Ii Lo') as X2.
    unfold ht in X1, X2. split; [symmetry; exact S3|]. rewrite S3 in X1. qlra. }
  destruct (Bool.bool_dec (op (vp v i)) (op (vp v c))) as [E|E].
  - apply (same_operand V Ts T v v1 i l1 l2 Hb Hset Lo Hhi' Pop i c); [apply AA; tauto|apply AA; tauto| |exact E|exact Ci].
    intros <-. exact (seen_not i (or_introl Ac) eq_refl).
  - apply Nt. split; [exact Ci|]. split; [rewrite Lo'; symmetry; exact Lc|exact E].
Qed.
Let under_target : forall z c, k = Shaped -> In z l1 -> ~ twin (vp v i) (vp v z) ->
  (c = z /\ result (lft s' z) = true) \/ l_below (lft s' z) = Some c -> good_target c i.
Proof.
  intros z c Ks Hz Nt H. pose proof (or_introl (in_l1_active z Hz) : seen v z) as Sz. destruct H as [(-> & H)|H].
  - split; [exact Sz|]. split; [exact (under_lonely z Hz Nt)|]. split; [|exact (under_prior z Hz)].
    apply from_rf; [exact Ks|apply seen_b; right; exact Sz|exact H].
  - rewrite (proj2 (same_result z Sz Nt)) in H. destruct (old_target z c Ks Sz H) as (_ & (A1 & A2 & A3 & A4)).
    split; [exact A1|]. split; [exact A2|]. split; [exact A3|]. exact (prior_trans _ _ _ A4 (under_prior z Hz)).
Qed.
Let prior_b : forall x y, (x < vn v)%nat -> (y < vn v)%nat -> prior (vp v x) (vp v y) -> prior (vp vb x) (vp vb y).
Proof.
  intros x y Hx Hy H. destruct (kept_b x Hx) as (X1 & (X2 & _) & _), (kept_b y Hy) as (Y1 & (Y2 & _) & _). unfold prior in *. rewrite X1, X2, Y1, Y2. exact H.
Qed.
Let target_ok : forall x c, seen vb x -> good_target c x -> c <> x ->
  c <> x /\ seen vb c /\ l_result (lft s' c) = true /\ prior (vp vb c) (vp vb x) /\ lonely vb c.
Proof.
  intros x c Sx (A1 & A2 & A3 & A4) N. split; [exact N|]. split; [apply seen_b; right; exact A1|]. split; [exact A3|].
  split; [apply prior_b; [exact (seen_lt v c Hq A1)|exact (seen_n x Sx)|exact A4]|exact (still_lonely c A1 A2)].
Qed.
Let twin_lonely : forall x y, seen vb x -> seen vb y -> twin (vp v x) (vp v y) -> lonely vb x.
Proof.
  intros x y Sx Sy Tw z Fz Tz. apply (twin_b x y (seen_n x Sx) (seen_n y Sy)) in Tw. destruct Tw as (C1 & L1 & O1), Tz as (C2 & L2 & O2).
  pose proof (b_geo _ _ _ _ Bb) as G. pose proof (b_q _ _ _ _ Bb) as Q.
  pose proof (seen_lt vb y Q Sy) as Ry. pose proof (future_lt vb z Q Fz) as Rz.
  assert (N : y <> z).
  { intros ->. destruct Sy as [A|D]; [exact (active_not_future vb z Q A Fz)|]. apply (q_done vb Q) in D. apply (proj2 D). exact (q_left vb Q z Fz). }
  pose proof (g_len _ _ _ G y Ry) as Gy. pose proof (g_len _ _ _ G z Rz) as Gz.
  destruct (g_over _ _ _ G y z Ry Rz N) as [K|K]; try qlra.
  - destruct (op (vp vb x)), (op (vp vb y)), (op (vp vb z)); congruence.
  - apply (coll_trans _ (vp vb x)); [apply coll_sym; exact C1|exact C2].
Qed.
Let prior_twin : forall x y, twin (vp v x) (vp v y) -> prior (vp v x) (vp v y).
Proof. intros x y ((C & _) & L & _). right. split; [exact L|qlra]. Qed.
(** The pointer of the added piece. *)
Let i_target : forall c, k = Shaped -> pointed k holey result s i (last_error l1) s' -> (forall z, In z l1 -> ~ twin (vp v i) (vp v z)) ->
  l_below (lft s' i) = Some c -> good_target c i.
Proof.
  intros c Ks Hp Nt E. specialize (Hp Ks).
  assert (Fr : l_below (lft s i) = None) by (rewrite (Hfresh i Hin); reflexivity).
  destruct (last_error l1) as [z|] eqn:Ez; [|congruence]. destruct holey; [|congruence].
  destruct (last_error_some _ _ _ Ez) as (m & Em). assert (Hz : In z l1) by (rewrite Em; apply in_or_app; right; left; reflexivity).
  exact (under_target z c Ks Hz (Nt z Hz) (Hp c E)).
Qed.

Let left_points : forall x, seen vb x -> points_right vb s' x.
Proof.
  intros x Sx Ks c E. pose proof (seen_n x Sx) as Nx. pose proof Sx as Sx'. apply seen_b in Sx'.
  assert (Rest : x <> i -> ~ twin (vp v i) (vp v x) -> c <> x /\ seen vb c /\ l_result (lft s' c) = true /\ prior (vp vb c) (vp vb x) /\ lonely vb c).
  { intros Ni Nt. destruct Sx' as [K|Sv]; [contradiction|]. rewrite (proj2 (same_result x Sv Nt)) in E.
    destruct (old_target x c Ks Sv E) as (A & B). apply target_ok; assumption. }
  assert (Si : seen vb i) by (apply seen_b; left; reflexivity).
  assert (Same : forall y z, active v y -> active v z -> twin (vp v i) (vp v y) -> twin (vp v i) (vp v z) -> y = z).
  { intros y z Ay Az Ty Tz. destruct (Nat.eq_dec y z) as [K|K]; [exact K|exfalso].
    apply (same_operand V Ts T v v1 i l1 l2 Hb Hset Lo Hhi' Pop y z); [apply AA; tauto|apply AA; tauto|exact K| |].
    - destruct Ty as (_ & _ & O1), Tz as (_ & _ & O2). destruct (op (vp v i)), (op (vp v y)), (op (vp v z)); congruence.
    - apply (coll_trans _ (vp v i)); [apply coll_sym; apply Ty|apply Tz]. }
  destruct twin_cases as [(a & m & E2 & Tw)|[(b & m & E1 & Tw)|Alone]].
  - destruct (ad_above _ _ _ _ _ _ _ _ _ _ Ad a m E2 Tw) as (S1 & S2). rewrite <- !Vp in Tw.
    assert (Ia2 : In a l2) by (rewrite E2; left; reflexivity). assert (Aa : active v a) by (apply in_l2_active; exact Ia2).
    assert (Sa : seen v a) by (left; exact Aa).
    assert (Nt : forall z, In z l1 -> ~ twin (vp v i) (vp v z)).
    { intros z Hz K. pose proof (Same z a (in_l1_active z Hz) Aa K Tw) as Eq. subst z. exact (apart_l1 a Hz Ia2). }
    assert (Ti : forall c', l_below (lft s' i) = Some c' -> good_target c' i).
    { intros c'. apply (i_target c' Ks (st_below _ _ _ _ _ _ _ _ _ _ S2) Nt). }
    destruct (Nat.eq_dec x i) as [->|Ni]; [pose proof (Ti c E) as G; apply (target_ok i c Sx G); apply seen_not; apply G|].
    destruct (Nat.eq_dec x a) as [->|Nax].
    + pose proof (st_below _ _ _ _ _ _ _ _ _ _ S1 Ks) as Hp.
      destruct holey.
      2:{ rewrite Hp in E. destruct (old_target a c Ks Sa E) as (A & B). apply target_ok; assumption. }
      destruct (Hp c E) as [(-> & Hr)|Hb'].
      * split; [congruence|]. split; [exact Si|]. split; [exact (from_rf i Ks Si Hr)|].
        split; [apply prior_b; [exact Ii|exact Nx|exact (prior_twin i a Tw)]|exact (twin_lonely i a Si Sx Tw)].
      * destruct (Ti c Hb') as (A1 & A2 & A3 & A4). apply target_ok; [exact Sx| |].
        -- split; [exact A1|]. split; [exact A2|]. split; [exact A3|]. exact (prior_trans _ _ _ A4 (prior_twin i a Tw)).
        -- intros ->. exact (lonely_not a A2 Tw).
    + apply Rest; [exact Ni|]. intro Tx. destruct Sx' as [K|Sv]; [exact (Ni K)|]. apply Nax. exact (Same x a (twin_active x Sv Tx) Aa Tx Tw).
  - destruct (ad_below _ _ _ _ _ _ _ _ _ _ Ad b m E1 Tw) as (S1 & S2). rewrite <- !Vp in Tw.
    assert (Ib1 : In b l1) by (rewrite E1; apply in_or_app; right; left; reflexivity). assert (Ab : active v b) by (apply in_l1_active; exact Ib1).
    assert (Sb : seen v b) by (left; exact Ab). assert (Tw' : twin (vp v i) (vp v b)) by (apply twin_sym; exact Tw).
    assert (Sbb : seen vb b) by (apply seen_b; right; exact Sb).
    assert (Tb : forall c', l_below (lft s' b) = Some c' -> good_target c' b).
    { intros c' E'. pose proof (st_below _ _ _ _ _ _ _ _ _ _ S1 Ks) as Hp.
      assert (Old : l_below (lft s' b) = l_below (lft s b) -> good_target c' b) by (intro K; rewrite K in E'; exact (proj2 (old_target b c' Ks Sb E'))).
      destruct (last_error m) as [z|] eqn:Ez; [|exact (Old Hp)]. destruct holey; [|exact (Old Hp)].
      destruct (last_error_some _ _ _ Ez) as (m' & Em). assert (Hz : In z l1) by (rewrite E1, Em; apply in_or_app; left; apply in_or_app; right; left; reflexivity).
      assert (Nzb : z <> b).
      { intros ->. rewrite E1, Em in Nd. rewrite <- !app_assoc in Nd. cbn [app] in Nd. apply NoDup_remove_2 in Nd. apply Nd. apply in_or_app. right. left. reflexivity. }
      assert (Nt : ~ twin (vp v i) (vp v z)) by (intro K; exact (Nzb (Same z b (in_l1_active z Hz) Ab K Tw'))).
      destruct (under_target z c' Ks Hz Nt (Hp c' E')) as (A1 & A2 & A3 & A4). split; [exact A1|]. split; [exact A2|]. split; [exact A3|].
      exact (prior_trans _ _ _ A4 (prior_twin i b Tw')). }
    destruct (Nat.eq_dec x i) as [->|Ni].
    + pose proof (st_below _ _ _ _ _ _ _ _ _ _ S2 Ks) as Hp.
      destruct holey.
      2:{ rewrite Hp, (Hfresh i Hin) in E. discriminate E. }
      destruct (Hp c E) as [(-> & Hr)|Hb'].
      * split; [exact (seen_not b Sb)|]. split; [exact Sbb|]. split; [exact (from_rf b Ks Sbb Hr)|].
        split; [apply prior_b; [exact (seen_n b Sbb)|exact Nx|exact (prior_twin b i Tw)]|exact (twin_lonely b i Sbb Sx Tw)].
      * destruct (Tb c Hb') as (A1 & A2 & A3 & A4). apply target_ok; [exact Sx| |exact (seen_not c A1)].
        split; [exact A1|]. split; [exact A2|]. split; [exact A3|]. exact (prior_trans _ _ _ A4 (prior_twin b i Tw)).
    + destruct (Nat.eq_dec x b) as [->|Nbx].
      * pose proof (Tb c E) as G. apply target_ok; [exact Sx|exact G|]. intros ->. exact (lonely_not b (proj1 (proj2 G)) Tw').
      * apply Rest; [exact Ni|]. intro Tx. destruct Sx' as [K|Sv]; [exact (Ni K)|]. apply Nbx. exact (Same x b (twin_active x Sv Tx) Ab Tx Tw').
  - assert (None_ : forall j, seen v j -> ~ twin (vp v i) (vp v j)).
    { intros j Sj Tj. pose proof (twin_active j Sj Tj) as Aj. rewrite !Vp in Tj. apply (Alone j); [|exact Tj]. rewrite <- El. exact Aj. }
    destruct (Nat.eq_dec x i) as [->|Ni].
    + pose proof (i_target c Ks (st_below _ _ _ _ _ _ _ _ _ _ (ad_alone _ _ _ _ _ _ _ _ _ _ Ad Alone)) (fun z Hz => None_ z (or_introl (in_l1_active z Hz))) E) as G.
      apply (target_ok i c Sx G). apply seen_not. apply G.
    + apply Rest; [exact Ni|]. apply None_. destruct Sx' as [K|Sv]; [elim Ni; exact K|exact Sv].
Qed.

Let same_rf : forall z, k = Shaped -> seen vb z -> result (lft s' z) = l_result (lft s' z).
Proof. intros z Ks Sz. destruct (left_result z Sz) as (K & (E1 & E2) & _). rewrite E1, <- (E2 Ks), Hrf, Ks. reflexivity. Qed.
Let link_by : forall x z, seen vb x -> lo (vp v x) = T -> seen vb z -> under (vp v x) T (vp v z) = true -> k = Shaped -> holey = true ->
  pointing k holey result s x (Some z) s' ->
  l_below (lft s' x) = (if l_result (lft s' z) then Some z else l_below (lft s' z))
  \/ (coll (vp vb z) (vp vb x) /\ l_result (lft s' z) = true /\ sl (vp vb x) * e = 1).
Proof.
  intros x z Sx Lx Sz U Ks Eh Ex. specialize (Ex Ks Eh). cbv beta iota in Ex. rewrite (same_rf z Ks Sz) in Ex.
  pose proof (seen_n x Sx) as Rx. pose proof (seen_n z Sz) as Rz.
  destruct (is_vertical s z) eqn:Ev; [|left; rewrite Ex; destruct (l_result (lft s' z)); reflexivity].
  destruct (l_result (lft s' z)) eqn:Er; [right|left; rewrite Ex; reflexivity].
  assert (Ev' : is_vertical (erase s) z = true) by (rewrite vertical_erase; exact Ev).
  apply under_spec in U. destruct U as ((U1 & U2) & Lw).
  destruct (steep e P Hsh (erase s) fin (b_geo _ _ _ _ Hb) z x Rz Rx Ev') as (Hh & Hs).
  { change (pc (erase s)) with (vp v). rewrite Lx. exact U1. }
  { change (pc (erase s)) with (vp v). rewrite Lx. exact U2. }
  change (pc (erase s)) with (vp v) in Hh, Hs. rewrite Lx in Hh.
  pose proof (proj1 (vertical_slope e P Hsh (erase s) fin (b_geo _ _ _ _ Hb) z Rz) Ev') as Sv. change (pc (erase s)) with (vp v) in Sv.
  apply low_spec in Lw. destruct Lw as [Lw|(_ & [Lw|(Lw & _)])]; [exfalso; rewrite Hh in Lw; exact (Qclt_not_eq _ _ Lw eq_refl)|exfalso; qlra|].
  assert (C : coll (vp v z) (vp v x)) by (apply (ht_slopes _ _ T); assumption).
  destruct (kept_b x Rx) as (_ & X2 & _), (kept_b z Rz) as (_ & Z2 & _).
  split; [apply (coll_trans _ (vp v z) _ Z2); apply (coll_trans _ (vp v x) _ C); apply coll_sym; exact X2|]. split; [reflexivity|].
  rewrite (proj1 X2), <- Lw. exact Sv.
Qed.
Let pointing_i : k = Shaped -> holey = true -> pointing k holey result s i (last_error l1) s'.
Proof.
  intros Ks Eh. destruct twin_cases as [(a & m & E & Tw)|[(b & m & E & Tw)|Alone]].
  - exact (proj2 (ad_above_exact _ _ _ _ _ _ _ _ _ _ Ad a m E Tw)).
  - rewrite E, last_error_app. exact (proj2 (ad_below_exact _ _ _ _ _ _ _ _ _ _ Ad b m E Tw)).
  - exact (ad_exact _ _ _ _ _ _ _ _ _ _ Ad Alone).
Qed.
Let left_under : under_right vb s'.
Proof.
  intros Ks Eh P0. destruct (Hunder Ks Eh P0) as (Pv & Fv & Lk).
  assert (P1 : cleared V v1) by (unfold cleared in *; rewrite Evn, Evp; exact Pv).
  pose proof (added_free V Ts T v v1 i l1 l2 Hb Hset Hpass Lo' Hhi' Slopes Pop Pv Fv) as F1.
  destruct (beneath_cuts V Ts T _ _ _ Cu B1 P1 F1) as (Pb & Fb & Ben). split; [exact Pb|]. split; [exact Fb|].
  change (abs s1 fin) with v1 in Ben. rewrite Evn, Evp in Ben. change (abs sb fin) with vb in Ben.
  assert (S1 : forall x, x = i \/ seen v x -> seen v1 x).
  { intros x [->|[A|D]]; [left; apply AA; left; reflexivity|left; apply AA; right; exact A|right; exact D]. }
  assert (Sact : forall j, In j (l1 ++ i :: l2) -> seen vb j).
  { intros j H. apply seen_b. apply in_app_iff in H. destruct H as [H|[<-|H]]; [right; left; apply in_l1_active; exact H|left; reflexivity|right; left; apply in_l2_active; exact H]. }
  (* by the neighbour on the sweep line *)
  assert (By : forall x m m2, l1 ++ i :: l2 = m ++ x :: m2 -> lo (vp v x) = T -> sl (vp v x) <= sl (vp v i) -> ~ awaiting vb x ->
    pointing k holey result s x (last_error m) s' -> (last_error m = None -> beneath (vn v) (vp v) x None -> l_below (lft s x) = None) ->
    exists ob, beneath (vn vb) (vp vb) x ob /\ match ob with None => l_below (lft s' x) = None
      | Some b => seen vb b /\ (l_below (lft s' x) = (if l_result (lft s' b) then Some b else l_below (lft s' b))
          \/ (coll (vp vb b) (vp vb x) /\ l_result (lft s' b) = true /\ sl (vp vb x) * e = 1)) end).
  { intros x m m2 E Lx Sl Na Po Hn. assert (Sx : seen vb x) by (apply Sact; rewrite E; apply in_or_app; right; left; reflexivity).
    assert (Sx1 : seen v1 x) by (apply S1; apply seen_b; exact Sx).
    destruct (Ben x Sx1 Na) as (Na1 & Ben').
    pose proof (line_beneath V Ts T v v1 i l1 l2 Hb Hset Hpass Lo' Hhi' Slopes Pop x m m2 ltac:(rewrite Evs; exact E) Lx Sl Na1) as Bx.
    exists (last_error m). split; [apply Ben'; exact Bx|]. destruct (last_error m) as [z|] eqn:Ez.
    - destruct (last_error_some _ _ _ Ez) as (m' & Em). assert (Sz : seen vb z) by (apply Sact; rewrite E, Em; apply in_or_app; left; apply in_or_app; right; left; reflexivity).
      split; [exact Sz|]. apply link_by; try assumption. destruct Bx as (_ & U & _). rewrite Lx in U. exact U.
    - rewrite (Po Ks Eh). apply Hn; [reflexivity|exact Bx]. }
  intros x Sx' Na. pose proof Sx' as Sx. apply seen_b in Sx. destruct (Nat.eq_dec x i) as [->|Nxi].
  { apply (By i l1 l2 eq_refl Lo' (Qcle_refl _) Na (pointing_i Ks Eh)). intros _ _. rewrite (Hfresh i Hin). reflexivity. }
  destruct Sx as [K|Sx]; [contradiction|]. destruct (twin_dec (vp v i) (vp v x)) as [Tx|Tx].
  - (* recomputed *)
    pose proof (twin_active x Sx Tx) as Ax. assert (Lx : lo (vp v x) = T) by (rewrite <- (proj1 (proj2 Tx)); exact Lo').
    assert (Slx : sl (vp v x) <= sl (vp v i)) by (rewrite (proj1 (proj1 Tx)); apply Qcle_refl).
    destruct (twin_neighbour V Ts T v v1 i l1 l2 Hb Hset Lo Hhi' Pop x Ax Tx) as [(m & E)|(m & E)].
    + rewrite !Vp in Tx. destruct (ad_above_exact _ _ _ _ _ _ _ _ _ _ Ad x m E Tx) as (Po & _).
      apply (By x (l1 ++ [i]) m); [rewrite E, <- app_assoc; reflexivity|exact Lx|exact Slx|exact Na|rewrite last_error_app; exact Po|].
      rewrite last_error_app. discriminate.
    + assert (Tx' : twin (pc s x) (pc s i)) by (rewrite <- !Vp; apply twin_sym; exact Tx).
      destruct (ad_below_exact _ _ _ _ _ _ _ _ _ _ Ad x m E Tx') as (Po & _).
      apply (By x m (i :: l2)); [rewrite E, <- app_assoc; reflexivity|exact Lx|exact Slx|exact Na|exact Po|].
      intros _ Bx. destruct (Lk x Sx) as (ob & Bx' & H).
      * intros (O & _). rewrite <- !Vp in Tx'. rewrite (twin_first_below x) in O; [discriminate O|rewrite E; apply in_or_app; right; left; reflexivity|exact Tx'].
      * rewrite <- (beneath_unique _ _ _ _ _ Bx Bx') in H. exact H.
  - (* as before *)
    destruct (Ben x (S1 x (or_intror Sx)) Na) as (Na1 & Ben').
    assert (Nav : ~ awaiting v x).
    { intro Aw. destruct Sx as [A|D].
      - destruct (awaited V Ts T v v1 i l1 l2 Hb Hset Lo Hhi' Pop x A Aw Na1) as (m & _ & K). exact (Tx K).
      - destruct Aw as (Ox & y & Fy & Oy & Ly & _). pose proof (b_done _ _ _ _ Hb x D) as K. pose proof (b_fut _ _ _ _ Hb y Fy) as K'.
        pose proof (g_len _ _ _ (b_geo _ _ _ _ Hb) x (done_lt v x Hq D)) as K2. qlra. }
    destruct (Lk x Sx Nav) as (ob & Bx & E). exists ob. split; [apply Ben'; exact Bx|]. rewrite (proj2 (same_result x Sx Tx)).
    destruct ob as [b|]; [|exact E]. destruct E as (Sb & E). split; [apply seen_b; right; exact Sb|].
    pose proof (seen_lt v x Hq Sx) as Rx. pose proof (seen_lt v b Hq Sb) as Rb.
    assert (Tb : ~ twin (vp v i) (vp v b)).
    { intro Tb. pose proof (twin_active b Sb Tb) as Ab. destruct Tb as (Cb & Lb & Ob). rewrite Lo' in Lb. destruct Bx as (_ & U & _). apply under_spec in U. destruct U as ((U1 & U2) & Lw).
      assert (Lx : lo (vp v x) = T).
      { destruct Sx as [A|D]; [pose proof (b_act _ _ _ _ Hb x A) as (K & _); qlra|]. pose proof (b_done _ _ _ _ Hb x D). pose proof (g_len _ _ _ (b_geo _ _ _ _ Hb) x Rx). qlra. }
      assert (Ax : active v x).
      { destruct Sx as [A|D]; [exact A|]. pose proof (b_done _ _ _ _ Hb x D). pose proof (g_len _ _ _ (b_geo _ _ _ _ Hb) x Rx). qlra. }
      pose proof (proj2 Fv x i Sx Future_i ltac:(rewrite Lo', Lx; reflexivity)) as Sl.
      pose proof (start_V V Ts T v i Hb Hpass Lo Hhi' Slopes b Rb (eq_sym Lb)) as X1. pose proof (start_V V Ts T v i Hb Hpass Lo Hhi' Slopes x Rx Lx) as X2.
      rewrite Lx in Lw. apply low_spec in Lw. rewrite X1, X2 in Lw. destruct Cb as (Cs & Ci).
      destruct Lw as [Lw|(_ & [Lw|(Lw & O1 & O2)])]; [exact (Qclt_not_eq _ _ Lw eq_refl)|rewrite <- Cs in Lw; qlra|].
      apply (same_operand V Ts T v v1 i l1 l2 Hb Hset Lo Hhi' Pop i x); [apply AA; tauto|apply AA; tauto|congruence| |].
      - destruct (op (vp v i)), (op (vp v b)), (op (vp v x)); congruence.
      - apply (coll_trans _ (vp v b)); [split; assumption|]. apply (ht_slopes _ _ T); [congruence|exact Lw]. }
    rewrite (proj1 (same_result b Sb Tb)), (proj2 (same_result b Sb Tb)). destruct E as [E|(E1 & E2 & E3)]; [left; exact E|right].
    destruct (kept_b x Rx) as (_ & X2 & _), (kept_b b Rb) as (_ & Z2 & _).
    split; [apply (coll_trans _ (vp v b) _ Z2); apply (coll_trans _ (vp v x) _ E1); apply coll_sym; exact X2|]. split; [exact E2|]. rewrite (proj1 X2). exact E3.
Qed.

Lemma left_labels : static v vb /\ (forall j, In (EL j) (queue s') -> lft s' j = strip (lft s' j))
  /\ (forall x, seen vb x -> other_right vb s' x) /\ (forall x, seen vb x -> result_right vb s' x)
  /\ (forall x, seen vb x -> points_right vb s' x) /\ under_right vb s'.
Proof. split; [exact static_b|]. split; [exact left_fresh|]. split; [exact left_other|]. split; [exact left_result|]. split; [exact left_points|exact left_under]. Qed.
End Left.

(** *** A right event *)
Section Right.
Variables (T : Qc) (s : state) (pl : list event) (y : nat) (sb : state).
Notation fin := (finished (erase s) pl).
Hypothesis Hb : base V Ts T (view_of s pl).
Hypothesis Hfresh : forall j, In (EL j) (queue s) -> lft s j = strip (lft s j).
Hypothesis Hother : forall j, seen (view_of s pl) j -> other_right (view_of s pl) s j.
Hypothesis Hresult : forall j, seen (view_of s pl) j -> result_right (view_of s pl) s j.
Hypothesis Hpoints : forall j, seen (view_of s pl) j -> points_right (view_of s pl) s j.
Hypothesis Hunder : under_right (view_of s pl) s.
Variables (r : nat) (l1 l2 : list nat) (s1 : state).
Hypothesis El : line s = l1 ++ y :: l2.
Hypothesis Es1 : s1 = with_line (unqueue (ER r) (erase s)) (l1 ++ l2).
Hypothesis W1 : wf s1.
Hypothesis B1 : base V Ts T (abs s1 (y :: fin)).
Hypothesis Dv : divs s1 sb.
Hypothesis Cu : cuts V Ts T (fun _ => True) (abs s1 (y :: fin)) (abs sb (y :: fin)).
Variable s' : state.
Hypothesis Esb : erase s' = sb.
Hypothesis Hkept : forall j, (j < length (lefts s))%nat -> kept (lft s' j) (lft s j).
Hypothesis Hnew : forall j, (length (lefts s) <= j)%nat -> lft s' j = strip (lft s' j).
Hypothesis Hfar : forall j, (j < length (lefts s))%nat -> ~ In j (l1 ++ l2) -> unchanged (lft s' j) (lft s j).
Hypothesis Hset : settled never (view_of s pl).
Hypothesis Hkinds : forall j, (j < length (lefts s))%nat -> l_kind (lft s' j) = l_kind (lft s j)
  \/ exists z, In z (l1 ++ l2) /\ In j (l1 ++ l2) /\ twin (pc s j) (pc s z) /\ (k = Shaped -> l_kind (lft s' j) = pair_kind k (lft s j) (lft s z)).

Notation v := (view_of s pl).
Let v1 := abs s1 (y :: fin).
Let vb := abs sb (y :: fin).
Let Hq : queues v := b_q _ _ _ _ Hb.
Let Evp : vp v1 = vp v.
Proof. unfold v1. rewrite Es1. reflexivity. Qed.
Let Evn : vn v1 = vn v.
Proof. unfold v1. rewrite Es1. reflexivity. Qed.
Let Nv : vn v = length (lefts s).
Proof. unfold view_of. cbn [SweepLink.abs vn]. apply len_erase. Qed.
Let kept_b : forall j, (j < vn v)%nat -> lo (vp vb j) = lo (vp v j) /\ coll (vp vb j) (vp v j) /\ op (vp vb j) = op (vp v j).
Proof.
  intros j Hj. destruct (cuts_keep V Ts T _ _ _ Cu B1 j) as (_ & K1 & K2 & K3 & K4 & _); [change (vn (abs s1 (y :: fin))) with (vn v1); rewrite Evn; exact Hj|].
  change (vp (abs s1 (y :: fin))) with (vp v1) in *. rewrite Evp in *. repeat split; assumption.
Qed.
Let seen_b : forall j, seen vb j <-> seen v j.
Proof.
  intro j. destruct (cuts_vs V Ts T _ _ _ Cu) as (K1 & K2). unfold seen, active, done. unfold vb. rewrite K1, K2.
  assert (E : vs (abs s1 (y :: fin)) = l1 ++ l2) by (rewrite Es1; reflexivity). rewrite E. change (vo (abs s1 (y :: fin))) with (y :: fin).
  change (vs v) with (line s). change (vo v) with fin. rewrite El, !in_app_iff. cbn [In]. tauto.
Qed.
Let twin_b : forall a b, (a < vn v)%nat -> (b < vn v)%nat -> (twin (vp vb a) (vp vb b) <-> twin (vp v a) (vp v b)).
Proof.
  intros x z Hx Hz. destruct (kept_b x Hx) as (X1 & (X2 & X3) & X4), (kept_b z Hz) as (Y1 & (Y2 & Y3) & Y4).
  unfold twin, coll. rewrite X1, X2, X3, X4, Y1, Y2, Y3, Y4. reflexivity.
Qed.
Let static_b : static v vb.
Proof.
  apply (static_trans _ v1); [|exact (cuts_static V Ts T _ _ _ Cu B1)]. split.
  - intros b c z t. unfold cnt. rewrite Evp, Evn. reflexivity.
  - intros b t. unfold ends. rewrite Evp, Evn. reflexivity.
Qed.
Let future_1 : forall j, future v j -> future v1 j.
Proof.
  intros j F. apply future_event in F. unfold v1. apply future_event. rewrite Es1.
  change (In (EL j) (queue (unqueue (ER r) (erase s)))). apply unqueue_in. split; [exact F|discriminate].
Qed.
Let awaiting_b : forall x, (x < vn v)%nat -> awaiting v x -> awaiting vb x.
Proof.
  intros x Hx (O & z & F & Oy & Ly & Cy). destruct (kept_b x Hx) as (X1 & X2 & X3).
  split; [rewrite X3; exact O|]. exists z. destruct (cuts_future V Ts T _ _ _ Cu B1 z (future_1 z F)) as (F' & E).
  split; [exact F'|]. assert (E' : vp vb z = vp v z) by (rewrite <- Evp; exact E). rewrite E', X1. split; [exact Oy|]. split; [exact Ly|].
  apply (coll_trans _ (vp v x)); [exact Cy|apply coll_sym; exact X2].
Qed.

(** Marking twins again changes nothing. *)
Let Vp : forall j, vp v j = pc s j.
Proof. intro j. apply pc_erase. Qed.
Let same_kind : forall x, seen v x -> k = Shaped -> l_kind (lft s' x) = l_kind (lft s x).
Proof.
  intros x Sx Ks. pose proof (seen_lt v x Hq Sx) as Rx. assert (Nx : (x < length (lefts s))%nat) by (rewrite <- Nv; exact Rx).
  destruct (Hkinds x Nx) as [E|(z & Iz & Ix & Tz & E)]; [exact E|]. rewrite (E Ks). rewrite <- !Vp in Tz.
  assert (Act : forall j, In j (l1 ++ l2) -> active v j).
  { intros j Hj. unfold active. change (vs v) with (line s). rewrite El. apply in_app_iff in Hj. apply in_or_app. cbn [In]. tauto. }
  pose proof (Act z Iz) as Az. pose proof (active_lt v z Hq Az) as Rz.
  destruct (Hresult x Sx) as (K & (_ & EK) & H). rewrite (EK Ks). destruct H as [(_ & H)|(j & J1 & J2 & ->)]; [elim (H z (or_introl Az) Tz)|].
  assert (Ej : j = z).
  { destruct (Nat.eq_dec j z) as [Ej|Nj]; [exact Ej|exfalso]. destruct Tz as (C1 & L1 & O1), J2 as (C2 & L2 & O2).
    pose proof (b_geo _ _ _ _ Hb) as G. pose proof (seen_lt v j Hq J1) as Rj.
    pose proof (g_len _ _ _ G j Rj) as Gy. pose proof (g_len _ _ _ G z Rz) as Gz.
    destruct (g_over _ _ _ G j z Rj Rz Nj) as [K|K]; try qlra.
    - destruct (op (vp v x)), (op (vp v j)), (op (vp v z)); congruence.
    - apply (coll_trans _ (vp v x)); [apply coll_sym; exact C2|exact C1]. }
  subst j. reflexivity.
Qed.
Let still_lonely : forall c, seen v c -> lonely v c -> lonely vb c.
Proof.
  intros c Sc Hl. apply (lonely_cuts V Ts T _ _ _ Cu B1).
  - apply seen_b in Sc. destruct (cuts_vs V Ts T _ _ _ Cu) as (K1 & K2). unfold seen, active, done in *. unfold vb in Sc. rewrite K1, K2 in Sc. exact Sc.
  - intros z Az Lz Uz Ac Lc Co Op. change (vp (abs s1 (y :: fin))) with (vp v1) in *. rewrite Evp in *.
    assert (In1 : forall j, active (abs s1 (y :: fin)) j -> active v j).
    { intros j Hj. unfold active in Hj. rewrite Es1 in Hj. cbn [SweepLink.abs vs with_line line] in Hj. unfold active. change (vs v) with (line s). rewrite El.
      apply in_app_iff in Hj. apply in_or_app. cbn [In]. tauto. }
    exact (none_along V Ts T v Hb Hset z c (In1 z Az) (In1 c Ac) Lz Uz Lc Co Op).
  - intros x Fx. change (vp (abs s1 (y :: fin))) with (vp v1). rewrite Evp. apply Hl.
    apply future_event in Fx. apply future_event. rewrite Es1 in Fx. change (In (EL x) (queue (unqueue (ER r) (erase s)))) in Fx. exact (proj1 (proj1 (unqueue_in _ _ _) Fx)).
Qed.

Lemma right_labels : static v vb /\ (forall j, In (EL j) (queue s') -> lft s' j = strip (lft s' j))
  /\ (forall x, seen vb x -> other_right vb s' x) /\ (forall x, seen vb x -> result_right vb s' x)
  /\ (forall x, seen vb x -> points_right vb s' x) /\ under_right vb s'.
Proof.
  split; [exact static_b|]. split; [|split; [|split; [|split]]].
  - intros j Hj. destruct (Nat.lt_ge_cases j (length (lefts s))) as [Lj|Lj]; [|exact (Hnew j Lj)].
    assert (Hq1 : In (EL j) (queue s1)).
    { assert (R : in_range s1 (EL j)) by (rewrite Es1; cbn; rewrite map_length; exact Lj).
      apply (proj1 (divs_queue _ _ Dv W1 (EL j)) R). rewrite <- Esb. exact Hj. }
    assert (Nj : ~ In j (l1 ++ l2)).
    { intro K. apply (active_not_future _ j (b_q _ _ _ _ B1)); [unfold active; rewrite Es1; exact K|]. apply future_event. exact Hq1. }
    destruct (Hfar j Lj Nj) as ((K1 & K2 & K3 & K4 & K5) & K6 & K7).
    assert (Hj0 : In (EL j) (queue s)).
    { rewrite Es1 in Hq1. change (In (EL j) (queue (unqueue (ER r) (erase s)))) in Hq1. exact (proj1 (proj1 (unqueue_in _ _ _) Hq1)). }
    pose proof (Hfresh j Hj0) as F. rewrite F in K3, K4, K5, K6, K7. cbn [strip l_other l_result l_below l_is_overlap l_kind] in *.
    destruct (lft s' j) as [a b c d f g h p q]. cbn [l_other l_result l_below l_is_overlap l_kind strip l_start l_right l_first l_interior] in *.
    subst. reflexivity.
  - intros x Sx Hr Na. apply seen_b in Sx. pose proof (seen_lt v x Hq Sx) as Nx. destruct (kept_b x Nx) as (K1 & K2 & K3). rewrite K3 in *.
    assert (Nx' : (x < length (lefts s))%nat) by (rewrite <- Nv; exact Nx). destruct (Hkept x Nx') as (_ & _ & E & _). rewrite E.
    rewrite (Hother x Sx Hr); [|intro J; exact (Na (awaiting_b x Nx J))]. rewrite (proj1 static_b), K1. symmetry. apply cnt_coll. exact K2.
  - intros x Sx. apply seen_b in Sx. pose proof (seen_lt v x Hq Sx) as Nx. assert (Nx' : (x < length (lefts s))%nat) by (rewrite <- Nv; exact Nx).
    destruct (Hresult x Sx) as (K & E & H). exists K. destruct (Hkept x Nx') as (A1 & A2 & A3 & A4 & _). rewrite A1, A3, A4.
    split; [split; [apply E|intro Ks; rewrite (same_kind x Sx Ks); exact (proj2 E Ks)]|].
    destruct H as [(-> & H)|(j & J1 & J2 & J3)].
    + left. split; [reflexivity|]. intros j Sj. apply seen_b in Sj. rewrite (twin_b x j Nx (seen_lt v j Hq Sj)). exact (H j Sj).
    + right. pose proof (seen_lt v j Hq J1) as Nj. exists j. split; [apply seen_b; exact J1|]. split; [apply (twin_b x j Nx Nj); exact J2|].
      rewrite Nv in Nj. destruct (Hkept j Nj) as (_ & B2 & _). unfold pair_kind in *. rewrite A2, B2. exact J3.
  - intros x Sx Ks c E. apply seen_b in Sx. pose proof (seen_lt v x Hq Sx) as Nx. assert (Nx' : (x < length (lefts s))%nat) by (rewrite <- Nv; exact Nx).
    destruct (Hkept x Nx') as (_ & _ & _ & _ & Eb). rewrite Eb in E. destruct (Hpoints x Sx Ks c E) as (P1 & P2 & P3 & P4 & P5).
    pose proof (seen_lt v c Hq P2) as Nc. assert (Nc' : (c < length (lefts s))%nat) by (rewrite <- Nv; exact Nc).
    split; [exact P1|]. split; [apply seen_b; exact P2|]. split; [destruct (Hkept c Nc') as (_ & _ & _ & A & _); rewrite A; exact P3|].
    split; [|exact (still_lonely c P2 P5)].
    destruct (kept_b x Nx) as (X1 & (X2 & _) & _), (kept_b c Nc) as (Y1 & (Y2 & _) & _). unfold prior in *. rewrite X1, X2, Y1, Y2. exact P4.
  - intros Ks Eh P0. destruct (Hunder Ks Eh P0) as (Pv & Fv & Lk).
    assert (S1 : forall x, seen v1 x <-> seen v x).
    { intro x. rewrite <- seen_b. destruct (cuts_vs V Ts T _ _ _ Cu) as (K1 & K2). unfold seen, active, done, vb, v1. rewrite K1, K2. reflexivity. }
    assert (P1 : cleared V v1) by (unfold cleared in *; rewrite Evn, Evp; exact Pv).
    assert (Fu : forall j, future v1 j <-> future v j).
    { intro j. unfold v1. rewrite !future_event, Es1. change (queue (with_line (unqueue (ER r) (erase s)) (l1 ++ l2))) with (queue (unqueue (ER r) (erase s))).
      rewrite unqueue_in. split; [intros (K & _); apply future_event; exact K|intro K; split; [apply future_event in K; exact K|discriminate]]. }
    assert (F1 : free V v1).
    { split; [intros a z Sa; rewrite Evn, Evp; apply (proj1 Fv a z); apply S1; exact Sa|]. intros a z Sa Fz. rewrite Evp. apply (proj2 Fv a z); [apply S1; exact Sa|apply Fu; exact Fz]. }
    destruct (beneath_cuts V Ts T _ _ _ Cu B1 P1 F1) as (Pb & Fb & Ben). split; [exact Pb|]. split; [exact Fb|].
    change (abs s1 (y :: fin)) with v1 in Ben. rewrite Evn, Evp in Ben. change (abs sb (y :: fin)) with vb in Ben.
    assert (Kp : forall c, seen v c -> l_result (lft s' c) = l_result (lft s c) /\ l_below (lft s' c) = l_below (lft s c)).
    { intros c Sc. pose proof (seen_lt v c Hq Sc) as Nc. rewrite Nv in Nc. destruct (Hkept c Nc) as (_ & _ & _ & A & B). split; assumption. }
    intros x Sx Na. apply seen_b in Sx. destruct (Ben x (proj2 (S1 x) Sx) Na) as (Na1 & Ben').
    assert (Nav : ~ awaiting v x).
    { intros (O & z & Fz & H). apply Na1. split; [rewrite Evp; exact O|]. exists z. split; [apply Fu; exact Fz|]. rewrite Evp. exact H. }
    destruct (Lk x Sx Nav) as (ob & Bx & E). exists ob. split; [apply Ben'; exact Bx|].
    destruct ob as [b|]; [|rewrite (proj2 (Kp x Sx)); exact E]. destruct E as (Sb & E). split; [apply seen_b; exact Sb|].
    rewrite (proj2 (Kp x Sx)), (proj1 (Kp b Sb)), (proj2 (Kp b Sb)). destruct E as [E|(E1 & E2 & E3)]; [left; exact E|right].
    destruct (kept_b x (seen_lt v x Hq Sx)) as (_ & X2 & _), (kept_b b (seen_lt v b Hq Sb)) as (_ & Z2 & _).
    split; [apply (coll_trans _ (vp v b) _ Z2); apply (coll_trans _ (vp v x) _ E1); apply coll_sym; exact X2|]. split; [exact E2|]. rewrite (proj1 X2). exact E3.
Qed.
End Right.

(** *** One iteration *)
Lemma labelled_iteration : forall T s pl, labelled T s pl -> queue s <> [] ->
  exists ev, In ev (queue s) /\ (forall pick, pop k pick s = Ok (ev, unqueue ev s))
  /\ inv e P (time_of e (erase s) ev) (erase s) (finished (erase s) pl)
  /\ (forall ev', In ev' (queue s) -> time_of e (erase s) ev <= time_of e (erase s) ev')
  /\ exists s', (forall o m, process_labelled k holey result o m ev (unqueue ev s) = Ok (s', true))
     /\ labelled (time_of e (erase s) ev) s' (pl ++ [ev])
     /\ (forall ev', In ev' (pl ++ [ev]) -> left_of s' ev' = left_of s ev')
     /\ (forall ev', In ev' (pl ++ [ev]) -> ev_start s' ev' = ev_start s ev')
     /\ (measure Ts (abs (erase s') (finished (erase s') (pl ++ [ev]))) < measure Ts (abs (erase s) (finished (erase s) pl)))%nat.
Proof.
  intros T s pl [Hg Hst Hfr Hot Hre Hpo Hun] Hne.
  destruct (iteration e P Hsh s0 T (erase s) pl Hg Hne) as (ev & Hin & Hpop & HT & Hi & Hle & sb & _ & Hk' & Hf & Hlo & Hss & Hm & St).
  pose proof (not_nary k Hk) as Nn.
  assert (Wb : wf sb) by exact (i_wf _ _ _ _ _ (k_inv _ _ _ _ _ _ Hk')).
  exists ev. split; [exact Hin|]. split; [intro pick; apply (pop_erase k Nn); apply Hpop|]. split; [exact Hi|]. split; [exact Hle|].
  assert (Wrap : forall s', erase s' = sb -> (forall o m, process_labelled k holey result o m ev (unqueue ev s) = Ok (s', true)) ->
      (static (view_of s pl) (abs sb (finished_by (erase s) ev ++ finished (erase s) pl))
       /\ (forall j, In (EL j) (queue s') -> lft s' j = strip (lft s' j))
       /\ (forall x, seen (abs sb (finished_by (erase s) ev ++ finished (erase s) pl)) x -> other_right (abs sb (finished_by (erase s) ev ++ finished (erase s) pl)) s' x)
       /\ (forall x, seen (abs sb (finished_by (erase s) ev ++ finished (erase s) pl)) x -> result_right (abs sb (finished_by (erase s) ev ++ finished (erase s) pl)) s' x)
       /\ (forall x, seen (abs sb (finished_by (erase s) ev ++ finished (erase s) pl)) x -> points_right (abs sb (finished_by (erase s) ev ++ finished (erase s) pl)) s' x)
       /\ under_right (abs sb (finished_by (erase s) ev ++ finished (erase s) pl)) s') ->
      exists s', (forall o m, process_labelled k holey result o m ev (unqueue ev s) = Ok (s', true))
     /\ labelled (time_of e (erase s) ev) s' (pl ++ [ev])
     /\ (forall ev', In ev' (pl ++ [ev]) -> left_of s' ev' = left_of s ev')
     /\ (forall ev', In ev' (pl ++ [ev]) -> ev_start s' ev' = ev_start s ev')
     /\ (measure Ts (abs (erase s') (finished (erase s') (pl ++ [ev]))) < measure Ts (abs (erase s) (finished (erase s) pl)))%nat).
  { intros s' Es' Hp (L1 & L2 & L3 & L4 & L5 & L6). exists s'. split; [exact Hp|]. rewrite <- Hf in L1, L3, L4, L5, L6. rewrite <- Es' in *.
    split; [|split; [exact Hlo|split; [|exact Hm]]].
    - constructor; [exact Hk'|exact (static_trans _ _ _ Hst L1)|exact L2|exact L3|exact L4|exact L5|exact L6].
    - intros ev' H. specialize (Hss ev' H). rewrite !start_erase in Hss. exact Hss. }
  destruct ev as [i|r].
  - destruct St as (l1 & l2 & s1 & s2 & El & Es1 & Hl1 & Hl2 & W1 & B1 & Hline & D2 & W2 & Dv2 & B2 & D3 & Dv3 & Lo & Hhi & Hmin & Cu & Cu12).
    destruct (add_spec e P Hsh k holey result rf Hk Hrf (time_of e (erase s) (EL i)) s (finished (erase s) pl) i l1 l2 s1 s2 sb)
      as (s' & Hadd & Esb & Ad); try assumption; [exact (Hfr i Hin)|].
    apply (Wrap s' Esb).
    + intros o m. cbn [process_labelled]. rewrite (contains_erase k Nn). destruct (Hline (o_shape o (2 * m))) as (K0 & _).
      change (erase (unqueue (EL i) s)) with (unqueue (EL i) (erase s)). rewrite K0, Hadd. reflexivity.
    + cbn [finished_by app].
      apply (left_labels (time_of e (erase s) (EL i)) s pl i sb) with (l1 := l1) (l2 := l2) (s1 := s1); try assumption.
      * constructor; [exact Hi|apply (k_pl _ _ _ _ _ _ Hg)|apply (k_nodup _ _ _ _ _ _ Hg)| |apply (k_sorted _ _ _ _ _ _ Hg)|apply (k_src _ _ _ _ _ _ Hg)].
        intros ev' H. pose proof (k_time _ _ _ _ _ _ Hg ev' H). qlra.
      * exact (divs_trans _ _ _ Dv2 Dv3).
  - destruct St as (l1 & l2 & s1 & El & Es1 & W1 & B1 & Hline & D2 & Dv & Cu).
    change (rgt (erase s) r) with (rgt s r) in *. set (y := r_left (rgt s r)) in *.
    set (sA := with_line (unqueue (ER r) s) (l1 ++ l2)).
    assert (EA : erase sA = s1) by (rewrite Es1; reflexivity).
    assert (Hbase : base V Ts (time_of e (erase s) (ER r)) (view_of s pl)) by exact (i_base _ _ _ _ _ Hi).
    assert (Rng : forall j, In j (l1 ++ l2) -> (j < length (lefts s))%nat).
    { intros j H. rewrite <- len_erase. apply (active_lt _ j (b_q _ _ _ _ Hbase)). unfold active. change (vs (view_of s pl)) with (line (erase s)). rewrite El.
      apply in_app_iff in H. apply in_or_app. cbn. tauto. }
    assert (Ex : exists s', match hd_error l2, last_error l1 with Some a, Some b => detect_only k b a sA | _, _ => Ok sA end = Ok s' /\ erase s' = sb
       /\ (forall j, (j < length (lefts s))%nat -> kept (lft s' j) (lft s j)) /\ (forall j, (length (lefts s) <= j)%nat -> lft s' j = strip (lft s' j))
       /\ (forall j, (j < length (lefts s))%nat -> ~ In j (l1 ++ l2) -> unchanged (lft s' j) (lft s j))
       /\ (forall j, (j < length (lefts s))%nat -> l_kind (lft s' j) = l_kind (lft s j)
            \/ exists z, In z (l1 ++ l2) /\ In j (l1 ++ l2) /\ twin (pc s j) (pc s z) /\ (k = Shaped -> l_kind (lft s' j) = pair_kind k (lft s j) (lft s z)))).
    { assert (Triv : s1 = sb -> exists s', Ok sA = Ok s' /\ erase s' = sb /\ (forall j, (j < length (lefts s))%nat -> kept (lft s' j) (lft s j))
         /\ (forall j, (length (lefts s) <= j)%nat -> lft s' j = strip (lft s' j)) /\ (forall j, (j < length (lefts s))%nat -> ~ In j (l1 ++ l2) -> unchanged (lft s' j) (lft s j))
         /\ (forall j, (j < length (lefts s))%nat -> l_kind (lft s' j) = l_kind (lft s j)
            \/ exists z, In z (l1 ++ l2) /\ In j (l1 ++ l2) /\ twin (pc s j) (pc s z) /\ (k = Shaped -> l_kind (lft s' j) = pair_kind k (lft s j) (lft s z)))).
      { intro E. exists sA. split; [reflexivity|]. split; [rewrite EA; exact E|]. split; [intros j _; apply kept_refl|].
        split; [|split; [intros j _ _; apply unchanged_refl|intros j _; left; reflexivity]].
        intros j H. rewrite (out_of_range sA j) by exact H. reflexivity. }
      destruct (hd_error l2) as [a|] eqn:Ea; [|apply Triv; congruence]. destruct (last_error l1) as [b|] eqn:Eb; [|apply Triv; congruence].
      unfold detect_only in D2 |- *. rewrite <- EA, (detect_erase k Nn) in D2. destruct (detect k b a sA) as [(s', f)|] eqn:Ed; [|discriminate D2].
      injection D2 as Es'. exists s'. split; [reflexivity|]. split; [exact Es'|].
      assert (Ia : In a (l1 ++ l2)) by (apply in_or_app; right; destruct l2; [discriminate Ea|injection Ea as <-; left; reflexivity]).
      assert (Ib : In b (l1 ++ l2)) by (apply in_or_app; left; destruct (last_error_some _ _ _ Eb) as (m & ->); apply in_or_app; right; left; reflexivity).
      assert (Nd : NoDup (l1 ++ l2)) by (pose proof (q_vs _ (b_q _ _ _ _ B1)) as K; rewrite Es1 in K; exact K).
      assert (Nab : b <> a).
      { intros ->. destruct (last_error_some _ _ _ Eb) as (m & E1). destruct l2 as [|a' l2]; [discriminate Ea|]. injection Ea as ->.
        rewrite E1, <- app_assoc in Nd. apply NoDup_remove_2 in Nd. apply Nd. apply in_or_app. right. left. reflexivity. }
      destruct (detect_marked k b a sA s' f Hk (Rng b Ib) (Rng a Ia) Nab Ed) as [M1 M2 M3 M4 M5 M8].
      split; [exact M2|]. split; [exact M3|]. split; [intros j Hj Nj; apply M4; [exact Hj| |]; intros ->; exact (Nj ltac:(assumption))|].
      intros j Hj. destruct f; [|left; exact (M8 eq_refl j Hj)].
      assert (Tw : twin (pc s b) (pc s a)).
      { pose proof (detect_erase k Nn b a sA) as De. rewrite Ed in De. rewrite EA in De.
        assert (Pe : forall x, pc s1 x = pc s x) by (intro x; rewrite <- EA, pc_erase; reflexivity). rewrite <- !Pe.
        apply (detect_flag e P Hsh (time_of e (erase s) (ER r)) s1 (y :: finished (erase s) pl) b a (erase s') true W1 B1); [rewrite Es1; exact Ib|rewrite Es1; exact Ia|exact Nab|exact De|reflexivity]. }
      destruct (M5 eq_refl) as (M6 & M7).
      destruct (Nat.eq_dec j b) as [->|Nb]; [right; exists a; split; [exact Ia|]; split; [exact Ib|]; split; [exact Tw|intro Ks; unfold ovl in M6; rewrite Ks in M6 |- *; exact M6]|].
      destruct (Nat.eq_dec j a) as [->|Na']; [right; exists b; split; [exact Ib|]; split; [exact Ia|]; split; [apply twin_sym; exact Tw|intro Ks; rewrite pair_kind_sym; unfold ovl in M7; rewrite Ks in M7 |- *; exact M7]|].
      left. apply (M4 j Hj Nb Na'). }
    destruct Ex as (s' & Hrun & Esb & Hkp & Hnw & Hfar & Hkd). apply (Wrap s' Esb).
    + intros o m. cbn [process_labelled]. change (r_left (rgt (unqueue (ER r) s) r)) with y. rewrite (contains_erase k Nn).
      destruct (Hline (o_shape o (2 * m))) as (K0 & K1 & K2 & K3). change (erase (unqueue (ER r) s)) with (unqueue (ER r) (erase s)). rewrite K0.
      unfold remove_left. rewrite (above_erase k Nn), (below_erase k Nn). change (erase (unqueue (ER r) s)) with (unqueue (ER r) (erase s)).
      rewrite K1, K2. rewrite (remove_erase k Nn _ _ _ (l1 ++ l2)); [|change (erase (unqueue (ER r) s)) with (unqueue (ER r) (erase s)); rewrite K3, Es1; reflexivity].
      fold sA. rewrite Hrun. reflexivity.
    + change (finished_by (erase s) (ER r)) with [y]. cbn [app].
      apply (right_labels (time_of e (erase s) (ER r)) s pl y sb) with (r := r) (l1 := l1) (l2 := l2) (s1 := s1); try assumption. exact (i_settled _ _ _ _ _ Hi).
Qed.

(** *** The whole loop *)
Section Stop.
Variable stop : point -> bool.

Definition by_left (out : event -> state -> list event) : Prop :=
  forall ev s s', left_of s ev = left_of s' ev -> out ev s = out ev s'.

(** Popped events with their starts. *)
Inductive popped (step : nat -> event -> state -> res (state * list event)) (o : oracle) : nat -> nat -> state -> list (event * point) -> state -> Prop :=
| popped_all : forall f n s, queue s = [] -> popped step o f n s [] s
| popped_stop : forall f n s ev s1, queue s <> [] -> pop k (o_pick o n) s = Ok (ev, s1) -> stop (ev_start s1 ev) = true -> popped step o (S f) n s [] s1
| popped_next : forall f n s ev s1 s2 l sf, queue s <> [] -> pop k (o_pick o n) s = Ok (ev, s1) -> stop (ev_start s1 ev) = false ->
    step n ev s1 = Ok (s2, [ev]) -> popped step o f (S n) s2 l sf -> popped step o (S f) n s ((ev, ev_start s1 ev) :: l) sf.
Lemma run_labelled : forall fuel T s pl, labelled T s pl -> going stop s pl ->
  (measure Ts (abs (erase s) (finished (erase s) pl)) <= fuel)%nat ->
  exists T' s' pl' sf, labelled T' s' pl' /\ going stop (erase s') pl' /\ ended e P stop (erase s') pl' (erase sf)
  /\ lefts sf = lefts s' /\ rights sf = rights s'
  /\ (forall o n out step, by_left out ->
        (forall m ev s1 s2, process_labelled k holey result o m ev s1 = Ok (s2, true) -> step m ev s1 = Ok (s2, out ev s2)) ->
        run k step stop o fuel n s (flat_map (fun ev => out ev s) pl) = Ok (sf, flat_map (fun ev => out ev sf) pl'))
  /\ exists new, pl' = pl ++ new /\ (forall ev, In ev pl -> ev_start sf ev = ev_start s ev)
     /\ forall o n step, (forall m ev s1 s2, process_labelled k holey result o m ev s1 = Ok (s2, true) -> step m ev s1 = Ok (s2, [ev])) ->
          popped step o fuel n s (map (fun ev => (ev, ev_start sf ev)) new) sf.
Proof.
  induction fuel as [|fuel IH]; intros T s pl Hk' Hg Hm.
  - assert (Hq : queue s = []).
    { unfold measure in Hm. cbn [SweepLink.abs vq] in Hm. rewrite map_length in Hm. change (queue (erase s)) with (queue s) in Hm. destruct (queue s); [reflexivity|cbn in Hm; lia]. }
    exists T, s, pl, s. split; [exact Hk'|]. split; [intros ev H; rewrite start_erase; exact (Hg ev H)|]. split; [left; split; [exact Hq|reflexivity]|]. split; [reflexivity|]. split; [reflexivity|].
    split; [intros o n out step _ _; cbn [run]; rewrite Hq; reflexivity|].
    exists []. rewrite app_nil_r. split; [reflexivity|]. split; [reflexivity|]. intros o n step _. constructor. exact Hq.
  - destruct (queue s) as [|ev0 q0] eqn:Eq.
    + exists T, s, pl, s. split; [exact Hk'|]. split; [intros ev H; rewrite start_erase; exact (Hg ev H)|]. split; [left; split; [exact Eq|reflexivity]|]. split; [reflexivity|]. split; [reflexivity|].
      split; [intros o n out step _ _; cbn [run]; rewrite Eq; reflexivity|].
      exists []. rewrite app_nil_r. split; [reflexivity|]. split; [reflexivity|]. intros o n step _. constructor. exact Eq.
    + destruct (labelled_iteration T s pl Hk') as (ev & Hin & Hpop & Hi & Hle & s' & Hpr & Hk2 & Hlo & Hst & Hm'); [rewrite Eq; discriminate|].
      destruct (stop (ev_start s ev)) eqn:Es.
      * exists T, s, pl, (unqueue ev s). split; [exact Hk'|]. split; [intros ev' H; rewrite start_erase; exact (Hg ev' H)|]. split.
        { right. exists ev. split; [exact Hin|]. split; [rewrite start_erase; exact Es|]. split; [exact Hle|]. split; [exact Hi|reflexivity]. }
        split; [reflexivity|]. split; [reflexivity|].
        assert (Es' : stop (ev_start (unqueue ev s) ev) = true) by exact Es.
        split; [intros o n out step Hout _; cbn [run]; rewrite Eq, Hpop, Es'; f_equal; f_equal; apply flat_map_ext; intro a; apply Hout; reflexivity|].
        exists []. rewrite app_nil_r. split; [reflexivity|]. split; [intros [i|r] _; reflexivity|]. intros o n step _. apply (popped_stop step o fuel n s ev); [rewrite Eq; discriminate|apply Hpop|exact Es'].
      * assert (Es' : stop (ev_start (unqueue ev s) ev) = false) by exact Es.
        destruct (IH (time_of e (erase s) ev) s' (pl ++ [ev]) Hk2) as (T' & s2 & pl2 & sf & Hk3 & Hg2 & He2 & E1 & E2 & Hr & new & En & Hs2 & Hnew).
        { intros ev' H. rewrite (Hst ev' H). rewrite in_app_iff in H. destruct H as [H|[<-|[]]]; [exact (Hg ev' H)|exact Es]. }
        { lia. }
        exists T', s2, pl2, sf. split; [exact Hk3|]. split; [exact Hg2|]. split; [exact He2|]. split; [exact E1|]. split; [exact E2|].
        split.
        { intros o n out step Hout Hstep. cbn [run]. rewrite Eq, Hpop, Es'. rewrite (Hstep n ev _ _ (Hpr o n)).
          rewrite <- (Hr o (S n) out step Hout Hstep). f_equal. rewrite flat_map_app. cbn [flat_map]. rewrite app_nil_r. f_equal.
          clear - Hout Hlo. induction pl as [|x pl IH]; [reflexivity|]. cbn [flat_map]. f_equal.
          -- apply Hout. symmetry. apply Hlo. left. reflexivity.
          -- apply IH. intros ev' H. apply Hlo. right. exact H. }
        exists (ev :: new). split; [rewrite En, <- app_assoc; reflexivity|]. split.
        { intros ev' H. rewrite Hs2 by (apply in_or_app; left; exact H). apply Hst. apply in_or_app. left. exact H. }
        intros o n step Hstep. cbn [map].
        rewrite (Hs2 ev) by (apply in_or_app; right; left; reflexivity). rewrite (Hst ev) by (apply in_or_app; right; left; reflexivity).
        change (ev_start s ev) with (ev_start (unqueue ev s) ev).
        apply (popped_next step o fuel n s ev (unqueue ev s) s'); [rewrite Eq; discriminate|apply Hpop|exact Es'|exact (Hstep n ev _ _ (Hpr o n))|]. apply Hnew. exact Hstep.
Qed.
End Stop.
End Frame.
