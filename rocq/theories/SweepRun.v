(** The sweep preserves its invariant: popping, adding, removing.
    Proof support only, no part of /repo is modelled here. *)
From Coq Require Import Permutation.
From Verif Require Import QcTac Geom Spec GeomFacts Relation PairFacts SweepGeo SweepInv SweepSteps Sweep SweepCmp SweepLink Linear.

Definition last_error {A} (l : list A) : option A := hd_error (rev l).
Lemma last_error_app : forall A (l : list A) x, last_error (l ++ [x]) = Some x.
Proof. intros. unfold last_error. rewrite rev_app_distr. reflexivity. Qed.
Lemma last_error_some : forall A (l : list A) x, last_error l = Some x -> exists m, l = m ++ [x].
Proof.
  intros A l x H. unfold last_error in H. destruct (rev l) as [|y m] eqn:E; [discriminate H|]. injection H as ->.
  exists (rev m). rewrite <- (rev_involutive l), E. reflexivity.
Qed.
Lemma last_error_none : forall A (l : list A), last_error l = None -> l = [].
Proof.
  intros A l H. unfold last_error in H. destruct (rev l) eqn:E; [|discriminate H].
  rewrite <- (rev_involutive l), E. reflexivity.
Qed.

Lemma event_eqb_spec : forall a b, reflect (a = b) (event_eqb a b).
Proof.
  intros [i|i] [j|j]; cbn; try (constructor; discriminate);
  destruct (Nat.eqb_spec i j); constructor; congruence.
Qed.
Definition unqueue (ev : event) (s : state) : state :=
  State (lefts s) (rights s) (filter (fun ev' => negb (event_eqb ev' ev)) (queue s)) (line s).
Lemma unqueue_in : forall ev s ev', In ev' (queue (unqueue ev s)) <-> In ev' (queue s) /\ ev' <> ev.
Proof.
  intros ev s ev'. cbn. rewrite filter_In. destruct (event_eqb_spec ev' ev); cbn; intuition congruence.
Qed.
Lemma filter_out : forall l ev, ~ In ev l -> filter (fun ev' => negb (event_eqb ev' ev)) l = l.
Proof.
  induction l as [|x l IH]; intros ev H; [reflexivity|]. cbn. destruct (event_eqb_spec x ev) as [->|K]; cbn.
  - exfalso. apply H. left. reflexivity.
  - rewrite IH; [reflexivity|]. intro J. apply H. right. exact J.
Qed.
Lemma unqueue_perm : forall ev s, NoDup (queue s) -> In ev (queue s) ->
  Permutation (queue s) (ev :: queue (unqueue ev s)).
Proof.
  intros ev s Hn H. cbn. apply in_split in H. destruct H as (l1 & l2 & E). rewrite E in *.
  rewrite filter_app. cbn. destruct (event_eqb_spec ev ev) as [_|K]; [|congruence]. cbn.
  pose proof (NoDup_remove_2 _ _ _ Hn) as Hni.
  rewrite !filter_out by (intro K; apply Hni; apply in_or_app; tauto).
  symmetry. apply Permutation_middle.
Qed.
Lemma unqueue_wf : forall ev s, wf s -> wf (unqueue ev s).
Proof.
  intros ev s H. constructor; [exact (w_len s H)|exact (w_lr s H)|exact (w_rl s H)|].
  intros ev' J. apply unqueue_in in J. exact (w_q s H ev' (proj1 J)).
Qed.
Lemma with_line_wf : forall l s, wf s -> wf (with_line s l).
Proof. intros l s H. constructor; [exact (w_len s H)|exact (w_lr s H)|exact (w_rl s H)|exact (w_q s H)]. Qed.

Section Frame.
Variables (e : Qc) (P : list point).
Hypothesis Hsh : Sheared e P.
Notation V := (V e P).
Notation Ts := (Ts e P).
Notation abs := (abs e).
Notation pc := (pc e).

Record inv (T : Qc) (s : state) (vo : list nat) : Prop := {
  i_wf : wf s;
  i_base : base V Ts T (abs s vo);
  i_settled : settled never (abs s vo);
  i_passing : passing V T (abs s vo);
  i_lined : lined T (abs s vo)
}.

(** ** Detection *)
Lemma detect_step : forall T s vo a b, wf s -> base V Ts T (abs s vo) -> In a (line s) -> In b (line s) -> a <> b ->
  exists s' f, detect Linear a b s = Ok (s', f) /\ wf s' /\ divs s s'
  /\ cuts V Ts T (fun i => i = a \/ i = b) (abs s vo) (abs s' vo) /\ adj (abs s' vo) a b.
Proof.
  intros T s vo a b Hw Hb Ha Hb' Hab. pose proof (b_q V Ts T _ Hb) as Hq.
  assert (Aa : active (abs s vo) a) by exact Ha. assert (Ab : active (abs s vo) b) by exact Hb'.
  pose proof (active_lt _ _ Hq Aa) as La. pose proof (active_lt _ _ Hq Ab) as Lb.
  pose proof (pending_event e s vo a Hw (active_pending _ _ Hq Aa)) as Ra.
  pose proof (pending_event e s vo b Hw (active_pending _ _ Hq Ab)) as Rb.
  destruct (detect_link e P Hsh s vo Hw (b_geo V Ts T _ Hb) (queue_nodup e s vo Hq) a b La Lb Hab Ra Rb)
    as (s' & f & Hd & Hw' & _ & Hds & Hdt).
  exists s', f. split; [exact Hd|]. split; [exact Hw'|]. split; [exact Hds|].
  destruct Hdt as [K|K].
  - exact (detect_ok V Ts T _ a b _ Hb Aa Ab Hab K).
  - destruct (detect_ok V Ts T _ b a _ Hb Ab Aa (not_eq_sym Hab) K) as (K1 & K2). split.
    + apply (cuts_weaken V Ts T (fun i => i = b \/ i = a)); [intros i; tauto|exact K1].
    + apply adj_sym. exact K2.
Qed.

(** ** Popping *)
Lemma not_tied : forall T s vo a b, wf s -> base V Ts T (abs s vo) -> in_range s a -> in_range s b -> a <> b ->
  ~ tied (pc s) (evn s a) (evn s b).
Proof.
  intros T s vo a b Hw Hb Ra Rb Hab (H1 & H2 & H3 & H4). pose proof (b_geo V Ts T _ Hb) as Hg.
  rewrite !evn_left in *. cbn [fst snd] in *.
  pose proof (left_of_range s a Hw Ra) as La. pose proof (left_of_range s b Hw Rb) as Lb.
  set (i := left_of s a) in *. set (j := left_of s b) in *.
  assert (Hij : i <> j).
  { intro K. apply Hab. apply (evn_inj s a b Hw Ra Rb). rewrite !evn_left. fold i. fold j. congruence. }
  pose proof (g_len V Ts _ Hg i La) as Gi. pose proof (g_len V Ts _ Hg j Lb) as Gj. cbn [SweepLink.abs vp] in Gi, Gj.
  assert (Hc : coll (pc s i) (pc s j)).
  { destruct (is_left a).
    - apply (ht_slopes _ _ (lo (pc s i))); [|exact H3].
      pose proof (proj1 (g_lo V Ts _ Hg i La) : ht (pc s i) (lo (pc s i)) = V (lo (pc s i))) as K1.
      pose proof (proj1 (g_lo V Ts _ Hg j Lb) : ht (pc s j) (lo (pc s j)) = V (lo (pc s j))) as K2.
      rewrite <- H2 in K2. congruence.
    - apply (ht_slopes _ _ (hi (pc s i))); [|exact H3].
      pose proof (proj1 (g_hi V Ts _ Hg i La) : ht (pc s i) (hi (pc s i)) = V (hi (pc s i))) as K1.
      pose proof (proj1 (g_hi V Ts _ Hg j Lb) : ht (pc s j) (hi (pc s j)) = V (hi (pc s j))) as K2.
      rewrite <- H2 in K2. congruence. }
  destruct (g_over V Ts _ Hg i j La Lb Hij H4 Hc) as [K|K]; cbn [SweepLink.abs vp] in K; destruct (is_left a); qlra.
Qed.
Lemma key_iff : forall T s vo a b, wf s -> base V Ts T (abs s vo) -> in_range s a -> in_range s b -> a <> b ->
  (binary_key_ltb s a b = true <-> kless (pc s) (evn s a) (evn s b)).
Proof.
  intros T s vo a b Hw Hb Ra Rb Hab. pose proof (b_geo V Ts T _ Hb) as Hg.
  apply (key_ltb_kless e P s a b Hsh Hw Ra Rb).
  - exact (g_len V Ts _ Hg _ (left_of_range s a Hw Ra)).
  - exact (g_len V Ts _ Hg _ (left_of_range s b Hw Rb)).
  - exact (st_ev_start e P Hsh s vo Hw Hg a Ra).
  - exact (st_ev_start e P Hsh s vo Hw Hg b Rb).
  - exact (not_tied T s vo a b Hw Hb Ra Rb Hab).
Qed.

Lemma pop_least : forall T s vo, wf s -> base V Ts T (abs s vo) -> queue s <> [] ->
  exists ev, In ev (queue s) /\ (forall ev', In ev' (queue s) -> ev' = ev \/ kless (pc s) (evn s ev) (evn s ev'))
  /\ forall pick, pop Linear pick s = Ok (ev, unqueue ev s).
Proof.
  intros T s vo Hw Hb Hne.
  destruct (least_exists event (fun a b => kless (pc s) (evn s a) (evn s b)) (fun ev => In ev (queue s))) with (l := queue s)
    as (ev & Hin & Hmin).
  - intros a b Ha Hb'. destruct (event_eqb_spec a b) as [->|K]; [right; left; reflexivity|].
    destruct (kless_total (pc s) (evn s a) (evn s b)) as [J|[J|J]]; [left; exact J|right; right; exact J|].
    exfalso. exact (not_tied T s vo a b Hw Hb (w_q s Hw a Ha) (w_q s Hw b Hb') K J).
  - intros a b c. apply kless_trans.
  - exact Hne.
  - apply Forall_forall. tauto.
  - exists ev. split; [exact Hin|]. split; [exact Hmin|]. intro pick. unfold pop. cbn [key_ltb].
    assert (Hl : forall x, In x (least (binary_key_ltb s) (queue s)) <-> x = ev).
    { intro x. unfold least. rewrite filter_In, forallb_forall. split.
      - intros (Hx & Hf). destruct (Hmin x Hx) as [K|K]; [exact K|]. destruct (event_eqb_spec x ev) as [J|J]; [exact J|].
        specialize (Hf ev Hin). apply orb_true_iff in Hf. destruct Hf as [Hf|Hf].
        + destruct (event_eqb_spec ev x); [congruence|discriminate Hf].
        + apply (key_iff T s vo ev x Hw Hb (w_q s Hw _ Hin) (w_q s Hw _ Hx) (not_eq_sym J)) in K. rewrite K in Hf. discriminate Hf.
      - intros ->. split; [exact Hin|]. intros y Hy. destruct (event_eqb_spec y ev) as [J|J]; [reflexivity|]. cbn.
        destruct (binary_key_ltb s y ev) eqn:E; [|reflexivity]. exfalso.
        apply (key_iff T s vo y ev Hw Hb (w_q s Hw _ Hy) (w_q s Hw _ Hin) J) in E.
        destruct (Hmin y Hy) as [K|K]; [congruence|]. exact (kless_irrefl _ _ (kless_trans _ _ _ _ E K)). }
    destruct (least (binary_key_ltb s) (queue s)) as [|e0 l] eqn:El.
    + exfalso. exact (proj2 (Hl ev) eq_refl).
    + assert (En : nth (pick (e0 :: l) mod length (e0 :: l)) (e0 :: l) e0 = ev).
      { apply Hl. apply nth_In. apply Nat.mod_upper_bound. cbn. lia. }
      rewrite En. reflexivity.
Qed.

(** ** The sweep line *)
Lemma below_not_same : forall x y, below x y -> ~ (coll x y /\ op x = op y).
Proof.
  intros x y H (Hc & Ho). pose proof (coll_ht x y (Qc_max (lo x) (lo y)) Hc) as E. destruct Hc as (Hs & _).
  destruct H as [H|(_ & [H|(_ & H & H')])]; [qlra|qlra|congruence].
Qed.
Lemma ltb_of_below : forall T s i j, i <> j -> lo (pc s i) < hi (pc s i) -> lo (pc s j) < hi (pc s j) ->
  has (pc s i) T -> has (pc s j) T -> below (pc s i) (pc s j) ->
  binary_line_ltb s i j = true /\ binary_line_ltb s j i = false.
Proof.
  intros T s i j Hij Li Lj (A1 & A2) (B1 & B2) Hb.
  assert (H1 : lo (pc s i) <= hi (pc s j)) by qlra. assert (H2 : lo (pc s j) <= hi (pc s i)) by qlra.
  pose proof (below_not_same _ _ Hb) as Hn.
  split; [apply (binary_line_ltb_below e s i j Hij Li Lj H1 H2 Hn); exact Hb|].
  destruct (binary_line_ltb s j i) eqn:E; [|reflexivity]. exfalso.
  apply (binary_line_ltb_below e s j i (not_eq_sym Hij) Lj Li H2 H1) in E.
  - exact (below_asym _ _ Hb E).
  - intros (K1 & K2). apply Hn. split; [exact (coll_sym _ _ K1)|congruence].
Qed.

Definition on_line (T : Qc) (s : state) : Prop :=
  (forall i, In i (line s) -> lo (pc s i) < hi (pc s i) /\ has (pc s i) T)
  /\ ForallOrdPairs (fun i j => below (pc s i) (pc s j)) (line s) /\ NoDup (line s).
Lemma base_on_line : forall T s vo, base V Ts T (abs s vo) -> on_line T s.
Proof.
  intros T s vo Hb. pose proof (b_q V Ts T _ Hb) as Hq. split; [|split; [exact (b_ord V Ts T _ Hb)|exact (q_vs _ Hq)]].
  intros i Hi. split; [exact (g_len V Ts _ (b_geo V Ts T _ Hb) i (active_lt _ _ Hq Hi))|exact (b_act V Ts T _ Hb i Hi)].
Qed.

Lemma search_present : forall T s l1 x l2, on_line T s -> line s = l1 ++ x :: l2 ->
  forall shape, search Linear shape s x = (true, length l1).
Proof.
  intros T s l1 x l2 (H1 & H2 & H3) E shape. unfold search. rewrite E. cbn [line_ltb].
  assert (Ix : In x (line s)) by (rewrite E; apply in_or_app; right; left; reflexivity).
  apply (locate_present _ _ x _ _ l1 l2); [reflexivity|lia|apply binary_line_ltb_irrefl| |].
  - intros y Hy. assert (Iy : In y (line s)) by (rewrite E; apply in_or_app; left; exact Hy).
    assert (Hn : y <> x).
    { intros ->. rewrite E in H3. apply (NoDup_remove_2 _ _ _ H3). apply in_or_app. left. exact Hy. }
    destruct (ltb_of_below T s y x Hn) as (K1 & K2); try (apply H1; assumption).
    + rewrite E in H2. exact (FOP_prev _ _ _ _ _ _ H2 Hy).
    + split; assumption.
  - intros y Hy. assert (Iy : In y (line s)) by (rewrite E; apply in_or_app; right; right; exact Hy).
    assert (Hn : x <> y).
    { intros ->. rewrite E in H3. apply (NoDup_remove_2 _ _ _ H3). apply in_or_app. right. exact Hy. }
    destruct (ltb_of_below T s x y Hn) as (K1 & K2); try (apply H1; assumption).
    + rewrite E in H2. exact (FOP_next _ _ _ _ _ _ H2 Hy).
    + exact K1.
Qed.
Lemma search_absent : forall T s l1 x l2, on_line T s -> line s = l1 ++ l2 -> ~ In x (line s) ->
  lo (pc s x) < hi (pc s x) -> has (pc s x) T ->
  (forall i, In i l1 -> below (pc s i) (pc s x)) -> (forall i, In i l2 -> below (pc s x) (pc s i)) ->
  forall shape, search Linear shape s x = (false, length l1).
Proof.
  intros T s l1 x l2 (H1 & H2 & H3) E Hx Lx Tx Hb1 Hb2 shape. unfold search. rewrite E. cbn [line_ltb].
  apply (locate_absent _ _ x _ _ l1 l2); [reflexivity|lia| |].
  - intros y Hy. assert (Iy : In y (line s)) by (rewrite E; apply in_or_app; left; exact Hy).
    assert (Hn : y <> x) by congruence.
    destruct (ltb_of_below T s y x Hn (proj1 (H1 y Iy)) Lx (proj2 (H1 y Iy)) Tx (Hb1 y Hy)) as (K1 & K2).
    split; assumption.
  - intros y Hy. assert (Iy : In y (line s)) by (rewrite E; apply in_or_app; right; exact Hy).
    assert (Hn : x <> y) by congruence.
    destruct (ltb_of_below T s x y Hn Lx (proj1 (H1 y Iy)) Tx (proj2 (H1 y Iy)) (Hb2 y Hy)) as (K1 & K2).
    exact K1.
Qed.
Lemma neighbours : forall T s l1 x l2, on_line T s -> line s = l1 ++ x :: l2 -> forall shape,
  line_contains Linear shape s x = true /\ line_above Linear shape s x = hd_error l2
  /\ line_below Linear shape s x = last_error l1
  /\ line_remove Linear shape x s = Ok (with_line s (l1 ++ l2)).
Proof.
  intros T s l1 x l2 H E shape. unfold line_contains, line_above, line_below, line_remove.
  rewrite (search_present T s l1 x l2 H E shape). cbn [fst]. split; [reflexivity|].
  rewrite E. split; [|split].
  - rewrite nth_error_app2 by lia. replace (S (length l1) - length l1)%nat with 1%nat by lia. cbn. destruct l2; reflexivity.
  - destruct (rev l1) as [|y r] eqn:Er.
    + assert (l1 = []) by (rewrite <- (rev_involutive l1), Er; reflexivity). subst l1. reflexivity.
    + assert (E1 : l1 = rev r ++ [y]) by (rewrite <- (rev_involutive l1), Er; reflexivity). rewrite E1.
      rewrite last_error_app, app_length. cbn [length]. replace (length (rev r) + 1)%nat with (S (length (rev r))) by lia.
      rewrite <- app_assoc, nth_error_app2, Nat.sub_diag by lia. reflexivity.
  - rewrite firstn_app, firstn_all, Nat.sub_diag, app_nil_r.
    rewrite skipn_app, skipn_all2 by lia. replace (S (length l1) - length l1)%nat with 1%nat by lia. reflexivity.
Qed.
Lemma adding : forall T s l1 x l2, on_line T s -> line s = l1 ++ l2 -> ~ In x (line s) ->
  lo (pc s x) < hi (pc s x) -> has (pc s x) T ->
  (forall i, In i l1 -> below (pc s i) (pc s x)) -> (forall i, In i l2 -> below (pc s x) (pc s i)) ->
  forall shape, line_contains Linear shape s x = false /\ line_add Linear shape x s = with_line s (l1 ++ x :: l2).
Proof.
  intros T s l1 x l2 H E Hx Lx Tx Hb1 Hb2 shape. unfold line_contains, line_add.
  rewrite (search_absent T s l1 x l2 H E Hx Lx Tx Hb1 Hb2 shape). split; [reflexivity|].
  rewrite E, firstn_app, firstn_all, Nat.sub_diag, app_nil_r.
  rewrite skipn_app, skipn_all, Nat.sub_diag. reflexivity.
Qed.

Lemma split_monotone : forall (f : nat -> bool) l,
  (forall l1 a l2 b l3, l = l1 ++ a :: l2 ++ b :: l3 -> f b = true -> f a = true) ->
  exists l1 l2, l = l1 ++ l2 /\ (forall a, In a l1 -> f a = true) /\ (forall a, In a l2 -> f a = false).
Proof.
  intros f l. induction l as [|x l IH]; intros H.
  - exists [], []. split; [reflexivity|]. split; intros a [].
  - destruct (f x) eqn:E.
    + destruct IH as (l1 & l2 & E' & H1 & H2).
      * intros m1 a m2 b m3 Em. apply (H (x :: m1) a m2 b m3). rewrite Em. reflexivity.
      * exists (x :: l1), l2. split; [rewrite E'; reflexivity|]. split; [intros a [<-|Ha]; [exact E|apply H1; exact Ha]|exact H2].
    + exists [], (x :: l). split; [reflexivity|]. split; [intros a []|].
      intros a [<-|Ha]; [exact E|]. destruct (f a) eqn:Ea; [|reflexivity].
      apply in_split in Ha. destruct Ha as (m1 & m2 & ->).
      rewrite (H [] x m1 a m2 eq_refl Ea) in E. discriminate E.
Qed.

(** ** Events *)
Lemma unqueue_view : forall s vo ev, NoDup (queue s) -> In ev (queue s) ->
  Permutation (vq (abs s vo)) (evn s ev :: map (evn s) (queue (unqueue ev s))).
Proof.
  intros s vo ev Hn Hin. cbn [SweepLink.abs vq]. change (evn s ev :: map (evn s) (queue (unqueue ev s)))
    with (map (evn s) (ev :: queue (unqueue ev s))).
  apply Permutation_map. apply unqueue_perm; assumption.
Qed.

Lemma divs_line : forall s s', divs s s' -> line s' = line s.
Proof. intros s s' H. induction H; [reflexivity|]. rewrite IHdivs. reflexivity. Qed.

Lemma cuts_settled : forall T X E s s' vo, cuts V Ts T X (abs s vo) (abs s' vo) -> base V Ts T (abs s vo) ->
  settled E (abs s vo) -> settled E (abs s' vo).
Proof.
  intros T X E s s' vo Hc Hb Hs l1 a b l2 El.
  assert (El' : vs (abs s vo) = l1 ++ a :: b :: l2) by (rewrite <- (proj1 (cuts_vs V Ts T X _ _ Hc)); exact El).
  destruct (Hs l1 a b l2 El') as [K|K]; [left; exact K|right].
  assert (Aa : active (abs s vo) a) by (unfold active; rewrite El'; apply in_or_app; right; left; reflexivity).
  assert (Ab : active (abs s vo) b) by (unfold active; rewrite El'; apply in_or_app; right; right; left; reflexivity).
  apply (cuts_adj V Ts T X _ _ a b Hc Hb Aa Ab); [|exact K].
  pose proof (q_vs _ (b_q V Ts T _ Hb)) as Hn. rewrite El' in Hn. intros ->.
  apply (NoDup_remove_2 _ _ _ Hn). apply in_or_app. right. left. reflexivity.
Qed.

Lemma split_unique : forall (u1 u2 w1 w2 : list nat) x, u1 ++ x :: u2 = w1 ++ x :: w2 -> ~ In x (u1 ++ u2) ->
  u1 = w1 /\ u2 = w2.
Proof.
  induction u1 as [|y u1 IH]; intros u2 [|z w1] w2 x Ex Hx; cbn in Ex.
  - injection Ex as ->. split; reflexivity.
  - injection Ex as -> ->. exfalso. apply Hx. cbn. apply in_or_app. right. left. reflexivity.
  - injection Ex as -> _. exfalso. apply Hx. left. reflexivity.
  - injection Ex as -> Ex. destruct (IH u2 w1 w2 x Ex) as (-> & ->); [intro J; apply Hx; right; exact J|]. split; reflexivity.
Qed.

Lemma step_left : forall T s vo i, inv T s vo -> In (EL i) (queue s) -> lo (pc s i) = T ->
  (forall j, In j (line s) -> T < hi (pc s j)) ->
  exists l1 l2 s1 s2 s3, line s = l1 ++ l2 /\ s1 = with_line (unqueue (EL i) s) (l1 ++ i :: l2)
  /\ (forall j, In j l1 -> below (pc s j) (pc s i)) /\ (forall j, In j l2 -> below (pc s i) (pc s j))
  /\ wf s1 /\ base V Ts T (abs s1 vo)
  /\ (forall shape, line_contains Linear shape (unqueue (EL i) s) i = false
        /\ line_add Linear shape i (unqueue (EL i) s) = s1
        /\ line_above Linear shape s1 i = hd_error l2 /\ line_below Linear shape s1 i = last_error l1)
  /\ detect_above Linear i (hd_error l2) s1 = Ok s2 /\ wf s2 /\ divs s1 s2 /\ base V Ts T (abs s2 vo)
  /\ detect_below Linear i (last_error l1) s2 = Ok s3 /\ divs s2 s3 /\ inv T s3 vo
  /\ cuts V Ts T (fun _ => True) (abs s1 vo) (abs s3 vo) /\ cuts V Ts T (fun _ => True) (abs s1 vo) (abs s2 vo).
Proof.
  intros T s vo i [Hw Hb Hs Hp Hl] Hin Hlo Hhi.
  pose proof (b_q V Ts T _ Hb) as Hq. pose proof (b_geo V Ts T _ Hb) as Hg.
  assert (Fi : future (abs s vo) i) by (apply future_event; exact Hin).
  assert (Ii : (i < length (lefts s))%nat) by exact (future_lt _ _ Hq Fi).
  assert (Nl : ~ In i (line s)) by (intro K; exact (active_not_future _ _ Hq K Fi)).
  pose proof (g_len V Ts _ Hg i Ii : lo (pc s i) < hi (pc s i)) as Li.
  assert (Ti : has (pc s i) T) by (split; qlra).
  pose proof (base_on_line T s vo Hb) as Ho.
  assert (Htot : forall j, In j (line s) -> below (pc s j) (pc s i) \/ below (pc s i) (pc s j))
    by (exact (ins_total V Ts T _ i Hb Fi Hlo Hhi)).
  assert (Hlt : forall j, In j (line s) -> (binary_line_ltb s j i = true <-> below (pc s j) (pc s i))).
  { intros j Hj. assert (Hn : j <> i) by congruence.
    destruct (Htot j Hj) as [K|K].
    - destruct (ltb_of_below T s j i Hn (proj1 (proj1 Ho j Hj)) Li (proj2 (proj1 Ho j Hj)) Ti K) as (J1 & _). tauto.
    - destruct (ltb_of_below T s i j (not_eq_sym Hn) Li (proj1 (proj1 Ho j Hj)) Ti (proj2 (proj1 Ho j Hj)) K) as (_ & J2).
      rewrite J2. split; [discriminate|]. intro J. exfalso. exact (below_asym _ _ K J). }
  destruct (split_monotone (fun j => binary_line_ltb s j i) (line s)) as (l1 & l2 & El & Hl1 & Hl2).
  { intros m1 a m2 b m3 Em Hbi. assert (Ia : In a (line s)) by (rewrite Em; apply in_or_app; right; left; reflexivity).
    assert (Ib : In b (line s)) by (rewrite Em; apply in_or_app; right; right; apply in_or_app; right; left; reflexivity).
    apply (Hlt a Ia). apply (ins_mono V Ts T _ i Hb Hs Fi Hlo Hhi m1 a m2 b m3 Em). apply (Hlt b Ib). exact Hbi. }
  assert (B1 : forall j, In j l1 -> below (pc s j) (pc s i)).
  { intros j Hj. apply Hlt; [rewrite El; apply in_or_app; left; exact Hj|apply Hl1; exact Hj]. }
  assert (B2 : forall j, In j l2 -> below (pc s i) (pc s j)).
  { intros j Hj. assert (Ij : In j (line s)) by (rewrite El; apply in_or_app; right; exact Hj).
    destruct (Htot j Ij) as [K|K]; [|exact K]. apply (Hlt j Ij) in K. rewrite (Hl2 j Hj) in K. discriminate K. }
  set (s1 := with_line (unqueue (EL i) s) (l1 ++ i :: l2)).
  assert (W1 : wf s1) by (apply with_line_wf, unqueue_wf; exact Hw).
  assert (Pl : popped_left (abs s vo) i l1 l2 (abs s1 vo)).
  { exists (map (evn s) (queue (unqueue (EL i) s))). split; [exact (unqueue_view s vo (EL i) (queue_nodup e s vo Hq) Hin)|].
    split; [exact El|]. split; [exact B1|]. split; [exact B2|]. reflexivity. }
  destruct (popL_base V Ts T _ i l1 l2 _ Hb Hs Hlo Hhi Pl) as (Hb1 & Hs1).
  pose proof (base_on_line T s1 vo Hb1) as Ho1.
  assert (Nd : NoDup (l1 ++ i :: l2)) by exact (q_vs _ (b_q V Ts T _ Hb1)).
  assert (D2 : exists s2, detect_above Linear i (hd_error l2) s1 = Ok s2 /\ wf s2 /\ divs s1 s2
     /\ cuts V Ts T (fun _ => True) (abs s1 vo) (abs s2 vo)
     /\ (forall b m, l2 = b :: m -> adj (abs s2 vo) i b)).
  { destruct l2 as [|b m].
    - exists s1. split; [reflexivity|]. split; [exact W1|]. split; [apply divs_refl|]. split; [apply cuts_refl|]. discriminate.
    - destruct (detect_step T s1 vo i b W1 Hb1) as (s2 & f & E2 & W2 & Dv & Cu & Ad).
      + cbn. apply in_or_app. right. left. reflexivity.
      + cbn. apply in_or_app. right. right. left. reflexivity.
      + intros ->. apply (NoDup_remove_2 _ _ _ Nd). apply in_or_app. right. left. reflexivity.
      + exists s2. cbn [hd_error detect_above]. unfold detect_only. rewrite E2. split; [reflexivity|]. split; [exact W2|].
        split; [exact Dv|]. split; [apply (cuts_weaken V Ts T (fun k => k = i \/ k = b)); [tauto|exact Cu]|].
        intros b' m' K. injection K as <- <-. exact Ad. }
  destruct D2 as (s2 & E2 & W2 & Dv2 & Cu2 & Ad2).
  pose proof (cuts_base V Ts T _ _ _ Cu2 Hb1) as Hb2.
  assert (L2 : line s2 = l1 ++ i :: l2) by (rewrite (divs_line _ _ Dv2); reflexivity).
  assert (D3 : exists s3, detect_below Linear i (last_error l1) s2 = Ok s3 /\ wf s3 /\ divs s2 s3
     /\ cuts V Ts T (fun _ => True) (abs s2 vo) (abs s3 vo)
     /\ (forall m b, l1 = m ++ [b] -> adj (abs s3 vo) b i)).
  { destruct (last_error l1) as [b|] eqn:Eb.
    - destruct (last_error_some _ _ _ Eb) as (m & Em). subst l1.
      destruct (detect_step T s2 vo b i W2 Hb2) as (s3 & f & E3 & W3 & Dv & Cu & Ad).
      + rewrite L2. apply in_or_app. left. apply in_or_app. right. left. reflexivity.
      + rewrite L2. apply in_or_app. right. left. reflexivity.
      + intros ->. apply (NoDup_remove_2 _ _ _ Nd). apply in_or_app. left. apply in_or_app. right. left. reflexivity.
      + exists s3. cbn [detect_below]. unfold detect_only. rewrite E3. split; [reflexivity|]. split; [exact W3|].
        split; [exact Dv|]. split; [apply (cuts_weaken V Ts T (fun k => k = b \/ k = i)); [tauto|exact Cu]|].
        intros m' b' K. apply app_inj_tail in K. destruct K as (_ & <-). exact Ad.
    - apply last_error_none in Eb. subst l1.
      exists s2. split; [reflexivity|]. split; [exact W2|]. split; [apply divs_refl|]. split; [apply cuts_refl|].
      intros m b K. destruct m; discriminate K. }
  destruct D3 as (s3 & E3 & W3 & Dv3 & Cu3 & Ad3).
  pose proof (cuts_base V Ts T _ _ _ Cu3 Hb2) as Hb3.
  assert (Cu : cuts V Ts T (fun _ => True) (abs s1 vo) (abs s3 vo)) by exact (cuts_trans V Ts T _ _ _ _ Cu2 Cu3).
  assert (Hs3 : settled never (abs s3 vo)).
  { intros m1 a b m2 Em. right.
    pose proof (cuts_settled T _ _ s1 s3 vo Cu Hb1 Hs1 m1 a b m2 Em) as [K|K]; [|exact K].
    assert (Em' : m1 ++ a :: b :: m2 = l1 ++ i :: l2).
    { transitivity (line s3); [symmetry; exact Em|]. rewrite (divs_line _ _ Dv3). exact L2. }
    rewrite <- Em' in Nd.
    destruct K as [-> | ->].
    - assert (m1 = l1 /\ b :: m2 = l2) as (-> & <-).
      { apply NoDup_remove in Nd. destruct Nd as (_ & Nd).
        exact (split_unique _ _ _ _ _ Em' Nd). }
      apply (cuts_adj V Ts T _ _ _ i b Cu3 Hb2); [| |intros ->; apply (NoDup_remove_2 _ _ _ Nd); apply in_or_app; right; left; reflexivity|].
      + unfold active. cbn. rewrite L2. apply in_or_app. right. left. reflexivity.
      + unfold active. cbn. rewrite L2. apply in_or_app. right. right. left. reflexivity.
      + exact (Ad2 b m2 eq_refl).
    - assert (m1 ++ [a] = l1 /\ m2 = l2) as (E1 & ->).
      { assert (Em2 : (m1 ++ [a]) ++ i :: m2 = l1 ++ i :: l2) by (rewrite <- app_assoc; exact Em').
        assert (Nd2 : NoDup ((m1 ++ [a]) ++ i :: m2)) by (rewrite <- app_assoc; exact Nd).
        apply NoDup_remove in Nd2. destruct Nd2 as (_ & Nd2).
        exact (split_unique _ _ _ _ _ Em2 Nd2). }
      exact (Ad3 m1 a (eq_sym E1)). }
  destruct (popL_after V Ts T _ i l1 l2 _ _ Hb Hs Hl Hlo Hhi Pl Cu Hs3) as (Hp3 & Hl3).
  exists l1, l2, s1, s2, s3. split; [exact El|]. split; [reflexivity|]. split; [exact B1|]. split; [exact B2|].
  split; [exact W1|]. split; [exact Hb1|]. split.
  { intro shape. destruct (adding T (unqueue (EL i) s) l1 i l2 Ho El Nl Li Ti B1 B2 shape) as (A1 & A2).
    destruct (neighbours T s1 l1 i l2 Ho1 eq_refl shape) as (_ & A3 & A4 & _).
    split; [exact A1|]. split; [exact A2|]. split; [exact A3|exact A4]. }
  split; [exact E2|]. split; [exact W2|]. split; [exact Dv2|]. split; [exact Hb2|]. split; [exact E3|]. split; [exact Dv3|].
  split; [|split; [exact Cu|exact Cu2]]. constructor; assumption.
Qed.

Lemma step_right : forall T s vo r, inv T s vo -> In (ER r) (queue s) -> hi (pc s (r_left (rgt s r))) = T ->
  (forall ev, In ev (queue s) -> ev = ER r \/ kless (pc s) (evn s (ER r)) (evn s ev)) ->
  let y := r_left (rgt s r) in
  exists l1 l2 s1 s2, line s = l1 ++ y :: l2 /\ s1 = with_line (unqueue (ER r) s) (l1 ++ l2)
  /\ wf s1 /\ base V Ts T (abs s1 (y :: vo))
  /\ (forall shape, line_contains Linear shape (unqueue (ER r) s) y = true
        /\ line_above Linear shape (unqueue (ER r) s) y = hd_error l2
        /\ line_below Linear shape (unqueue (ER r) s) y = last_error l1
        /\ line_remove Linear shape y (unqueue (ER r) s) = Ok s1)
  /\ match hd_error l2, last_error l1 with
     | Some a, Some b => detect_only Linear b a s1
     | _, _ => Ok s1
     end = Ok s2
  /\ divs s1 s2 /\ inv T s2 (y :: vo) /\ cuts V Ts T (fun _ => True) (abs s1 (y :: vo)) (abs s2 (y :: vo)).
Proof.
  intros T s vo r [Hw Hb Hs Hp Hl] Hin Hhi Hmin y. fold y in Hhi.
  pose proof (b_q V Ts T _ Hb) as Hq. pose proof (b_geo V Ts T _ Hb) as Hg.
  assert (Py : pending (abs s vo) y) by (apply event_pending; exact Hin).
  pose proof (popR_active V Ts T _ y Hb Py Hhi) as Ay.
  destruct (in_split _ _ Ay) as (l1 & l2 & El). cbn [SweepLink.abs vs] in El.
  pose proof (base_on_line T s vo Hb) as Ho.
  set (s1 := with_line (unqueue (ER r) s) (l1 ++ l2)).
  assert (W1 : wf s1) by (apply with_line_wf, unqueue_wf; exact Hw).
  assert (Pr : popped_right (abs s vo) y l1 l2 (abs s1 (y :: vo))).
  { exists (map (evn s) (queue (unqueue (ER r) s))). split; [exact (unqueue_view s vo (ER r) (queue_nodup e s vo Hq) Hin)|].
    split; [exact El|]. reflexivity. }
  destruct (popR_base V Ts T _ y l1 l2 _ Hb Hs Hl Hhi Pr) as (Hb1 & Hs1).
  assert (Nd : NoDup (l1 ++ l2)) by exact (q_vs _ (b_q V Ts T _ Hb1)).
  assert (D2 : exists s2, match hd_error l2, last_error l1 with
                          | Some a, Some b => detect_only Linear b a s1
                          | _, _ => Ok s1
                          end = Ok s2 /\ wf s2 /\ divs s1 s2
     /\ cuts V Ts T (fun i => exists m1 m2 a b, l1 = m1 ++ [a] /\ l2 = b :: m2 /\ (i = a \/ i = b))
          (abs s1 (y :: vo)) (abs s2 (y :: vo))
     /\ (forall m1 m2 a b, l1 = m1 ++ [a] -> l2 = b :: m2 -> adj (abs s2 (y :: vo)) a b)).
  { assert (Hskip : (l1 = [] \/ l2 = []) -> exists s2, Ok s1 = Ok s2 /\ wf s2 /\ divs s1 s2
     /\ cuts V Ts T (fun i => exists m1 m2 a b, l1 = m1 ++ [a] /\ l2 = b :: m2 /\ (i = a \/ i = b))
          (abs s1 (y :: vo)) (abs s2 (y :: vo))
     /\ (forall m1 m2 a b, l1 = m1 ++ [a] -> l2 = b :: m2 -> adj (abs s2 (y :: vo)) a b)).
    { intro H. exists s1. split; [reflexivity|]. split; [exact W1|]. split; [apply divs_refl|]. split; [apply cuts_refl|].
      intros m1 m2 a b K J. destruct H as [H|H]; [rewrite H in K; destruct m1; discriminate K|congruence]. }
    destruct l2 as [|b m2]; cbn [hd_error]; [apply Hskip; right; reflexivity|].
    destruct (last_error l1) as [a|] eqn:Ea; [|apply Hskip; left; apply last_error_none; exact Ea].
    destruct (last_error_some _ _ _ Ea) as (m1 & Em). subst l1.
    destruct (detect_step T s1 (y :: vo) a b W1 Hb1) as (s2 & f & E2 & W2 & Dv & Cu & Ad).
    - cbn. apply in_or_app. left. apply in_or_app. right. left. reflexivity.
    - cbn. apply in_or_app. right. left. reflexivity.
    - intros ->. apply (NoDup_remove_2 _ _ _ Nd). apply in_or_app. left. apply in_or_app. right. left. reflexivity.
    - exists s2. unfold detect_only. rewrite E2. split; [reflexivity|]. split; [exact W2|]. split; [exact Dv|]. split.
      + apply (cuts_weaken V Ts T (fun k => k = a \/ k = b)); [|exact Cu].
        intros k Hk. exists m1, m2, a, b. split; [reflexivity|]. split; [reflexivity|exact Hk].
      + intros m1' m2' a' b' K J. apply app_inj_tail in K. destruct K as (_ & <-). injection J as <- _. exact Ad. }
  destruct D2 as (s2 & E2 & W2 & Dv & Cu & Ad).
  pose proof (cuts_base V Ts T _ _ _ Cu Hb1) as Hb2.
  assert (Hs2 : settled never (abs s2 (y :: vo))).
  { intros m1 a b m2 Em. right.
    destruct (cuts_settled T _ _ s1 s2 (y :: vo) Cu Hb1 Hs1 m1 a b m2 Em) as [(k1 & k2 & K1 & K2)|K]; [|exact K].
    exact (Ad k1 k2 a b K1 K2). }
  assert (Hkey : forall z, pending (abs s vo) z -> hi (vp (abs s vo) z) = T -> z <> y ->
     sl (vp (abs s vo) z) < sl (vp (abs s vo) y)
     \/ (sl (vp (abs s vo) z) = sl (vp (abs s vo) y) /\ op (vp (abs s vo) y) = false /\ op (vp (abs s vo) z) = true)).
  { intros z Pz Hz Hzy. pose proof (pending_event e s vo z Hw Pz) as Rz.
    assert (Lz : (z < length (lefts s))%nat) by exact (q_bound _ Hq false z Pz).
    pose proof (w_lr s Hw z Lz) as (_ & Ez).
    destruct (Hmin _ Rz) as [K|K].
    - exfalso. apply Hzy. unfold y. injection K as <-. symmetry. exact Ez.
    - cbn [evn] in K. rewrite Ez in K. fold y in K. unfold kless in K. cbn [fst snd] in K. cbn [SweepLink.abs vp] in *.
      destruct K as [K|(_ & [(_ & K)|(_ & [K|(K & K1 & K2)])])].
      + rewrite Hhi, Hz in K. qlra.
      + discriminate K.
      + left. exact K.
      + right. split; [symmetry; exact K|]. split; assumption. }
  destruct (popR_after V Ts T _ y l1 l2 _ _ Hb Hs Hp Hl Hhi Hkey Pr Cu Hs2) as (Hp2 & Hl2).
  exists l1, l2, s1, s2. split; [exact El|]. split; [reflexivity|]. split; [exact W1|]. split; [exact Hb1|]. split.
  { intro shape. exact (neighbours T (unqueue (ER r) s) l1 y l2 Ho El shape). }
  split; [exact E2|]. split; [exact Dv|]. split; [constructor; assumption|].
  apply (cuts_weaken V Ts T (fun i => exists m1 m2 a b, l1 = m1 ++ [a] /\ l2 = b :: m2 /\ (i = a \/ i = b))); [tauto|exact Cu].
Qed.

(** ** The next event *)
Definition time_of (s : state) (ev : event) : Qc := ev_time (abs s []) (evn s ev).
Lemma inv_forward : forall T T' s vo, inv T s vo -> T <= T' -> (forall ev, In ev (queue s) -> T' <= time_of s ev) ->
  inv T' s vo.
Proof.
  intros T T' s vo [Hw Hb Hs Hp Hl] HT H.
  destruct (Qcle_lt_or_eq _ _ HT) as [K|K]; [|subst T'; constructor; assumption].
  destruct (advance V Ts T T' _ Hb Hs Hp K) as (B & Pa & Li).
  - intros ev Hev. cbn in Hev. apply in_map_iff in Hev. destruct Hev as (ev' & <- & Hev). exact (H ev' Hev).
  - constructor; assumption.
Qed.
Lemma time_after : forall T s vo ev, inv T s vo -> In ev (queue s) -> T <= time_of s ev.
Proof.
  intros T s vo ev [Hw Hb _ _ _] Hin. pose proof (b_q V Ts T _ Hb) as Hq. pose proof (b_geo V Ts T _ Hb) as Hg.
  destruct ev as [i|r]; unfold time_of; cbn [evn ev_time fst snd].
  - apply (b_fut V Ts T _ Hb). apply future_event. exact Hin.
  - pose proof (event_pending e s vo r Hin) as Py. set (y := r_left (rgt s r)) in *.
    destruct (in_dec Nat.eq_dec y (line s)) as [A|A].
    + apply (b_act V Ts T _ Hb y A).
    + assert (F : future (abs s vo) y).
      { destruct (in_dec (fun a b => match event_eqb_spec a b with ReflectT _ H => left H | ReflectF _ H => right H end)
                    (EL y) (queue s)) as [K|K]; [apply future_event; exact K|].
        exfalso. apply A. apply (q_act _ Hq). split; [exact Py|]. intro J. apply K. apply (future_event e s vo). exact J. }
      pose proof (b_fut V Ts T _ Hb y F) as K1.
      pose proof (g_len V Ts _ Hg y (future_lt _ _ Hq F)) as K2. cbn [SweepLink.abs vp] in *. qlra.
Qed.
Lemma next_event : forall T s vo, inv T s vo -> queue s <> [] ->
  exists ev, In ev (queue s) /\ (forall ev', In ev' (queue s) -> ev' = ev \/ kless (pc s) (evn s ev) (evn s ev'))
  /\ (forall pick, pop Linear pick s = Ok (ev, unqueue ev s))
  /\ T <= time_of s ev /\ inv (time_of s ev) s vo
  /\ (forall ev', In ev' (queue s) -> time_of s ev <= time_of s ev')
  /\ (forall i, ev = EL i -> forall j, In j (line s) -> time_of s ev < hi (pc s j)).
Proof.
  intros T s vo Hi Hne. pose proof Hi as [Hw Hb _ _ _].
  destruct (pop_least T s vo Hw Hb Hne) as (ev & Hin & Hmin & Hpop).
  assert (Hle : forall ev', In ev' (queue s) -> time_of s ev <= time_of s ev').
  { intros ev' H. destruct (Hmin ev' H) as [-> |K]; [apply Qcle_refl|]. unfold time_of, ev_time. cbn [SweepLink.abs vp].
    destruct (evn s ev) as (b1, i1), (evn s ev') as (b2, i2). unfold kless in K. cbn [fst snd] in *.
    destruct b1, b2, K as [K|(K & _)]; qlra. }
  exists ev. split; [exact Hin|]. split; [exact Hmin|]. split; [exact Hpop|].
  pose proof (time_after T s vo ev Hi Hin) as HT. split; [exact HT|].
  split; [apply (inv_forward T); assumption|]. split; [exact Hle|].
  intros i -> j Hj. pose proof (b_q V Ts T _ Hb) as Hq.
  pose proof (pending_event e s vo j Hw (active_pending _ _ Hq Hj)) as Rj.
  pose proof (w_lr s Hw j (active_lt _ _ Hq Hj)) as (_ & Ej).
  destruct (Hmin _ Rj) as [K|K]; [discriminate K|]. cbn [evn] in K. rewrite Ej in K. unfold kless in K. cbn [fst snd] in K.
  unfold time_of, ev_time. cbn [SweepLink.abs vp evn fst snd]. destruct K as [K|(_ & [(K & _)|(K & _)])]; [exact K|discriminate K|discriminate K].
Qed.
End Frame.
