(** The end of a labelled sweep.
    Proof support only, no part of /repo is modelled here. *)
From Coq Require Import Permutation.
From Verif Require Import QcTac Geom Spec GeomFacts Relation PairFacts SweepGeo SweepInv SweepSteps Sweep SweepCmp SweepLink Linear SweepRun SweepLoop SweepStart SweepEnd Labelled NaryThms Parity Counting Erase Flow Lonely Beneath Labels.

(** Labels do not matter for what has been swept. *)
Lemma swept_erase : forall l x_max s out, swept l x_max (erase s) out -> swept l x_max s out.
Proof.
  intros l x_max s out [H1 H2 H3 H4 H5 (src & H6 & H7)]. rewrite len_erase in *. constructor.
  - exact H1.
  - exact H2.
  - intros i Hi. specialize (H3 i Hi). rewrite lft_erase, end_erase in H3. exact H3.
  - intros i j Hi Hj Hn. specialize (H4 i j Hi Hj Hn). rewrite !seg_erase, !lft_erase in H4. exact H4.
  - intros i Hi Hn. specialize (H5 i Hi Hn). rewrite end_erase in H5. exact H5.
  - exists src. split.
    + intros i Hi. specialize (H6 i Hi). rewrite lft_erase, seg_erase in H6. exact H6.
    + intros j b sg p E Hp. destruct (H7 j b sg p E Hp) as (i & J1 & J2 & J3). rewrite seg_erase in J3. exists i. tauto.
Qed.
Lemma processed_erase : forall x_max s out pl, processed x_max (erase s) out pl -> processed x_max s out pl.
Proof.
  intros x_max s out pl [(A1 & A2 & A3) H2 H3 H4 H5 H6 H7 H8]. rewrite len_erase in *. constructor.
  - split; [exact A1|]. split.
    + intros i Hi. specialize (A2 i Hi). rewrite lft_erase in A2. exact A2.
    + intros r Hr. specialize (A3 r Hr). rewrite lft_erase in A3. exact A3.
  - intros ev H. specialize (H2 ev H). destruct ev; cbn in *; rewrite ?map_length in H2; exact H2.
  - exact H3.
  - exact H4.
  - exact H5.
  - intros ev R N. specialize (H6 ev). rewrite start_erase in H6. apply H6; [|exact N]. destruct ev; cbn in *; rewrite ?map_length; exact R.
  - intros ev x H E. specialize (H7 ev x H E). rewrite start_erase in H7. exact H7.
  - clear - H8. induction H8 as [|x m So IH F]; constructor; [exact IH|]. revert F. apply Forall_impl. intro y. rewrite !start_erase. exact (fun H => H).
Qed.

(** Labels of processed events: whether their pieces start inside of the other
    operand, and whether they are in the result. *)
Record labels (e : Qc) (v0 : view) (k : kind) (rf : bool -> bool -> overlap_kind -> bool) (reg : bool -> bool) (s : state) (pl : list event) : Prop := {
  la_other : forall i, In (EL i) pl -> reg (negb (l_first (lft s i))) = true ->
    l_other (lft s i) = cnt v0 (negb (l_first (lft s i))) (negb (l_first (lft s i))) (pc e s i) (lo (pc e s i));
  la_result : forall i, In (EL i) pl -> exists K, (l_result (lft s i) = rf (l_first (lft s i)) (l_other (lft s i)) K /\ (k = Shaped -> l_kind (lft s i) = K))
    /\ ((K = NONE /\ forall j, In (EL j) pl -> ~ twin (pc e s i) (pc e s j))
        \/ exists j, In (EL j) pl /\ twin (pc e s i) (pc e s j) /\ K = pair_kind k (lft s i) (lft s j));
  la_static : static v0 (abs e s []);
  la_over : forall i j, (i < length (lefts s))%nat -> (j < length (lefts s))%nat -> i <> j -> l_first (lft s i) = l_first (lft s j) ->
    coll (pc e s i) (pc e s j) -> hi (pc e s i) <= lo (pc e s j) \/ hi (pc e s j) <= lo (pc e s i);
  la_inside : forall i t, (i < length (lefts s))%nat -> reg (l_first (lft s i)) = true -> lo (pc e s i) <= t -> t < hi (pc e s i) ->
    cnt v0 (l_first (lft s i)) false (pc e s i) t = negb (l_interior (lft s i));
  la_below : k = Shaped -> forall i c, In (EL i) pl -> l_below (lft s i) = Some c ->
    c <> i /\ In (EL c) pl /\ l_result (lft s c) = true /\ prior (pc e s c) (pc e s i)
}.

(** The event found from the piece right below the start of each one, except
    for vertical pieces above collinear ones. *)
Definition chained (e : Qc) (s : state) (pl : list event) : Prop :=
  forall x, In (EL x) pl -> exists ob, beneath (length (lefts s)) (pc e s) x ob
  /\ match ob with
     | None => l_below (lft s x) = None
     | Some b => In (EL b) pl /\ (l_below (lft s x) = (if l_result (lft s b) then Some b else l_below (lft s b))
         \/ (coll (pc e s b) (pc e s x) /\ l_result (lft s b) = true /\ sl (pc e s x) * e = 1))
     end.

Section End.
Variables (l : tagged) (s0 : state).
Hypothesis Hf : filled l s0.
Hypothesis Hl : lawful l.
Variable e : Qc.
Notation P := (relevant_points s0).
Hypothesis Hsh : Sheared e P.
Variable x_max : option Qc.
Notation stop := (beyond x_max).
Notation V := (V e P).
Notation Ts := (Ts e P).
Notation abs := (abs e).
Notation pc := (pc e).
Notation v0 := (abs s0 []).
Variables (k : kind) (holey : bool) (result : left_event -> bool) (rf : bool -> bool -> overlap_kind -> bool).
Hypothesis Hk : k = Mixed \/ k = Shaped.
Hypothesis Hrf : forall ev, result ev = rf (l_first ev) (l_other ev) (ovl k ev).
Variable reg : bool -> bool.
Hypothesis Hclosed : forall b, reg b = true -> forall t, ends v0 b t = false.
Hypothesis Hinside : forall i, (i < length (lefts s0))%nat -> reg (op (pc s0 i)) = true ->
  forall t, lo (pc s0 i) <= t -> t < hi (pc s0 i) -> cnt v0 (op (pc s0 i)) false (pc s0 i) t = negb (l_interior (lft s0 i)).

Lemma erase_filled : erase s0 = s0.
Proof.
  destruct s0 as [ls rs q li] eqn:E. unfold erase. cbn [lefts rights queue line]. f_equal.
  apply (nth_ext _ _ (strip no_left) no_left); [apply map_length|]. intros i Hi. rewrite map_length in Hi.
  rewrite map_nth. assert (Hi' : (i < length (lefts s0))%nat) by (rewrite E; exact Hi).
  rewrite <- E in Hf. destruct (in_tag l s0 Hf i Hi') as (b & sg & Eb). pose proof (f_left _ _ Hf i b sg Eb) as K. unfold lft in K. rewrite E in K. cbn [lefts] in K.
  rewrite K. reflexivity.
Qed.

Lemma init_labelled : forall T, good e P s0 T s0 [] -> labelled e P k holey rf s0 reg T s0 [].
Proof.
  intros T Hg. assert (Ev : view_of e s0 [] = v0) by (unfold view_of; rewrite erase_filled; reflexivity).
  assert (Ns : forall i, ~ seen (view_of e s0 []) i).
  { intros i [A|D]; [|exact D]. unfold active in A. rewrite Ev in A. cbn in A. rewrite (f_line _ _ Hf) in A. exact A. }
  constructor.
  - rewrite erase_filled. exact Hg.
  - rewrite Ev. apply static_refl.
  - intros i _. rewrite <- lft_erase, erase_filled. reflexivity.
  - intros i Si. elim (Ns i Si).
  - intros i Si. elim (Ns i Si).
  - intros i Si. elim (Ns i Si).
  - intros _ _ P0. rewrite Ev. split; [exact P0|]. rewrite <- Ev. split; [split; intros x z Sx|intros x Sx]; elim (Ns x Sx).
Qed.

(** Nothing awaits after the end. *)
Lemma end_labels : forall T s pl sf, labelled e P k holey rf s0 reg T s pl -> going stop (erase s) pl -> ended e P stop (erase s) pl (erase sf) ->
  lefts sf = lefts s -> rights sf = rights s -> labels e v0 k rf reg sf pl /\ (k = Shaped -> holey = true -> cleared V v0 -> chained e sf pl).
Proof.
  intros T s pl sf [Hg Hst _ Ho Hr Hpo Hun] Hgo He E1 E2.
  pose proof (k_inv _ _ _ _ _ _ Hg) as Hi. pose proof (i_wf _ _ _ _ _ Hi) as Hw. pose proof (i_base _ _ _ _ _ Hi) as Hb.
  pose proof (b_q _ _ _ _ Hb) as Hq. pose proof (b_geo _ _ _ _ Hb) as Hgeo.
  destruct (final_time s0 e Hsh x_max T (erase s) pl (erase sf) Hg Hgo He) as (T' & _ & Hpast & Hrest).
  assert (Elft : forall i, lft sf i = lft s i) by (intro i; unfold lft; rewrite E1; reflexivity).
  assert (Epc : forall i, pc sf i = vp (view_of e s pl) i).
  { intro i. unfold view_of. cbn [SweepLink.abs vp]. rewrite pc_erase. unfold SweepCmp.pc, end_of, rgt. rewrite Elft, E2. reflexivity. }
  assert (Seen : forall i, In (EL i) pl -> seen (view_of e s pl) i).
  { intros i H. apply (k_pl _ _ _ _ _ _ Hg) in H. destruct H as (R & N). destruct (status (view_of e s pl) i Hq R) as [F|[A|D]]; [|left; exact A|right; exact D].
    exfalso. apply N. exact (proj1 (future_event e (erase s) (finished (erase s) pl) i) F). }
  assert (En : length (lefts sf) = vn (view_of e s pl)) by (unfold view_of; cbn [SweepLink.abs vn]; rewrite len_erase, E1; reflexivity).
  assert (Unseen : forall i, seen (view_of e s pl) i -> In (EL i) pl).
  { intros i H. pose proof (seen_lt _ i Hq H) as R. apply (k_pl _ _ _ _ _ _ Hg). split; [exact R|]. intro J.
    assert (F : future (view_of e s pl) i) by (apply future_event; exact J). destruct H as [A|D]; [exact (active_not_future _ i Hq A F)|].
    apply (q_done _ Hq) in D. apply (proj2 D). apply (q_left _ Hq). exact F. }
  assert (Late : forall i, In (EL i) pl -> ~ awaiting (view_of e s pl) i).
  { intros i Hin (_ & y & Fy & _ & Ly & _). apply future_event in Fy. destruct (Hrest _ Fy) as (K & _). pose proof (Hpast (EL i) Hin) as K'.
    assert (Ey : pos e (ev_start (erase s) (EL y)) = lo (vp (view_of e s pl) y)) by reflexivity.
    assert (Ei : pos e (ev_start (erase s) (EL i)) = lo (vp (view_of e s pl) i)) by reflexivity.
    rewrite Ey in K. rewrite Ei in K'. rewrite Ly in K. qlra. }
  split.
  2:{ intros Ks Eh P0. destruct (Hun Ks Eh P0) as (_ & _ & Lk).
      intros x Hx. destruct (Lk x (Seen x Hx) (Late x Hx)) as (ob & Bx & E). exists ob.
      assert (Ep : forall i, vp (view_of e s pl) i = pc sf i) by (intro i; symmetry; apply Epc).
      split.
      - rewrite En. destruct ob as [b|]; unfold beneath in *.
        + destruct Bx as (B1 & B3 & B4). rewrite !Ep in B3. split; [exact B1|]. split; [exact B3|]. intros y Hy. specialize (B4 y Hy). rewrite !Ep in B4. exact B4.
        + intros y Hy. specialize (Bx y Hy). rewrite !Ep in Bx. exact Bx.
      - destruct ob as [b|]; rewrite !Elft; [|exact E]. destruct E as (Sb & E). split; [exact (Unseen b Sb)|]. rewrite <- !Ep. exact E. }
  constructor.
  - intros i Hin Hreg. rewrite Elft in *. specialize (Ho i (Seen i Hin)). unfold other_right in Ho.
    assert (Eo : op (vp (view_of e s pl) i) = l_first (lft s i)) by (rewrite <- Epc, <- Elft; reflexivity).
    rewrite Eo in Ho. rewrite (Ho Hreg), Epc; [apply (proj1 Hst)|].
    exact (Late i Hin).
  - intros i Hin. rewrite !Elft. destruct (Hr i (Seen i Hin)) as (K & EK & H). exists K. split; [exact EK|].
    destruct H as [(-> & H)|(j & J1 & J2 & J3)].
    + left. split; [reflexivity|]. intros j Hj. rewrite !Epc. apply H. apply Seen. exact Hj.
    + right. exists j. rewrite !Epc, Elft. split; [apply Unseen; exact J1|]. split; [exact J2|exact J3].
  - split.
    + intros b c z t. rewrite <- (proj1 Hst b c z t). unfold cnt. change (vn (abs sf [])) with (length (lefts sf)). rewrite En.
      apply parity_ext. intros i _. change (vp (abs sf []) i) with (pc sf i). rewrite Epc. reflexivity.
    + intros b t. rewrite <- (proj2 Hst b t). unfold ends. change (vn (abs sf [])) with (length (lefts sf)). rewrite En.
      apply parity_ext. intros i _. change (vp (abs sf []) i) with (pc sf i). rewrite Epc. reflexivity.
  - intros i j Hi' Hj Hn Ho' Hc. rewrite En in Hi', Hj. rewrite !Epc in *.
    apply (g_over _ _ _ Hgeo i j Hi' Hj Hn); [|exact Hc]. rewrite <- !Epc. exact Ho'.
  - intros i t Hi' Hreg H1 H2. rewrite E1 in Hi'. rewrite !Elft in *.
    assert (Ep : pc sf i = pc s i) by (unfold SweepCmp.pc, end_of, rgt; rewrite Elft, E2; reflexivity). rewrite Ep in *.
    rewrite <- (proj1 Hst). eapply inside_now; try eassumption. exact (init_len l s0 Hf Hl e Hsh).
  - intros Ks i c Hin E. rewrite Elft in *. destruct (Hpo i (Seen i Hin) Ks c E) as (P1 & P2 & P3 & P4 & _). rewrite !Epc.
    split; [exact P1|]. split; [exact (Unseen c P2)|]. split; [exact P3|exact P4].
Qed.

Theorem labelled_sweep : exists s out pl, swept l x_max s out /\ processed x_max s out pl /\ labels e v0 k rf reg s pl
  /\ out = map (left_of s) (filter (fun ev => negb (is_left ev)) pl)
  /\ (forall o put step, by_left put ->
        (forall m ev s1 s2, process_labelled k holey result o m ev s1 = Ok (s2, true) -> step m ev s1 = Ok (s2, put ev s2)) ->
        run k step stop o (enough (length l)) 0 s0 [] = Ok (s, flat_map (fun ev => put ev s) pl))
  /\ (forall o step, (forall m ev s1 s2, process_labelled k holey result o m ev s1 = Ok (s2, true) -> step m ev s1 = Ok (s2, [ev])) ->
        popped k stop step o (enough (length l)) 0 s0 (map (fun ev => (ev, ev_start s ev)) pl) s)
  /\ (k = Shaped -> holey = true -> cleared V v0 -> chained e s pl).
Proof.
  destruct (init_good _ _ Hf Hl e Hsh) as (T0 & Hk0 & Hm). pose proof (init_labelled T0 Hk0) as Hlb.
  destruct (run_labelled e P Hsh k holey result rf Hk Hrf s0 reg (init_len l s0 Hf Hl e Hsh) Hclosed Hinside stop (enough (length l)) T0 s0 [] Hlb) as
    (T & s & pl & sf & Hlb' & Hg & He & E1 & E2 & R & new & En & _ & Q).
  - intros ev [].
  - rewrite erase_filled. lia.
  - pose proof (lb_good _ _ _ _ _ _ _ _ _ _ Hlb') as Hk'.
    destruct (final_swept l s0 Hf e Hsh x_max T (erase s) pl (erase sf) Hk' Hg He) as (H1 & H2).
    exists sf, (rev (finished (erase s) pl)), pl. split; [exact (swept_erase _ _ _ _ H1)|]. split; [exact (processed_erase _ _ _ _ H2)|].
    destruct (end_labels T s pl sf Hlb' Hg He E1 E2) as (La & Ch). split; [exact La|]. split; [|split; [|split; [|exact Ch]]].
    + unfold finished. rewrite rev_involutive. apply map_ext_in. intros ev _. destruct ev; [reflexivity|]. cbn. unfold rgt. rewrite E2. reflexivity.
    + intros o put step Hput Hstep. exact (R o 0%nat put step Hput Hstep).
    + intros o step Hstep. cbn [app] in En. subst new. exact (Q o 0%nat step Hstep).
Qed.
End End.
